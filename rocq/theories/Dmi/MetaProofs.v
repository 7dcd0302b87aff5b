(** Proofs for C33: layout of parsed metadata. *)
From Coq Require Import String List NArith ZArith Lia Bool.
From Verif Require Import Common.Text Common.Decimal Dmi.Model Dmi.Spec.
Import ListNotations.
Open Scope Z_scope.

Section MetaProofs.
  Context {F : Type} (parse_f32 : text -> option F) (is_one : F -> bool).
  Notation State := (@State F).
  Notation Metadata := (@Metadata F).
  Notation pstate := (@pstate F).

  Definition count_name (n : text) (l : list State) : Z :=
    Z.of_nat (length (filter (same_name n) l)).

  Lemma count_name_app : forall n l1 l2, count_name n (l1 ++ l2) = count_name n l1 + count_name n l2.
  Proof. intros. unfold count_name. rewrite filter_app, app_length. lia. Qed.
  Lemma count_name_nonneg : forall n l, 0 <= count_name n l.
  Proof. intros. unfold count_name. lia. Qed.
  Lemma count_name_one : forall n s, count_name n [s] = if text_eqb (name s) n then 1 else 0.
  Proof. intros. unfold count_name. cbn [filter]. unfold same_name. destruct (text_eqb (name s) n); reflexivity. Qed.

  Lemma total_app : forall l1 l2 : list State, total (l1 ++ l2) = total l1 + total l2.
  Proof.
    unfold total. induction l1 as [|s l1 IH]; intro l2; cbn [map fold_right app]; [lia|].
    rewrite IH. lia.
  Qed.
  Lemma total_one : forall s : State, total [s] = sprites s.
  Proof. intros. unfold total. cbn [map fold_right]. lia. Qed.
  Lemma total_nonneg : forall l : list State, Forall (fun s => 0 <= frames_count (frames s)) l -> 0 <= total l.
  Proof.
    induction 1 as [|s l Hs Hl IH]; unfold total in *; cbn [map fold_right]; [lia|].
    unfold sprites at 1. destruct (dirs s); cbn [dirs_count]; lia.
  Qed.

  Lemma index_eqb_spec : forall k k', reflect (k = k') (index_eqb k k').
  Proof.
    intros [n i] [n' i']. unfold index_eqb. cbn [fst snd].
    destruct (text_eqb_spec n n') as [->|Hn]; cbn [andb]; [|constructor; congruence].
    destruct (Z.eqb_spec i i') as [->|Hi]; constructor; congruence.
  Qed.

  (** what holds of the list of states (including the one being read) *)
  Record wf (all : list State) (names : list ((text * Z) * Z)) : Prop := {
    wf_split : forall pre s post, all = pre ++ s :: post ->
      st_offset s = total pre /\ duplicate_index s = count_name (name s) pre;
    wf_frames : Forall (fun s => 0 <= frames_count (frames s)) all;
    wf_names : forall k i, names_get names k = Some i <->
      0 <= i /\ exists s, nth_error all (Z.to_nat i) = Some s /\ get_state_name_index s = k }.

  Definition all_of (p : pstate) : list State :=
    states (p_meta p) ++ match p_state p with Some s => [s] | None => [] end.

  Record inv (p : pstate) : Prop := {
    inv_wf : wf (all_of p) (state_names (p_meta p));
    inv_frames : p_frames p = total (states (p_meta p));
    inv_dups : forall n, dup_get (p_dups p) n = count_name n (all_of p) }.

  Lemma parse_u_nonneg : forall m v z, parse_u m v = Done z -> 0 <= z.
  Proof. unfold parse_u. intros m v z H. destruct (parse_uint m v); inversion H; lia. Qed.

  Lemma nth_error_snoc : forall A (l : list A) (x : A) i,
    nth_error (l ++ [x]) i = if Nat.eqb i (length l) then Some x else nth_error l i.
  Proof.
    intros A l x i. destruct (Nat.eqb_spec i (length l)) as [->|Hne].
    - rewrite nth_error_app2, Nat.sub_diag by lia. reflexivity.
    - destruct (Nat.lt_ge_cases i (length l)).
      + apply nth_error_app1. assumption.
      + assert (E1 : nth_error l i = None) by (apply nth_error_None; lia).
        rewrite E1. apply nth_error_None. rewrite app_length. cbn [length]. lia.
  Qed.

  (** replacing the last state by one with the same identity *)
  Lemma wf_replace : forall l s s' names, wf (l ++ [s]) names ->
    name s' = name s -> duplicate_index s' = duplicate_index s -> st_offset s' = st_offset s ->
    0 <= frames_count (frames s') -> wf (l ++ [s']) names.
  Proof.
    intros l s s' names [W1 W2 W3] Hn Hd Ho Hf. split.
    - intros pre x post E. destruct (exists_last (l := x :: post) ltac:(discriminate)) as (post' & y & Ey).
      rewrite Ey in E.
      assert (E' : pre ++ post' ++ [y] = (pre ++ post') ++ [y]) by apply app_assoc.
      rewrite E' in E. apply app_inj_tail in E. destruct E as [El Es]. subst y.
      destruct post' as [|z post'].
      + cbn [app] in Ey. injection Ey as Ex Ep. subst x post. rewrite app_nil_r in El. subst pre.
        rewrite Ho, Hn, Hd. destruct (W1 l s [] eq_refl) as [A B]. split; assumption.
      + cbn [app] in Ey. injection Ey as Ex Ep. subst z.
        apply (W1 pre x (post' ++ [s])). rewrite El, <- app_assoc. reflexivity.
    - apply Forall_app in W2. destruct W2 as [W2 _]. apply Forall_app. split; [exact W2|].
      constructor; [exact Hf | constructor].
    - intros k i. rewrite W3. split; intros [Hi (x & Hx & Hk)]; (split; [exact Hi|]).
      + rewrite nth_error_snoc in Hx |- *. destruct (Nat.eqb _ _).
        * injection Hx as <-. exists s'. split; [reflexivity|].
          rewrite <- Hk. unfold get_state_name_index. congruence.
        * exists x. split; assumption.
      + rewrite nth_error_snoc in Hx |- *. destruct (Nat.eqb _ _).
        * injection Hx as <-. exists s. split; [reflexivity|].
          rewrite <- Hk. unfold get_state_name_index. congruence.
        * exists x. split; assumption.
  Qed.

  Lemma count_replace : forall l s s' n, name s' = name s -> count_name n (l ++ [s']) = count_name n (l ++ [s]).
  Proof. intros l s s' n H. rewrite !count_name_app, !count_name_one, H. reflexivity. Qed.

  Lemma on_state_inv : forall p f p', inv p -> on_state p f = Done p' ->
    (forall s s', p_state p = Some s -> f s = Done s' ->
       name s' = name s /\ duplicate_index s' = duplicate_index s /\ st_offset s' = st_offset s /\
       (0 <= frames_count (frames s) -> 0 <= frames_count (frames s'))) ->
    inv p'.
  Proof.
    intros p f p' [I1 I2 I3] H Hf. unfold on_state in H.
    destruct (p_state p) as [s|] eqn:Es; [|discriminate].
    destruct (f s) as [s'| |] eqn:Ef; cbn [bind] in H; try discriminate. injection H as <-.
    destruct (Hf s s' eq_refl Ef) as (Hn & Hd & Ho & Hfr).
    unfold all_of in *. rewrite Es in *. split; cbn [p_meta p_state p_frames p_dups all_of].
    - unfold all_of. cbn [p_meta p_state]. apply wf_replace with (s := s); try assumption.
      apply Hfr. pose proof (wf_frames _ _ I1) as W. apply Forall_app in W. destruct W as [_ W].
      inversion W; assumption.
    - exact I2.
    - intro n. rewrite I3. unfold all_of. cbn [p_meta p_state]. symmetry. apply count_replace. exact Hn.
  Qed.

  (** keys of two states in a well-formed list differ *)
  Lemma wf_key_inj : forall all names i j s t, wf all names ->
    nth_error all i = Some s -> nth_error all j = Some t ->
    get_state_name_index s = get_state_name_index t -> i = j.
  Proof.
    intros all names i j s t W Hi Hj Hk.
    apply Nat2Z.inj.
    assert (A : names_get names (get_state_name_index s) = Some (Z.of_nat i)).
    { apply (wf_names _ _ W). split; [lia|]. exists s. rewrite Nat2Z.id. auto. }
    assert (B : names_get names (get_state_name_index s) = Some (Z.of_nat j)).
    { apply (wf_names _ _ W). split; [lia|]. exists t. rewrite Nat2Z.id. auto. }
    congruence.
  Qed.

  Lemma dup_get_cons : forall m n k v, dup_get ((n, v) :: m) k = if text_eqb k n then v else dup_get m k.
  Proof. reflexivity. Qed.

  Lemma text_eqb_sym : forall x y, text_eqb x y = text_eqb y x.
  Proof. intros x y. destruct (text_eqb_spec x y), (text_eqb_spec y x); congruence. Qed.

  Lemma new_state_inv : forall p v p', inv p -> new_state p v = Done p' ->
    inv p' /\ states (p_meta p') = all_of p /\
    (exists s, p_state p' = Some s /\ unquote v = Done (name s) /\ dirs s = DOne /\ frames s = FOne /\
       loop_ s = 0 /\ rewind s = false /\ movement s = false) /\
    width (p_meta p') = width (p_meta p) /\ height (p_meta p') = height (p_meta p).
  Proof.
    intros p v p' [I1 I2 I3] H. unfold new_state in H.
    destruct (push_current p) as [[meta so_far]| |] eqn:Ep; cbn [bind] in H; try discriminate.
    destruct (unquote v) as [u| |] eqn:Eu; cbn [bind] in H; try discriminate.
    destruct (_ || _) eqn:Ec; [discriminate|].
    assert (Hp : states meta = all_of p /\ state_names meta = state_names (p_meta p) /\ so_far = total (all_of p)
                 /\ width meta = width (p_meta p) /\ height meta = height (p_meta p)).
    { unfold push_current in Ep. unfold all_of. destruct (p_state p) as [s|] eqn:Es.
      - destruct (_ <? _) eqn:El; [|discriminate]. injection Ep as <- <-. cbn [states state_names width height].
        rewrite total_app, total_one, I2. unfold sprites. auto.
      - injection Ep as <- <-. rewrite app_nil_r. auto. }
    destruct Hp as (Hs & Hn & Ht & Hw & Hh). cbv zeta in H. injection H as <-.
    unfold get_state_name_index. cbn [name duplicate_index].
    rewrite I3, Hn.
    set (key := (u, count_name u (all_of p))).
    assert (Hkey : names_get (state_names (p_meta p)) key = None).
    { destruct (names_get (state_names (p_meta p)) key) as [i|] eqn:E; [|reflexivity].
      apply (wf_names _ _ I1) in E. destruct E as [Hi (x & Hx & Hk)].
      destruct (nth_error_split _ _ Hx) as (pre & post & Hsp & Hlen).
      pose proof (proj2 (wf_split _ _ I1 _ _ _ Hsp)) as Hd.
      unfold get_state_name_index, key in Hk. injection Hk as Hk1 Hk2.
      rewrite Hk1, Hk2 in Hd. rewrite Hsp in Hd.
      change (x :: post) with ([x] ++ post) in Hd.
      rewrite !count_name_app, count_name_one, Hk1, text_eqb_refl in Hd.
      pose proof (count_name_nonneg u pre). pose proof (count_name_nonneg u post). lia. }
    rewrite Hkey. cbn [p_meta states p_state].
    split; [|split; [exact Hs|]].
    2:{ split; [|split; assumption]. eexists. split; [reflexivity|]. split; [reflexivity|]. repeat split. }
    split; unfold all_of; cbn [p_meta p_state p_frames p_dups states state_names]; fold (all_of p).
    - rewrite Hs. split.
      + intros pre x post E. destruct (exists_last (l := x :: post) ltac:(discriminate)) as (post' & y & Ey).
        rewrite Ey in E. rewrite app_assoc in E. apply app_inj_tail in E. destruct E as [El Es].
        destruct post' as [|z post'].
        * cbn [app] in Ey. injection Ey as Ex Ep'. rewrite app_nil_r in El. subst pre. rewrite Ex, <- Es.
          cbn [st_offset duplicate_index name]. split; [exact Ht | reflexivity].
        * cbn [app] in Ey. injection Ey as Ex Ep'. subst z.
          apply (wf_split _ _ I1 pre x post'). exact El.
      + apply Forall_app. split; [apply (wf_frames _ _ I1)|]. constructor; [cbn; lia | constructor].
      + intros k i. cbn [names_get]. destruct (index_eqb_spec k key) as [->|Hne].
        * split.
          -- intro H. injection H as <-. split; [lia|]. eexists. rewrite Nat2Z.id, nth_error_snoc, Nat.eqb_refl.
             split; reflexivity.
          -- intros [Hi (x & Hx & Hk)]. rewrite nth_error_snoc in Hx.
             destruct (Nat.eqb_spec (Z.to_nat i) (length (all_of p))) as [He|Hne2]; [f_equal; lia|].
             assert (names_get (state_names (p_meta p)) key = Some i); [|congruence].
             apply (wf_names _ _ I1). split; [exact Hi|]. exists x. split; assumption.
        * rewrite (wf_names _ _ I1). split; intros [Hi (x & Hx & Hk)]; (split; [exact Hi|]).
          -- exists x. split; [|exact Hk]. rewrite nth_error_snoc.
             destruct (Nat.eqb_spec (Z.to_nat i) (length (all_of p))) as [He|_]; [|exact Hx].
             assert (nth_error (all_of p) (Z.to_nat i) = None) by (apply nth_error_None; lia). congruence.
          -- rewrite nth_error_snoc in Hx.
             destruct (Nat.eqb_spec (Z.to_nat i) (length (all_of p))) as [He|_].
             ++ injection Hx as <-. contradiction Hne. rewrite <- Hk. reflexivity.
             ++ exists x. split; assumption.
    - rewrite Hs. exact Ht.
    - intro n. rewrite dup_get_cons, Hs. rewrite (count_name_app n (all_of p)), count_name_one. cbn [name].
      rewrite (text_eqb_sym u n). destruct (text_eqb_spec n u) as [->|]; [reflexivity|].
      rewrite I3. lia.
  Qed.

  Lemma parse_line_inv : forall p l p', inv p -> parse_line parse_f32 is_one p l = Done p' -> inv p'.
  Proof.
    intros p l p' I H. unfold parse_line in H.
    destruct (split_once _ _) as [[key value]|]; [|discriminate].
    destruct (text_eqb key (lit "width")).
    { destruct (parse_u _ _) as [w| |]; cbn [bind] in H; try discriminate. injection H as <-.
      destruct I as [I1 I2 I3]. split; assumption. }
    destruct (text_eqb key (lit "height")).
    { destruct (parse_u _ _) as [w| |]; cbn [bind] in H; try discriminate. injection H as <-.
      destruct I as [I1 I2 I3]. split; assumption. }
    destruct (text_eqb key (lit "state")); [apply new_state_inv with (1 := I) in H; apply H|].
    destruct (text_eqb key (lit "dirs")).
    { apply on_state_inv with (1 := I) (2 := H). intros s s' _ Hf.
      destruct (parse_u _ _) as [n| |]; cbn [bind] in Hf; try discriminate.
      repeat (destruct (n =? _)); try discriminate; injection Hf as <-; auto. }
    destruct (text_eqb key (lit "frames")).
    { apply on_state_inv with (1 := I) (2 := H). intros s s' _ Hf.
      destruct (frames s); try discriminate.
      destruct (parse_u _ _) as [n| |] eqn:En; cbn [bind] in Hf; try discriminate.
      apply parse_u_nonneg in En. injection Hf as <-. cbn. auto. }
    destruct (text_eqb key (lit "delay")).
    { apply on_state_inv with (1 := I) (2 := H). intros s s' _ Hf. unfold apply_delay in Hf.
      destruct (parse_all _ _) as [v|]; [|discriminate].
      destruct (frames s) eqn:Efr; try discriminate; destruct (forallb _ _); injection Hf as <-;
        cbn [set_frames name duplicate_index st_offset frames]; try rewrite Efr; cbn [frames_count];
        (split; [reflexivity|]; split; [reflexivity|]; split; [reflexivity|]); lia. }
    destruct (text_eqb key (lit "loop")).
    { apply on_state_inv with (1 := I) (2 := H). intros s s' _ Hf.
      destruct (parse_u _ _) as [n| |]; cbn [bind] in Hf; try discriminate. injection Hf as <-. auto. }
    destruct (text_eqb key (lit "rewind")).
    { apply on_state_inv with (1 := I) (2 := H). intros s s' _ Hf.
      destruct (parse_u _ _) as [n| |]; cbn [bind] in Hf; try discriminate. injection Hf as <-. auto. }
    destruct (text_eqb key (lit "hotspot")); [injection H as <-; exact I|].
    destruct (text_eqb key (lit "movement")); [|discriminate].
    apply on_state_inv with (1 := I) (2 := H). intros s s' _ Hf.
    destruct (parse_u _ _) as [n| |]; cbn [bind] in Hf; try discriminate. injection Hf as <-. auto.
  Qed.

  Lemma parse_lines_inv : forall ls p p', inv p -> parse_lines parse_f32 is_one p ls = Done p' -> inv p'.
  Proof.
    induction ls as [|l ls IH]; intros p p' I H; cbn [parse_lines] in H; [injection H as <-; exact I|].
    destruct (starts_with _ _); [injection H as <-; exact I|].
    destruct (parse_line _ _ p l) as [q| |] eqn:E; cbn [bind] in H; try discriminate.
    apply (IH q p'); [|exact H]. apply parse_line_inv with (1 := I) in E. exact E.
  Qed.

  Definition start : pstate := {| p_meta := empty_meta; p_state := None; p_frames := 0; p_dups := [] |}.

  Lemma wf_nil : wf [] [].
  Proof.
    split; [| constructor |].
    - intros pre s post H. destruct pre; discriminate.
    - intros k i. split; [discriminate|]. intros [_ (s & H & _)]. destruct (Z.to_nat i); discriminate.
  Qed.

  Lemma start_inv : inv start.
  Proof. split; [exact wf_nil | reflexivity | reflexivity]. Qed.

  Lemma parse_wf : forall data m, parse_metadata parse_f32 is_one data = Done m -> wf (states m) (state_names m).
  Proof.
    intros data m H. unfold parse_metadata in H. destruct data as [|c data].
    { injection H as <-. exact wf_nil. }
    destruct (lines (c :: data)) as [|h1 [|h2 ls]]; try discriminate.
    destruct (_ && _); [|discriminate].
    fold start in H. destruct (parse_lines _ _ start ls) as [p| |] eqn:E; cbn [bind] in H; try discriminate.
    injection H as <-. cbn [states state_names].
    apply (inv_wf p). apply parse_lines_inv with (2 := E). exact start_inv.
  Qed.

  (** ** indexing *)
  Lemma dir_idx_range : forall ds d, 0 <= dir_idx ds d < dirs_count ds.
  Proof. intros [] []; cbn; lia. Qed.

  Lemma dir_idx_inj : forall ds d d', has_dir ds d -> has_dir ds d' -> dir_idx ds d = dir_idx ds d' -> d = d'.
  Proof. intros [] [] []; cbn; intuition (try discriminate; try congruence). Qed.

  Lemma dir_idx_surj : forall ds i, 0 <= i < dirs_count ds -> exists d, has_dir ds d /\ dir_idx ds d = i.
  Proof.
    intros ds i Hi. destruct ds; cbn [dirs_count] in Hi.
    - exists South. cbn. split; [reflexivity | lia].
    - assert (i = 0 \/ i = 1 \/ i = 2 \/ i = 3) as [ -> | [ -> | [ -> | -> ]]] by lia;
        [exists South | exists North | exists East | exists West]; cbn; tauto.
    - assert (i = 0 \/ i = 1 \/ i = 2 \/ i = 3 \/ i = 4 \/ i = 5 \/ i = 6 \/ i = 7)
        as [ -> | [ -> | [ -> | [ -> | [ -> | [ -> | [ -> | -> ]]]]]]] by lia;
        [exists South | exists North | exists East | exists West | exists Southeast | exists Southwest
        | exists Northeast | exists Northwest]; cbn; tauto.
  Qed.

  Lemma firstn_nth_split : forall A (l : list A) i x, nth_error l i = Some x ->
    l = firstn i l ++ x :: skipn (S i) l.
  Proof.
    induction l as [|y l IH]; intros [|i] x H; try discriminate.
    - injection H as ->. reflexivity.
    - cbn [firstn skipn app]. f_equal. apply IH. exact H.
  Qed.

  Lemma index_value : forall all names i s d f, wf all names -> total all < 2 ^ 32 ->
    nth_error all i = Some s -> 0 <= f < frames_count (frames s) ->
    index_of_frame s d f = Done (total (firstn i all) + (f * dirs_count (dirs s) + dir_idx (dirs s) d)) /\
    0 <= total (firstn i all) /\ total (firstn i all) + sprites s <= total all /\
    0 <= f * dirs_count (dirs s) + dir_idx (dirs s) d < sprites s.
  Proof.
    intros all names i s d f W Ht Hi Hf.
    pose proof (firstn_nth_split _ _ _ _ Hi) as Hsp.
    destruct (wf_split _ _ W _ _ _ Hsp) as [Ho _].
    pose proof (wf_frames _ _ W) as Wf. rewrite Hsp in Wf. apply Forall_app in Wf. destruct Wf as [Wf1 Wf2].
    pose proof (Forall_inv_tail Wf2) as Wf3. apply total_nonneg in Wf1. apply total_nonneg in Wf3.
    assert (Htot : total all = total (firstn i all) + sprites s + total (skipn (S i) all)).
    { rewrite Hsp at 1. rewrite total_app. change (s :: skipn (S i) all) with ([s] ++ skipn (S i) all).
      rewrite total_app, total_one. lia. }
    pose proof (dir_idx_range (dirs s) d) as Hd.
    assert (Hin : 0 <= f * dirs_count (dirs s) + dir_idx (dirs s) d < sprites s).
    { unfold sprites. destruct (dirs s); cbn [dirs_count] in *; lia. }
    split; [|split; [exact Wf1 | split; [lia | exact Hin]]].
    unfold index_of_frame, index_of_dir, u32. rewrite Ho.
    rewrite Z.mod_small by (split; [exact Wf1 | lia]).
    assert (0 <= f * dirs_count (dirs s)) by (destruct (dirs s); cbn [dirs_count] in *; lia).
    replace (_ <? 2 ^ 32) with true by (symmetry; apply Z.ltb_lt; lia).
    replace (f * dirs_count (dirs s) <? 2 ^ 32) with true by (symmetry; apply Z.ltb_lt; lia).
    replace (_ <? 2 ^ 32) with true by (symmetry; apply Z.ltb_lt; lia).
    f_equal. lia.
  Qed.

  Lemma total_firstn_mono : forall all i j s, Forall (fun s : State => 0 <= frames_count (frames s)) all ->
    (i < j)%nat -> nth_error all i = Some s -> total (firstn i all) + sprites s <= total (firstn j all).
  Proof.
    intros all i j s W Hij Hi.
    assert (E : firstn j all = firstn i all ++ s :: firstn (j - S i) (skipn (S i) all)).
    { rewrite (firstn_nth_split _ _ _ _ Hi) at 1.
      assert (Hl : length (firstn i all) = i).
      { rewrite firstn_length. assert (i < length all)%nat by (apply nth_error_Some; congruence). lia. }
      replace j with (length (firstn i all) + S (j - S i))%nat by lia.
      rewrite firstn_app_2. cbn [firstn]. rewrite Hl. f_equal. f_equal. f_equal. lia. }
    rewrite E. rewrite total_app. change (s :: ?x) with ([s] ++ x). rewrite total_app, total_one.
    assert (0 <= total (firstn (j - S i) (skipn (S i) all))); [|lia].
    apply total_nonneg. rewrite Forall_forall in W |- *. intros x Hx. apply W.
    rewrite (firstn_nth_split _ _ _ _ Hi). apply in_or_app. right. right.
    rewrite <- (firstn_skipn (j - S i) (skipn (S i) all)). apply in_or_app. left. exact Hx.
  Qed.

  Lemma index_inj : forall all names i j s t d e f h k, wf all names -> total all < 2 ^ 32 ->
    nth_error all i = Some s -> nth_error all j = Some t ->
    has_dir (dirs s) d -> has_dir (dirs t) e ->
    0 <= f < frames_count (frames s) -> 0 <= h < frames_count (frames t) ->
    index_of_frame s d f = Done k -> index_of_frame t e h = Done k -> i = j /\ d = e /\ f = h.
  Proof.
    intros all names i j s t d e f h k W Ht Hi Hj Hd He Hf Hh Ik Jk.
    destruct (index_value _ _ _ _ d f W Ht Hi Hf) as (A & A0 & A1 & A2).
    destruct (index_value _ _ _ _ e h W Ht Hj Hh) as (B & B0 & B1 & B2).
    rewrite Ik in A. rewrite Jk in B. injection A as A. injection B as B.
    assert (i = j).
    { destruct (Nat.lt_trichotomy i j) as [L|[E|L]]; [|exact E|].
      - pose proof (total_firstn_mono _ _ _ _ (wf_frames _ _ W) L Hi). lia.
      - pose proof (total_firstn_mono _ _ _ _ (wf_frames _ _ W) L Hj). lia. }
    subst j. assert (s = t) by congruence. subst t.
    pose proof (dir_idx_range (dirs s) d) as Rd. pose proof (dir_idx_range (dirs s) e) as Re.
    assert (Efh : f = h) by (destruct (dirs s); cbn [dirs_count] in *; lia).
    subst h. split; [reflexivity|]. split; [|reflexivity].
    apply (dir_idx_inj (dirs s)); try assumption. lia.
  Qed.

  Lemma index_surj : forall all names k, wf all names -> total all < 2 ^ 32 -> 0 <= k < total all ->
    exists i s d f, nth_error all i = Some s /\ has_dir (dirs s) d /\ 0 <= f < frames_count (frames s) /\
      index_of_frame s d f = Done k.
  Proof.
    intros all names k W Ht Hk.
    assert (Hex : forall n, (n <= length all)%nat -> k < total (firstn n all) ->
              exists i s, (i < n)%nat /\ nth_error all i = Some s /\
                total (firstn i all) <= k < total (firstn i all) + sprites s).
    { induction n as [|n IH]; intros Hn Hkn.
      - change (firstn 0 all) with (@nil State) in Hkn. change (total (@nil State)) with 0 in Hkn. lia.
      - destruct (nth_error all n) as [s|] eqn:En.
        2:{ apply nth_error_None in En. lia. }
        destruct (Z_lt_le_dec k (total (firstn n all))) as [L|L].
        + destruct (IH ltac:(lia) L) as (i & t & H1 & H2 & H3). exists i, t. split; [lia|]. auto.
        + exists n, s. split; [lia|]. split; [exact En|]. split; [exact L|].
          assert (Es : firstn (S n) all = firstn n all ++ [s]).
          { clear -En. revert all En. induction n as [|n IH]; intros [|y l] En; try discriminate.
            - injection En as ->. reflexivity.
            - cbn [firstn app]. f_equal. apply IH. exact En. }
          rewrite Es, total_app, total_one in Hkn. exact Hkn. }
    destruct (Hex (length all) (le_n _)) as (i & s & _ & Hi & Hr); [rewrite firstn_all; lia|].
    set (q := k - total (firstn i all)).
    assert (Hq : 0 <= q < sprites s) by (unfold q; lia).
    assert (Hc : 0 < dirs_count (dirs s)) by (destruct (dirs s); cbn; lia).
    destruct (dir_idx_surj (dirs s) (q mod dirs_count (dirs s))) as (d & Hd1 & Hd2); [apply Z.mod_pos_bound; exact Hc|].
    exists i, s, d, (q / dirs_count (dirs s)).
    assert (Hf : 0 <= q / dirs_count (dirs s) < frames_count (frames s)).
    { split; [apply Z.div_pos; lia|]. apply Z.div_lt_upper_bound; [exact Hc|]. unfold sprites in Hq. lia. }
    split; [exact Hi|]. split; [exact Hd1|]. split; [exact Hf|].
    destruct (index_value _ _ _ _ d _ W Ht Hi Hf) as (A & _). rewrite A. f_equal.
    rewrite Hd2. pose proof (Z.div_mod q (dirs_count (dirs s)) ltac:(lia)). unfold q in *. lia.
  Qed.

  Lemma index_default : forall (s : State) d f, ~ has_dir (dirs s) d -> index_of_frame s d f = index_of_frame s South f.
  Proof.
    intros s d f H. unfold index_of_frame, index_of_dir.
    destruct (dirs s), d; cbn in *; try reflexivity; exfalso; apply H; tauto.
  Qed.

  Lemma lookup_exact : forall m, wf (states m) (state_names m) ->
    (forall i s, nth_error (states m) i = Some s ->
       get_icon_state m (name s, Z.of_nat (length (filter (same_name (name s)) (firstn i (states m))))) = Done (Some s)
       /\ duplicate_index s = Z.of_nat (length (filter (same_name (name s)) (firstn i (states m))))) /\
    (forall k, get_icon_state m k = Done None \/
       exists s, In s (states m) /\ (name s, duplicate_index s) = k /\ get_icon_state m k = Done (Some s)).
  Proof.
    intros m W. split.
    - intros i s Hi. destruct (wf_split _ _ W _ _ _ (firstn_nth_split _ _ _ _ Hi)) as [_ Hd].
      unfold count_name in Hd. rewrite <- Hd. split; [|reflexivity].
      unfold get_icon_state.
      assert (A : names_get (state_names m) (name s, duplicate_index s) = Some (Z.of_nat i)).
      { apply (wf_names _ _ W). split; [lia|]. exists s. rewrite Nat2Z.id. split; [exact Hi | reflexivity]. }
      rewrite A, Nat2Z.id, Hi. reflexivity.
    - intro k. unfold get_icon_state. destruct (names_get (state_names m) k) as [i|] eqn:E; [|left; reflexivity].
      right. apply (wf_names _ _ W) in E. destruct E as [Hi (s & Hs & Hk)]. exists s. rewrite Hs.
      split; [eapply nth_error_In; eassumption|]. split; [exact Hk | reflexivity].
  Qed.

  (** ** rectangles *)
  Lemma rect_value : forall m bw bh s d f k, wf (states m) (state_names m) ->
    0 < width m -> 0 < height m -> bw < 2 ^ 32 -> bh < 2 ^ 32 -> width m <= bw ->
    total (states m) <= (bw / width m) * (bh / height m) -> total (states m) < 2 ^ 32 ->
    In s (states m) -> index_of_frame s d f = Done k -> 0 <= k < total (states m) ->
    rect_of m bw (name s, duplicate_index s) d f =
      Done (Some ((k mod (bw / width m)) * width m, (k / (bw / width m)) * height m, width m, height m)) /\
    0 < bw / width m /\
    rect_inside bw bh ((k mod (bw / width m)) * width m, (k / (bw / width m)) * height m, width m, height m).
  Proof.
    intros m bw bh s d f k W Hw Hh Hbw Hbh Hwb Ht Ht2 Hin Hidx Hk.
    set (cols := bw / width m) in *. set (rows := bh / height m) in *.
    assert (Hc : 0 < cols).
    { unfold cols. assert (1 <= bw / width m); [|lia]. apply Z.div_le_lower_bound; lia. }
    assert (Hcw : cols * width m <= bw) by (unfold cols; pose proof (Z.mul_div_le bw (width m) Hw); lia).
    assert (Hrh : rows * height m <= bh) by (unfold rows; pose proof (Z.mul_div_le bh (height m) Hh); lia).
    pose proof (Z.mod_pos_bound k cols Hc) as Hm.
    assert (Hq : 0 <= k / cols < rows).
    { split; [apply Z.div_pos; lia|]. apply Z.div_lt_upper_bound; lia. }
    assert (X : 0 <= k mod cols * width m /\ k mod cols * width m + width m <= bw) by nia.
    assert (Y : 0 <= k / cols * height m /\ k / cols * height m + height m <= bh) by nia.
    split; [|split; [exact Hc | cbn; tauto]].
    unfold rect_of. destruct (states m) as [|s0 l] eqn:El; [contradiction|]. rewrite <- El in *.
    destruct (In_nth_error _ _ Hin) as [i Hi].
    pose proof (proj1 (lookup_exact m W) i s Hi) as [A B]. rewrite <- B in A. rewrite A, Hidx.
    destruct (Z.eqb_spec (width m) 0) as [|_]; [lia|]. cbv zeta. fold cols.
    destruct (Z.eqb_spec cols 0) as [|_]; [lia|].
    unfold u32.
    replace (k mod cols * width m <? 2 ^ 32) with true by (symmetry; apply Z.ltb_lt; lia).
    replace (k / cols * height m <? 2 ^ 32) with true by (symmetry; apply Z.ltb_lt; lia).
    reflexivity.
  Qed.

  Lemma rects_apart : forall w h cols k l, 0 < w -> 0 < h -> 0 < cols -> 0 <= k -> 0 <= l -> k <> l ->
    rects_disjoint (k mod cols * w, k / cols * h, w, h) (l mod cols * w, l / cols * h, w, h).
  Proof.
    intros w h cols k l Hw Hh Hc Hk Hl Hne. cbn.
    pose proof (Z.div_mod k cols ltac:(lia)). pose proof (Z.div_mod l cols ltac:(lia)).
    remember (k mod cols) as km. remember (l mod cols) as lm. remember (k / cols) as kd. remember (l / cols) as ld.
    destruct (Z.lt_trichotomy kd ld) as [L|[E|L]].
    - right; right; left. nia.
    - subst ld. destruct (Z.lt_trichotomy km lm) as [L|[E2|L]].
      + left. nia.
      + exfalso. apply Hne. rewrite E2 in *. rewrite <- E in *. lia.
      + right; left. nia.
    - right; right; right. nia.
  Qed.
End MetaProofs.
