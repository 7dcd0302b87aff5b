(** Proofs for C33: the parser reads back every description. *)
From Coq Require Import String List NArith ZArith Lia Bool.
From Verif Require Import Common.Text Common.Decimal Common.TextFacts Dmi.Model Dmi.Spec Dmi.MetaProofs.
Import ListNotations.
Open Scope Z_scope.

Ltac key_tests :=
  repeat match goal with
  | |- context [text_eqb (lit ?a) (lit ?b)] =>
      let r := eval vm_compute in (text_eqb (lit a) (lit b)) in
      change (text_eqb (lit a) (lit b)) with r; cbv iota
  end.

Section Render.
  Context {F : Type} (parse_f32 : text -> option F) (is_one : F -> bool).
  Notation pstate := (@pstate F).
  Notation State := (@State F).
  Notation PL := (parse_line parse_f32 is_one).

  Definition with_state (p : pstate) (s : State) : pstate :=
    {| p_meta := p_meta p; p_state := Some s; p_frames := p_frames p; p_dups := p_dups p |}.

  (** lines of the form "\tkey = value" *)
  Definition kv (key value : text) : text := 9%N :: key ++ lit " = " ++ value.

  Lemma kv_no_nl : forall key v, ~ In 10%N key -> ~ In 10%N v -> ~ In 10%N (kv key v).
  Proof.
    intros key v Hk Hv [H|H]; [discriminate|]. apply in_app_or in H. destruct H as [H|H]; [contradiction|].
    apply in_app_or in H. destruct H as [H|H]; [|contradiction].
    vm_compute in H. intuition discriminate.
  Qed.
  Lemma kv_last : forall key v, last_ok v -> last_ok (kv key v).
  Proof. intros. unfold kv. apply last_ok_cons, last_ok_app, last_ok_app. assumption. Qed.

  Lemma dirs_line : forall p s d, p_state p = Some s ->
    PL p (kv (lit "dirs") (print_N (Z.to_N (dirs_count d)))) = Done (with_state p (set_dirs s d)).
  Proof.
    intros p s d Hs. destruct d; unfold parse_line, on_state; rewrite Hs; reflexivity.
  Qed.

  Lemma kv_split : forall key v, last_ok v ->
    In key [lit "width"; lit "height"; lit "dirs"; lit "frames"; lit "delay"; lit "loop"; lit "rewind"; lit "movement"] ->
    split_once (lit " = ") (trim (kv key v)) = Some (key, v).
  Proof.
    intros key v Hv Hk. unfold kv. rewrite trim_tab.
    assert (Ht : trim (key ++ lit " = " ++ v) = key ++ lit " = " ++ v).
    { cbn [In] in Hk.
      repeat (destruct Hk as [<-|Hk];
        [match goal with |- trim (lit ?k ++ ?r) = _ =>
           let l := eval cbv in (lit k) in change (lit k) with l end;
         apply trim_ok; [reflexivity|];
         match goal with |- last_ok (?c :: ?l) => idtac end;
         repeat (apply last_ok_cons); exact Hv |]).
      contradiction. }
    rewrite Ht. cbn [In] in Hk.
    repeat (destruct Hk as [<-|Hk]; [reflexivity|]). contradiction.
  Qed.

  Ltac key_in := cbn [In]; tauto.

  Lemma frames_line : forall p s n, p_state p = Some s -> frames s = FOne -> (n <= U64_MAX)%N ->
    PL p (kv (lit "frames") (print_N n)) = Done (with_state p (set_frames s (FCount (Z.of_N n)))).
  Proof.
    intros p s n Hs Hf Hn. unfold parse_line. rewrite kv_split by (apply print_N_last || key_in).
    key_tests. unfold on_state. rewrite Hs, Hf. unfold parse_u.
    rewrite parse_print by exact Hn. reflexivity.
  Qed.

  Lemma loop_line : forall p s n, p_state p = Some s -> (n <= U32_MAX)%N ->
    PL p (kv (lit "loop") (print_N n)) = Done (with_state p (set_loop s (Z.of_N n))).
  Proof.
    intros p s n Hs Hn. unfold parse_line. rewrite kv_split by (apply print_N_last || key_in).
    key_tests. unfold on_state. rewrite Hs. unfold parse_u.
    rewrite parse_print by exact Hn. reflexivity.
  Qed.

  Lemma rewind_line : forall p s b, p_state p = Some s ->
    PL p (kv (lit "rewind") (print_bool b)) = Done (with_state p (set_rewind s b)).
  Proof. intros p s b Hs. destruct b; unfold parse_line, on_state; rewrite Hs; reflexivity. Qed.
  Lemma movement_line : forall p s b, p_state p = Some s ->
    PL p (kv (lit "movement") (print_bool b)) = Done (with_state p (set_movement s b)).
  Proof. intros p s b Hs. destruct b; unfold parse_line, on_state; rewrite Hs; reflexivity. Qed.

  (** delays *)
  Lemma split_join : forall sep l, l <> [] -> (forall t, In t l -> ~ In sep t) -> split_char sep (join sep l) = l.
  Proof.
    induction l as [|t l IH]; intros Hne H; [contradiction|].
    destruct l as [|t' l'].
    - cbn [join]. apply split_char_none. apply H. left. reflexivity.
    - change (join sep (t :: t' :: l')) with (t ++ sep :: join sep (t' :: l')).
      rewrite split_char_app by (apply H; left; reflexivity).
      rewrite IH; [reflexivity | discriminate | intros; apply H; right; assumption].
  Qed.

  Lemma in_join : forall sep l c, In c (join sep l) -> c = sep \/ exists t, In t l /\ In c t.
  Proof.
    induction l as [|t l IH]; intros c H; [contradiction|].
    destruct l as [|t' l'].
    - right. exists t. split; [left; reflexivity | exact H].
    - change (join sep (t :: t' :: l')) with (t ++ sep :: join sep (t' :: l')) in H.
      apply in_app_or in H. destruct H as [H|[H|H]].
      + right. exists t. split; [left; reflexivity | exact H].
      + left. congruence.
      + destruct (IH c H) as [->|(u & Hu & Hc)]; [left; reflexivity|]. right. exists u. split; [right; exact Hu | exact Hc].
  Qed.

  Lemma join_nonempty : forall sep l, l <> [] -> (forall t, In t l -> t <> []) -> join sep l <> [].
  Proof.
    intros sep [|t [|t' l']] Hne H; [contradiction| |].
    - apply H. left. reflexivity.
    - change (join sep (t :: t' :: l')) with (t ++ sep :: join sep (t' :: l')). destruct t; discriminate.
  Qed.

  Lemma parse_all_ok : forall l, (forall t, In t l -> exists f, parse_f32 t = Some f) ->
    exists fs, parse_all parse_f32 l = Some fs /\ Forall2 (fun t x => parse_f32 t = Some x) l fs.
  Proof.
    induction l as [|t l IH]; intro H; [exists []; split; [reflexivity | constructor]|].
    destruct (H t (or_introl eq_refl)) as [f Hf]. destruct IH as (fs & E & H2); [intros; apply H; right; assumption|].
    exists (f :: fs). cbn [parse_all]. rewrite Hf, E. split; [reflexivity | constructor; assumption].
  Qed.

  Lemma set_frames_same : forall (s : State) f, frames s = f -> set_frames s f = s.
  Proof. intros s f <-. destruct s; reflexivity. Qed.

  Lemma delay_line : forall p s l, p_state p = Some s ->
    l <> [] -> frames s = FCount (Z.of_nat (length l)) ->
    (forall t, In t l -> t <> [] /\ (exists f, parse_f32 t = Some f) /\
                            forall c, In c t -> c <> 44%N /\ is_whitespace c = false) ->
    exists fs f, Forall2 (fun t x => parse_f32 t = Some x) l fs /\
      PL p (kv (lit "delay") (join 44%N l)) = Done (with_state p (set_frames s f)) /\
      ((forall x, In x fs -> is_one x = true) /\ f = FCount (Z.of_nat (length l)) \/
       (exists x, In x fs /\ is_one x = false) /\ f = FDelays fs).
  Proof.
    intros p s l Hs Hne Hf H.
    assert (Hj : last_ok (join 44%N l)).
    { apply last_ok_nonws; [apply join_nonempty; [exact Hne | intros t Ht; apply (H t Ht)]|].
      intros c Hc. apply in_join in Hc. destruct Hc as [->|(t & Ht & Hc)]; [reflexivity|].
      apply (H t Ht). exact Hc. }
    destruct (parse_all_ok l) as (fs & Efs & H2); [intros t Ht; apply (H t Ht)|].
    exists fs. unfold parse_line. rewrite kv_split by (exact Hj || key_in). key_tests.
    unfold on_state. rewrite Hs. unfold apply_delay.
    rewrite split_join; [| exact Hne | intros t Ht Hin; apply (H t Ht) in Hin; tauto].
    rewrite Efs, Hf. rewrite Nat2Z.id.
    assert (Hlen : length fs = length l) by (symmetry; eapply Forall2_length; eassumption).
    cbv zeta. replace (firstn (length l) fs) with fs by (rewrite <- Hlen; symmetry; apply firstn_all).
    destruct (forallb is_one fs) eqn:Ef.
    - exists (FCount (Z.of_nat (length l))). split; [exact H2|]. split.
      + cbn [bind]. rewrite set_frames_same by exact Hf. reflexivity.
      + left. split; [|reflexivity]. rewrite forallb_forall in Ef. exact Ef.
    - exists (FDelays fs). split; [exact H2|]. split; [reflexivity|]. right. split; [|reflexivity].
      clear -Ef. induction fs as [|x fs IH]; [discriminate|]. cbn [forallb] in Ef.
      destruct (is_one x) eqn:Ex; [|exists x; split; [left; reflexivity | exact Ex]].
      destruct IH as (y & Hy & Ey); [exact Ef|]. exists y. split; [right; exact Hy | exact Ey].
  Qed.

  Definition sprites_of (d : state_desc) : Z := Z.of_N (d_frames d) * dirs_count (d_dirs d).

  Lemma state_line : forall p v, (forall c, In c v -> c <> 92%N /\ c <> 34%N) ->
    PL p (lit "state = " ++ [34%N] ++ v ++ [34%N]) = new_state p (34%N :: v ++ [34%N]).
  Proof.
    intros p v Hv. unfold parse_line.
    assert (Ht : trim (lit "state = " ++ [34%N] ++ v ++ [34%N]) = lit "state = " ++ [34%N] ++ v ++ [34%N]).
    { match goal with |- trim (lit ?k ++ ?r) = _ =>
        let l := eval cbv in (lit k) in change (lit k) with l end.
      apply trim_ok; [reflexivity|]. repeat (apply last_ok_cons).
      exists v, 34%N. split; reflexivity. }
    rewrite Ht.
    change (split_once (lit " = ") (lit "state = " ++ [34%N] ++ v ++ [34%N]))
      with (Some (lit "state", 34%N :: v ++ [34%N])).
    key_tests. reflexivity.
  Qed.

  Lemma unquote_ok : forall v, unquote (34%N :: v ++ [34%N]) = Done v.
  Proof.
    intro v. unfold unquote. change (34 <? 128)%N with true. cbv iota.
    rewrite rev_app_distr. cbn [rev app]. change (34 <? 128)%N with true. cbv iota.
    rewrite rev_involutive. reflexivity.
  Qed.

  Lemma contains_char_false : forall c v, (forall x, In x v -> x <> c) -> contains_char c v = false.
  Proof.
    intros c v H. unfold contains_char. destruct (existsb (N.eqb c) v) eqn:E; [|reflexivity].
    apply existsb_exists in E. destruct E as (x & Hx & He). apply N.eqb_eq in He. subst x.
    contradiction (H c Hx eq_refl).
  Qed.

  Lemma new_state_ok : forall (p : pstate) v,
    (forall c, In c v -> c <> 92%N /\ c <> 34%N) ->
    inv p -> total (all_of p) < 2 ^ 64 ->
    exists p', new_state p (34%N :: v ++ [34%N]) = Done p'.
  Proof.
    intros p v Hv I Ht. unfold new_state.
    assert (Hp : exists m f, push_current p = Done (m, f)).
    { unfold push_current. unfold all_of in Ht. destruct (p_state p) as [s|] eqn:Es; [|eauto].
      rewrite total_app, total_one, <- (inv_frames _ I) in Ht. unfold sprites in Ht.
      destruct (Z.ltb_spec (p_frames p + frames_count (frames s) * dirs_count (dirs s)) (2 ^ 64)); [eauto | lia]. }
    destruct Hp as (m & f & ->). cbn [bind]. rewrite unquote_ok. cbn [bind].
    rewrite !contains_char_false by (intros x Hx; apply Hv; exact Hx). cbn [orb]. eauto.
  Qed.

  Lemma with_state_inv : forall p s s', inv p -> p_state p = Some s ->
    name s' = name s -> duplicate_index s' = duplicate_index s -> st_offset s' = st_offset s ->
    0 <= frames_count (frames s') -> inv (with_state p s').
  Proof.
    intros p s s' I Hs H1 H2 H3 H4.
    apply (on_state_inv p (fun _ => Done s') (with_state p s') I).
    - unfold on_state. rewrite Hs. reflexivity.
    - intros t t' Ht E. injection E as <-. assert (t = s) by congruence. subst t. auto.
  Qed.

  (** one line after another *)
  Fixpoint run_lines (p : pstate) (ls : list text) : outcome pstate :=
    match ls with
    | [] => Done p
    | l :: ls' => bind (PL p l) (fun q => run_lines q ls')
    end.

  Lemma run_lines_app : forall l1 l2 p,
    run_lines p (l1 ++ l2) = bind (run_lines p l1) (fun q => run_lines q l2).
  Proof.
    induction l1 as [|l l1 IH]; intros l2 p; cbn [run_lines app]; [reflexivity|].
    destruct (PL p l); cbn [bind]; [apply IH | reflexivity | reflexivity].
  Qed.

  Lemma opt_run : forall A (key : text) (f : A -> text) (o : option A) p s (upd : State -> A -> State),
    p_state p = Some s ->
    (forall v, o = Some v -> PL p (kv key (f v)) = Done (with_state p (upd s v))) ->
    run_lines p (opt_line key f o) = Done (with_state p (match o with Some v => upd s v | None => s end)).
  Proof.
    intros A key f o p s upd Hs H. destruct o as [v|]; cbn [opt_line run_lines].
    - fold (kv key (f v)). rewrite (H v eq_refl). reflexivity.
    - unfold with_state. rewrite <- Hs. destruct p; reflexivity.
  Qed.

  Lemma one_state : forall p d, inv p -> total (all_of p) < 2 ^ 64 ->
    desc_ok parse_f32 d ->
    exists p' s, run_lines p (state_lines d) = Done p' /\ inv p' /\ p_state p' = Some s /\
      states (p_meta p') = all_of p /\ denotes parse_f32 is_one d s /\ sprites s = sprites_of d /\
      width (p_meta p') = width (p_meta p) /\ height (p_meta p') = height (p_meta p).
  Proof.
    intros p d I Ht (Hn & Hfr & Hdl & Hlp).
    destruct (new_state_ok p (d_name d)) as [p1 E1]; [intros c Hc; destruct (Hn c Hc) as (_ & A & B); tauto | exact I | exact Ht |].
    destruct (new_state_inv p _ p1 I E1) as (I1 & Hst & (s1 & Hs1 & Hu & Hd1 & Hf1 & Hl1 & Hr1 & Hm1) & Hw & Hh).
    rewrite unquote_ok in Hu. injection Hu as Hname.
    set (s2 := set_frames (set_dirs s1 (d_dirs d)) (FCount (Z.of_N (d_frames d)))).
    assert (Hdelay : exists f, denoted_frames parse_f32 is_one d f /\ frames_count f = Z.of_N (d_frames d) /\
      run_lines (with_state p1 s2) (opt_line (lit "delay") (join 44%N) (d_delays d)) = Done (with_state p1 (set_frames s2 f))).
    { unfold denoted_frames. destruct (d_delays d) as [l|] eqn:El.
      - destruct (Hdl l eq_refl) as (Hlen & Hne & Hts).
        destruct (delay_line (with_state p1 s2) s2 l eq_refl Hne) as (fs & f & H2 & E & Hc).
        { unfold s2. cbn [set_frames frames]. rewrite <- Hlen, nat_N_Z. reflexivity. }
        { exact Hts. }
        exists f. split; [|split].
        + exists fs. split; [exact H2|]. rewrite <- Hlen, nat_N_Z. exact Hc.
        + destruct Hc as [[_ ->]|[_ ->]]; cbn [frames_count]; [rewrite <- Hlen, nat_N_Z; reflexivity|].
          rewrite <- (Forall2_length H2), <- Hlen, nat_N_Z. reflexivity.
        + cbn [opt_line run_lines]. fold (kv (lit "delay") (join 44%N l)). rewrite E. reflexivity.
      - exists (FCount (Z.of_N (d_frames d))). split; [reflexivity|]. split; [reflexivity|].
        cbn [opt_line run_lines]. reflexivity. }
    destruct Hdelay as (f & Hdf & Hfc & Edelay).
    set (s3 := set_frames s2 f) in *.
    set (s4 := match d_loop d with Some v => set_loop s3 (Z.of_N v) | None => s3 end).
    set (s5 := match d_rewind d with Some v => set_rewind s4 v | None => s4 end).
    set (s6 := match d_movement d with Some v => set_movement s5 v | None => s5 end).
    exists (with_state p1 s6), s6.
    assert (Hkeep : name s6 = name s1 /\ duplicate_index s6 = duplicate_index s1 /\ st_offset s6 = st_offset s1 /\
                    frames s6 = f /\ dirs s6 = d_dirs d /\ loop_ s6 = Z.of_N (opt_or (d_loop d) 0%N) /\
                    rewind s6 = opt_or (d_rewind d) false /\ movement s6 = opt_or (d_movement d) false).
    { unfold s6, s5, s4, s3, s2, opt_or.
      destruct (d_loop d), (d_rewind d), (d_movement d);
        cbn [set_movement set_rewind set_loop set_frames set_dirs name duplicate_index st_offset frames dirs loop_ rewind movement];
        repeat split; assumption. }
    destruct Hkeep as (K1 & K2 & K3 & K4 & K5 & K6 & K7 & K8).
    split.
    { unfold state_lines. rewrite run_lines_app. cbn [run_lines].
      assert (E0 : forall l, l = lit "state = " ++ [34%N] ++ d_name d ++ [34%N] -> PL p l = Done p1).
      { intros l ->. rewrite <- E1. apply state_line. intros c Hc; destruct (Hn c Hc) as (_ & A & B); tauto. }
      rewrite E0 by reflexivity. cbn [bind].
      change (9%N :: lit "dirs = " ++ print_N (Z.to_N (dirs_count (d_dirs d))))
        with (kv (lit "dirs") (print_N (Z.to_N (dirs_count (d_dirs d))))).
      rewrite (dirs_line p1 s1 (d_dirs d) Hs1). cbn [bind].
      change (9%N :: lit "frames = " ++ print_N (d_frames d)) with (kv (lit "frames") (print_N (d_frames d))).
      rewrite (frames_line (with_state p1 (set_dirs s1 (d_dirs d))) (set_dirs s1 (d_dirs d)) (d_frames d));
        [| reflexivity | exact Hf1 | exact Hfr].
      cbn [bind]. change (with_state (with_state p1 (set_dirs s1 (d_dirs d)))
        (set_frames (set_dirs s1 (d_dirs d)) (FCount (Z.of_N (d_frames d))))) with (with_state p1 s2).
      rewrite run_lines_app. rewrite Edelay. cbn [bind].
      rewrite run_lines_app. rewrite (opt_run _ _ _ _ (with_state p1 s3) s3 (fun s n => set_loop s (Z.of_N n)));
        [| reflexivity | intros v Hv; apply loop_line; [reflexivity | apply Hlp; exact Hv]].
      cbn [bind]. fold s4. change (with_state (with_state p1 s3) s4) with (with_state p1 s4).
      rewrite run_lines_app. rewrite (opt_run _ _ _ _ (with_state p1 s4) s4 set_rewind);
        [| reflexivity | intros v Hv; apply rewind_line; reflexivity].
      cbn [bind]. fold s5. change (with_state (with_state p1 s4) s5) with (with_state p1 s5).
      rewrite (opt_run _ _ _ _ (with_state p1 s5) s5 set_movement);
        [| reflexivity | intros v Hv; apply movement_line; reflexivity].
      reflexivity. }
    split; [apply with_state_inv with (s := s1); try assumption; rewrite K4, Hfc; lia|].
    split; [reflexivity|]. split; [exact Hst|]. split.
    { unfold denotes. rewrite K1, K4, K5, <- Hname. auto 10. }
    split; [unfold sprites, sprites_of; rewrite K4, K5, Hfc; reflexivity|]. split; assumption.
  Qed.

  Definition desc_total (ds : list state_desc) : Z := fold_right Z.add 0 (map sprites_of ds).

  Lemma sprites_of_nonneg : forall d, 0 <= sprites_of d.
  Proof. intro d. unfold sprites_of. destruct (d_dirs d); cbn [dirs_count]; lia. Qed.
  Lemma desc_total_nonneg : forall ds, 0 <= desc_total ds.
  Proof.
    induction ds as [|d ds IH]; unfold desc_total in *; cbn [map fold_right]; [lia|].
    pose proof (sprites_of_nonneg d). lia.
  Qed.

  Lemma all_states : forall ds p, inv p -> total (all_of p) + desc_total ds < 2 ^ 64 ->
    Forall (desc_ok parse_f32) ds ->
    exists p' news, run_lines p (flat_map state_lines ds) = Done p' /\
      all_of p' = all_of p ++ news /\ Forall2 (denotes parse_f32 is_one) ds news /\
      width (p_meta p') = width (p_meta p) /\ height (p_meta p') = height (p_meta p).
  Proof.
    induction ds as [|d ds IH]; intros p I Ht Hok.
    - exists p, []. cbn [flat_map run_lines]. rewrite app_nil_r. repeat split; constructor.
    - inversion Hok as [|? ? Hd Hds]; subst.
      unfold desc_total in Ht. cbn [map fold_right] in Ht. fold (desc_total ds) in Ht.
      pose proof (sprites_of_nonneg d). pose proof (desc_total_nonneg ds).
      destruct (one_state p d I ltac:(lia) Hd) as (p1 & s & E1 & I1 & Hs & Hst & Hden & Hsp & Hw & Hh).
      assert (Hall : all_of p1 = all_of p ++ [s]) by (unfold all_of at 1; rewrite Hs, Hst; reflexivity).
      destruct (IH p1 I1) as (p2 & news & E2 & Hall2 & H2 & Hw2 & Hh2); [|exact Hds|].
      { rewrite Hall, total_app, total_one. lia. }
      exists p2, (s :: news). cbn [flat_map]. rewrite run_lines_app, E1. cbn [bind].
      split; [exact E2|]. split; [rewrite Hall2, Hall, <- app_assoc; reflexivity|].
      split; [constructor; assumption|]. split; congruence.
  Qed.

  Lemma parse_lines_run : forall ls p p', (forall l, In l ls -> starts_with (lit "# END DMI") l = false) ->
    run_lines p ls = Done p' -> parse_lines parse_f32 is_one p (ls ++ [lit "# END DMI"]) = Done p'.
  Proof.
    induction ls as [|l ls IH]; intros p p' Hn H.
    - cbn [run_lines] in H. injection H as <-. reflexivity.
    - cbn [app parse_lines]. rewrite (Hn l (or_introl eq_refl)). cbn [run_lines] in H.
      destruct (PL p l); cbn [bind] in *; try discriminate. apply IH; [intros; apply Hn; right; assumption | exact H].
  Qed.

  (** lines that are fine to split at newlines and do not end the block *)
  Definition line_ok (l : text) : Prop := ~ In 10%N l /\ last_ok l /\ starts_with (lit "# END DMI") l = false.

  Lemma kv_ok : forall key v, ~ In 10%N key -> ~ In 10%N v -> last_ok v -> line_ok (kv key v).
  Proof.
    intros. split; [apply kv_no_nl; assumption|]. split; [apply kv_last; assumption | reflexivity].
  Qed.

  Ltac no_nl := vm_compute; intuition discriminate.

  Lemma state_lines_ok : forall d l, desc_ok parse_f32 d -> In l (state_lines d) -> line_ok l.
  Proof.
    intros d l (Hn & _ & Hdl & _) H. unfold state_lines in H.
    assert (Hbool : forall b, ~ In 10%N (print_bool b) /\ last_ok (print_bool b)).
    { intros []; (split; [no_nl|]); [exists [], 49%N | exists [], 48%N]; split; reflexivity. }
    assert (Hopt : forall A (key : text) (f : A -> text) o, ~ In 10%N key ->
      (forall v, o = Some v -> ~ In 10%N (f v) /\ last_ok (f v)) -> In l (opt_line key f o) -> line_ok l).
    { intros A key f o Hk Hf Hin. destruct o as [v|]; cbn [opt_line] in Hin; [|contradiction].
      destruct Hin as [<-|[]]. fold (kv key (f v)). destruct (Hf v eq_refl). apply kv_ok; assumption. }
    apply in_app_or in H. destruct H as [H|H].
    - destruct H as [<-|[<-|[<-|[]]]].
      + split; [|split; [|reflexivity]].
        * intro H. cbn [lit app] in H.
          repeat (destruct H as [H|H]; [discriminate|]).
          apply in_app_or in H. destruct H as [H|[H|[]]]; [|discriminate]. apply Hn in H. tauto.
        * apply last_ok_app, last_ok_app, last_ok_app. exists [], 34%N. split; reflexivity.
      + change (9%N :: lit "dirs = " ++ ?x) with (kv (lit "dirs") x).
        apply kv_ok; [no_nl | apply print_N_no; reflexivity | apply print_N_last].
      + change (9%N :: lit "frames = " ++ ?x) with (kv (lit "frames") x).
        apply kv_ok; [no_nl | apply print_N_no; reflexivity | apply print_N_last].
    - apply in_app_or in H. destruct H as [H|H].
      { eapply Hopt; [| |exact H]; [no_nl|]. intros v Hv. destruct (Hdl v Hv) as (_ & Hne & Hts).
        split.
        - intro Hin. apply in_join in Hin. destruct Hin as [Hin|(t & Ht & Hin)]; [discriminate|].
          destruct (Hts t Ht) as (_ & _ & Hc). apply Hc in Hin. destruct Hin as [_ Hin]. discriminate Hin.
        - apply last_ok_nonws; [apply join_nonempty; [exact Hne | intros t Ht; apply (Hts t Ht)]|].
          intros c Hc. apply in_join in Hc. destruct Hc as [->|(t & Ht & Hc)]; [reflexivity|].
          apply (Hts t Ht). exact Hc. }
      apply in_app_or in H. destruct H as [H|H].
      { eapply Hopt; [| |exact H]; [no_nl|]. intros v Hv. split; [apply print_N_no; reflexivity | apply print_N_last]. }
      apply in_app_or in H. destruct H as [H|H].
      { eapply Hopt; [| |exact H]; [no_nl|]. intros v Hv. apply Hbool. }
      { eapply Hopt; [| |exact H]; [no_nl|]. intros v Hv. apply Hbool. }
  Qed.

  Lemma size_line : forall key p v, (v <= U32_MAX)%N -> key = lit "width" \/ key = lit "height" ->
    PL p (kv key (print_N v)) = Done
      {| p_meta := with_size (p_meta p)
           (if text_eqb key (lit "width") then Z.of_N v else width (p_meta p))
           (if text_eqb key (lit "width") then height (p_meta p) else Z.of_N v);
         p_state := p_state p; p_frames := p_frames p; p_dups := p_dups p |}.
  Proof.
    intros key p v Hv Hk. unfold parse_line.
    rewrite kv_split; [| apply print_N_last | destruct Hk as [->| ->]; cbn [In]; tauto].
    destruct Hk as [->| ->]; key_tests; unfold parse_u; rewrite parse_print by exact Hv; reflexivity.
  Qed.

  Lemma parse_render : forall w h ds, (w <= U32_MAX)%N -> (h <= U32_MAX)%N ->
    Forall (desc_ok parse_f32) ds -> desc_total ds < 2 ^ 64 ->
    exists m, parse_metadata parse_f32 is_one (render w h ds) = Done m /\
      width m = Z.of_N w /\ height m = Z.of_N h /\ Forall2 (denotes parse_f32 is_one) ds (states m).
  Proof.
    intros w h ds Hw Hh Hok Ht.
    set (p0 := {| p_meta := with_size (@empty_meta F) (Z.of_N w) (Z.of_N h); p_state := None; p_frames := 0; p_dups := [] |}).
    assert (I0 : inv p0) by (split; [exact wf_nil | reflexivity | reflexivity]).
    destruct (all_states ds p0 I0) as (p' & news & E & Hall & H2 & Ew & Eh); [exact Ht | exact Hok |].
    assert (Hl : lines (render w h ds) =
      [lit "# BEGIN DMI"; lit "version = 4.0"; kv (lit "width") (print_N w); kv (lit "height") (print_N h)]
       ++ flat_map state_lines ds ++ [lit "# END DMI"]).
    { apply lines_flat. intros l Hin.
      apply in_app_or in Hin. destruct Hin as [Hin|Hin].
      - destruct Hin as [<-|[<-|[<-|[<-|[]]]]].
        + split; [no_nl|]. exists (lit "# BEGIN DM"), 73%N. split; reflexivity.
        + split; [no_nl|]. exists (lit "version = 4."), 48%N. split; reflexivity.
        + change (9%N :: lit "width = " ++ ?x) with (kv (lit "width") x).
          edestruct kv_ok as (A & B & _); [| | |split; [exact A | exact B]]; [no_nl | apply print_N_no; reflexivity | apply print_N_last].
        + change (9%N :: lit "height = " ++ ?x) with (kv (lit "height") x).
          edestruct kv_ok as (A & B & _); [| | |split; [exact A | exact B]]; [no_nl | apply print_N_no; reflexivity | apply print_N_last].
      - apply in_app_or in Hin. destruct Hin as [Hin|[<-|[]]].
        + apply in_flat_map in Hin. destruct Hin as (d & Hd & Hin).
          rewrite Forall_forall in Hok. destruct (state_lines_ok d l (Hok d Hd) Hin) as (A & B & _). tauto.
        + split; [no_nl|]. exists (lit "# END DM"), 73%N. split; reflexivity. }
    unfold parse_metadata.
    assert (Hne : exists c r, render w h ds = c :: r) by (unfold render; eexists; eexists; reflexivity).
    destruct Hne as (c & r & Hne). rewrite Hne in *. rewrite Hl. cbn [app].
    change (text_eqb (lit "# BEGIN DMI") (lit "# BEGIN DMI") && text_eqb (lit "version = 4.0") (lit "version = 4.0")) with true.
    cbv iota. fold (@start F).
    cbn [parse_lines].
    change (starts_with (lit "# END DMI") (kv (lit "width") (print_N w))) with false.
    cbv iota. rewrite (size_line (lit "width")) by tauto. cbn [bind].
    change (starts_with (lit "# END DMI") (kv (lit "height") (print_N h))) with false.
    cbv iota. rewrite (size_line (lit "height")) by tauto. cbn [bind p_meta p_state p_frames p_dups].
    key_tests.
    match goal with |- context [parse_lines _ _ ?q _] => change q with p0 end.
    rewrite (parse_lines_run (flat_map state_lines ds) p0 p').
    - cbn [bind]. eexists. split; [reflexivity|]. cbn [width height states].
      split; [exact Ew|]. split; [exact Eh|].
      change (states (p_meta p') ++ match p_state p' with Some s => [s] | None => [] end) with (all_of p').
      rewrite Hall. exact H2.
    - intros l Hin. apply in_flat_map in Hin. destruct Hin as (d & Hd & Hin).
      rewrite Forall_forall in Hok. apply (state_lines_ok d l (Hok d Hd) Hin).
    - exact E.
  Qed.
End Render.
