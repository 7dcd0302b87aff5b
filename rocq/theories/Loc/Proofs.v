From Coq Require Import List ZArith Lia Bool Sorting.Sorted FinFun.
From Verif Require Import Common.Order Common.ZBits Itree.Model Itree.Spec Itree.Proofs Loc.Model Loc.Spec.
Import ListNotations.
Open Scope Z_scope.

(** ** FileList *)
Section FL.
  Context {P : Type} (dec : forall x y : P, {x = y} + {x <> y}).
  Notation fl := (file_list P).

  (** The registry's contents: [files] without duplicates, ids are positions + 1. *)
  Definition fl_inv (s : fl) : Prop :=
    NoDup (files s) /\ (Z.of_nat (length (files s)) <= FILEID_MAX + 1) /\
    forall p id, rev_get dec (reverse_files s) p = Some id <->
      exists i, nth_error (files s) i = Some p /\ id = Z.of_nat i + FILEID_MIN.

  Lemma fl_inv_new : fl_inv fl_new.
  Proof.
    repeat split; simpl; [constructor| unfold FILEID_MAX; lia | discriminate |].
    intros (i & H & _). destruct i; discriminate.
  Qed.

  Lemma nth_error_app_last {A} (l : list A) x i y :
    nth_error (l ++ [x]) i = Some y <->
    nth_error l i = Some y \/ (i = length l /\ y = x).
  Proof.
    destruct (Nat.lt_trichotomy i (length l)) as [H|[H|H]].
    - rewrite nth_error_app1 by assumption. split; [auto|]. intros [?|[? ?]]; [assumption|lia].
    - subst. rewrite nth_error_app2 by lia. rewrite Nat.sub_diag. simpl. split.
      + intros Heq; inversion Heq; auto.
      + intros [Hn|[_ ->]]; [|reflexivity].
        assert (length l < length l)%nat by (apply nth_error_Some; congruence). lia.
    - rewrite nth_error_app2 by lia.
      assert (E : nth_error [x] (i - length l) = None) by (apply nth_error_None; simpl; lia).
      rewrite E. split; [discriminate|]. intros [Hn|[? ?]]; [|lia].
      assert (i < length l)%nat by (apply nth_error_Some; congruence). lia.
  Qed.

  Lemma register_inv s p s' id : fl_inv s -> register dec s p = Some (s', id) ->
    fl_inv s' /\ get_id dec s' p = Some id /\
    (forall q, In q (files s') <-> In q (files s) \/ q = p) /\
    (exists ext, files s' = files s ++ ext) /\
    (In p (files s) -> s' = s) /\
    (~ In p (files s) -> id = Z.of_nat (length (files s)) + 1 /\ files s' = files s ++ [p]).
  Proof.
    intros Hinv. pose proof Hinv as (Hnd & Hlen & Hrev). unfold register, get_id.
    destruct (rev_get dec (reverse_files s) p) as [id0|] eqn:E.
    - intros H; inversion H; subst s' id0. apply Hrev in E as E'. destruct E' as (i & Hi & Hid).
      apply nth_error_In in Hi.
      split; [assumption|]. split; [assumption|].
      split; [intros q; split; [auto|intros [?| ->]; assumption]|].
      split; [exists []; rewrite app_nil_r; reflexivity|].
      split; [reflexivity|intros; contradiction].
    - destruct (Z.ltb_spec FILEID_MAX (Z.of_nat (length (files s)))) as [|Hle]; [discriminate|].
      intros H; inversion H; subst s' id; clear H. cbn [files reverse_files].
      assert (Hnin : ~ In p (files s)).
      { intros Hin. apply In_nth_error in Hin as [i Hi].
        assert (Hc : rev_get dec (reverse_files s) p = Some (Z.of_nat i + FILEID_MIN))
          by (apply Hrev; exists i; auto). congruence. }
      split; [|split; [|split; [|split; [|split]]]].
      + split; [|split]; cbn [files reverse_files].
        * rewrite <- (rev_involutive (files s ++ [p])). apply NoDup_rev.
          rewrite rev_app_distr. simpl. constructor; [rewrite <- in_rev; assumption|].
          apply NoDup_rev; assumption.
        * rewrite app_length; cbn [length]; lia.
        * intros q id. simpl. destruct (dec q p) as [->|Hne].
          -- split.
             ++ intros H; inversion H; subst. exists (length (files s)). split; [|reflexivity].
                apply nth_error_app_last. auto.
             ++ intros (i & Hi & ->). apply nth_error_app_last in Hi as [Hi|[-> _]].
                ** exfalso. apply Hnin. eapply nth_error_In; eassumption.
                ** reflexivity.
          -- rewrite Hrev. split; intros (i & Hi & ->); exists i; (split; [|reflexivity]).
             ++ apply nth_error_app_last. auto.
             ++ apply nth_error_app_last in Hi as [Hi|[_ ?]]; [assumption|congruence].
      + simpl. destruct (dec p p); [reflexivity|congruence].
      + intros q. rewrite in_app_iff. simpl. intuition.
      + eexists; reflexivity.
      + intros; contradiction.
      + intros _. split; reflexivity.
  Qed.

  Lemma registers_inv ps : forall s s' ids, fl_inv s -> registers dec s ps = Some (s', ids) ->
    fl_inv s' /\ (exists ext, files s' = files s ++ ext) /\
    (forall q, In q (files s') <-> In q (files s) \/ In q ps) /\
    map (fun p => get_id dec s' p) ps = map Some ids.
  Proof.
    induction ps as [|p ps IH]; intros s s' ids Hinv; simpl.
    - intros H; inversion H; subst. split; [assumption|]. split; [exists []; rewrite app_nil_r; reflexivity|].
      split; [tauto|reflexivity].
    - destruct (register dec s p) as [[s1 id]|] eqn:E; [|discriminate].
      destruct (registers dec s1 ps) as [[s2 ids']|] eqn:E2; [|discriminate].
      intros H; inversion H; subst s' ids; clear H.
      apply register_inv in E as (Hinv1 & Hid & Hin & (ext1 & Hext1) & _ & _); [|assumption].
      apply IH in E2 as (Hinv2 & (ext2 & Hext2) & Hin2 & Hmap); [|assumption].
      split; [assumption|]. split; [exists (ext1 ++ ext2); rewrite Hext2, Hext1, app_assoc; reflexivity|].
      split; [intros q; rewrite Hin2, Hin; intuition; subst; auto|].
      simpl. rewrite Hmap. f_equal.
      destruct Hinv1 as (_ & _ & Hr1). destruct Hinv2 as (_ & _ & Hr2).
      apply Hr2. apply Hr1 in Hid as (i & Hi & Hidd). exists i. split; [|assumption].
      rewrite Hext2. rewrite nth_error_app1; [assumption|]. apply nth_error_Some; congruence.
  Qed.

  Lemma get_path_inv s p id : fl_inv s -> get_id dec s p = Some id ->
    get_path s id = PPath p /\ FILEID_MIN <= id <= FILEID_BAD.
  Proof.
    intros (Hnd & Hlen & Hrev) Hid. apply Hrev in Hid as (i & Hi & ->).
    assert (Hlt : (i < length (files s))%nat) by (apply nth_error_Some; congruence).
    unfold get_path, FILEID_MIN, FILEID_MAX, FILEID_BUILTINS, FILEID_BAD in *.
    destruct (Z.eqb_spec (Z.of_nat i + 1) 0); [lia|].
    destruct (Z.ltb_spec (Z.of_nat (length (files s))) (Z.of_nat i + 1 - 1)); [lia|].
    replace (Z.to_nat (Z.of_nat i + 1 - 1)) with i by lia. rewrite Hi.
    split; [reflexivity|lia].
  Qed.

  Lemma registry_lemma (ps : list P) s ids :
    registers dec fl_new ps = Some (s, ids) ->
    (* every call returned the id that the registry holds for its path at the end *)
    map (get_id dec s) ps = map Some ids /\
    (* registered exactly the paths passed *)
    (forall p, (exists id, get_id dec s p = Some id) <-> In p ps) /\
    (* distinct paths have distinct ids, and ids lead back to their path *)
    (forall p q id, get_id dec s p = Some id -> get_id dec s q = Some id -> p = q) /\
    (forall p id, get_id dec s p = Some id -> get_path s id = PPath p) /\
    (* registering a known path again returns its id and changes nothing *)
    (forall p id, get_id dec s p = Some id -> register dec s p = Some (s, id)) /\
    (* no id is the builtins id; none is the bad id unless 65535 files are registered *)
    (forall p id, get_id dec s p = Some id -> id <> FILEID_BUILTINS) /\
    (Z.of_nat (length (files s)) <= FILEID_MAX ->
     forall p id, get_id dec s p = Some id -> id <> FILEID_BAD) /\
    (* [for_each] visits each distinct path once *)
    (NoDup (for_each s) /\ forall p, In p (for_each s) <-> In p ps).
  Proof.
    intros H. destruct (registers_inv ps _ _ _ fl_inv_new H) as (Hinv & _ & Hin & Hmap).
    pose proof Hinv as (Hnd & Hlen & Hrev).
    assert (Hpi : forall p, In p (files s) <-> In p ps) by (intros p; rewrite Hin; simpl; tauto).
    repeat split; auto.
    - intros (id & Hid). apply Hpi. apply Hrev in Hid as (i & Hi & _). eapply nth_error_In; eassumption.
    - intros Hp. apply Hpi in Hp. apply In_nth_error in Hp as [i Hi].
      eexists. apply Hrev. exists i. split; [exact Hi|reflexivity].
    - intros p q id Hp Hq. apply get_path_inv in Hp as [Hp _]; [|assumption].
      apply get_path_inv in Hq as [Hq _]; [|assumption]. congruence.
    - intros p id Hp. apply get_path_inv in Hp as [Hp _]; assumption.
    - intros p id Hp. unfold register. unfold get_id in Hp. rewrite Hp. reflexivity.
    - intros p id Hp. apply get_path_inv in Hp as [_ Hp]; [|assumption].
      unfold FILEID_MIN, FILEID_BUILTINS in *; lia.
    - intros Hle p id Hp. apply Hrev in Hp as (i & Hi & ->).
      assert (Hlt : (i < length (files s))%nat) by (apply nth_error_Some; congruence).
      unfold FILEID_MIN, FILEID_MAX, FILEID_BAD in *; lia.
    - apply Hpi.
    - apply Hpi.
  Qed.

  (** Enough distinct paths reach the bad id. *)
  Lemma registers_fresh ps : forall s, fl_inv s -> NoDup ps ->
    (forall p, In p ps -> ~ In p (files s)) ->
    Z.of_nat (length (files s)) + Z.of_nat (length ps) <= FILEID_MAX + 1 ->
    exists s' ids, registers dec s ps = Some (s', ids) /\ files s' = files s ++ ps /\ fl_inv s'.
  Proof.
    induction ps as [|p ps IH]; intros s Hinv Hnd Hfresh Hlen; simpl.
    - exists s, []. rewrite app_nil_r. auto.
    - assert (Hr : exists s1 id, register dec s p = Some (s1, id)).
      { unfold register. destruct (rev_get dec (reverse_files s) p) eqn:E; [eauto|].
        destruct (Z.ltb_spec FILEID_MAX (Z.of_nat (length (files s)))); [|eauto].
        cbn [length] in Hlen. lia. }
      destruct Hr as (s1 & id & Hr). rewrite Hr.
      apply register_inv in Hr as (Hinv1 & _ & _ & _ & _ & Hf); [|assumption].
      destruct Hf as [_ Hf]; [apply Hfresh; left; reflexivity|].
      inversion Hnd as [|? ? Hnin Hnd']; subst.
      destruct (IH s1) as (s2 & ids & -> & Hf2 & Hinv2); auto.
      + intros q Hq. rewrite Hf, in_app_iff. intros [Hq'|[<-|[]]]; [|contradiction].
        revert Hq'. apply Hfresh. right; assumption.
      + rewrite Hf, app_length. cbn [length] in *. lia.
      + exists s2, (id :: ids). split; [reflexivity|]. split; [|assumption].
        rewrite Hf2, Hf, <- app_assoc. reflexivity.
  Qed.
End FL.

Lemma bad_id_lemma :
  exists (ps : list Z) s ids p,
    registers Z.eq_dec fl_new ps = Some (s, ids) /\ In p ps /\
    get_id Z.eq_dec s p = Some FILEID_BAD.
Proof.
  set (ps := map Z.of_nat (seq 0 (Z.to_nat 65535))).
  assert (Hl : length ps = Z.to_nat 65535) by (unfold ps; rewrite map_length, seq_length; reflexivity).
  destruct (registers_fresh Z.eq_dec ps fl_new (fl_inv_new Z.eq_dec)) as (s & ids & Hr & Hf & Hinv).
  - unfold ps. apply FinFun.Injective_map_NoDup; [|apply seq_NoDup]. intros x y; lia.
  - intros p _ [].
  - cbn [files fl_new length]. rewrite Hl. unfold FILEID_MAX. lia.
  - cbn [files fl_new app] in Hf.
    assert (Hn : nth_error ps (Z.to_nat 65534) = Some (Z.of_nat (Z.to_nat 65534))).
    { unfold ps. rewrite nth_error_map.
      rewrite (nth_error_nth' _ 0%nat) by (rewrite seq_length; lia).
      rewrite seq_nth by lia. reflexivity. }
    exists ps, s, ids, (Z.of_nat (Z.to_nat 65534)). split; [assumption|]. split.
    + eapply nth_error_In; eassumption.
    + apply Hinv. exists (Z.to_nat 65534). rewrite Hf. split; [assumption|].
      unfold FILEID_BAD, FILEID_MIN. lia.
Qed.

(** [get_path] panics exactly for the id just after the last registered one. *)
Lemma get_path_panics {P} (s : file_list P) file : 0 <= file < 2 ^ 16 ->
  (get_path s file = PPanic <-> file = Z.of_nat (length (files s)) + 1).
Proof.
  intros Hf. unfold get_path, FILEID_BUILTINS, FILEID_MIN.
  destruct (Z.eqb_spec file 0); [split; [discriminate|lia]|].
  destruct (Z.ltb_spec (Z.of_nat (length (files s))) (file - 1)); [split; [discriminate|lia]|].
  destruct (nth_error (files s) (Z.to_nat (file - 1))) eqn:E.
  - assert ((Z.to_nat (file - 1) < length (files s))%nat) by (apply nth_error_Some; congruence).
    split; [discriminate|lia].
  - apply nth_error_None in E. split; [lia|reflexivity].
Qed.

(** ** Location *)
Lemma beforeb_klt (a b : loc) : beforeb a b = kltb a b.
Proof.
  destruct a as [f1 [l1 c1]], b as [f2 [l2 c2]]. unfold beforeb, kltb, kcmp; simpl.
  unfold lexcmp, kcmp; simpl. unfold lexcmp, kcmp; simpl.
  unfold lfile, lline, lcol; simpl.
  destruct (Z.compare_spec f1 f2); destruct (Z.compare_spec l1 l2); destruct (Z.compare_spec c1 c2);
    repeat match goal with
    | |- context [Z.ltb ?x ?y] => destruct (Z.ltb_spec x y); try lia
    | |- context [Z.eqb ?x ?y] => destruct (Z.eqb_spec x y); try lia
    end; simpl; try reflexivity; try lia.
Qed.

Lemma before_klt (a b : loc) : before a b <-> klt a b.
Proof. unfold before. rewrite beforeb_klt. apply kltb_true. Qed.

Lemma before_iff a b : before a b <->
  lfile a < lfile b \/
  lfile a = lfile b /\ (lline a < lline b \/ lline a = lline b /\ lcol a < lcol b).
Proof.
  unfold before, beforeb. rewrite orb_true_iff, andb_true_iff, orb_true_iff, andb_true_iff.
  rewrite !Z.ltb_lt, !Z.eqb_eq. tauto.
Qed.

Lemma pred_lemma l : loc_ok l ->
  (pred l = None <-> l = (0, (0, 0))) /\
  (l = (FILEID_BAD, (0, 0)) -> pred l = Some l) /\
  (has_pred l -> exists p, pred l = Some p /\ loc_ok p /\ before p l /\
     forall q, loc_ok q -> before q l -> q = p \/ before q p).
Proof.
  destruct l as [f [ln c]]. unfold loc_ok, pred, has_pred, lfile, lline, lcol; cbn [fst snd].
  intros (Hf & Hl & Hc). unfold FILEID_BAD.
  destruct (Z.eqb_spec c 0) as [->|Hc0]; cbn [negb].
  - destruct (Z.eqb_spec ln 0) as [->|Hl0]; cbn [negb].
    + destruct (Z.eqb_spec f 0xffff) as [->|Hf0].
      * repeat split; try discriminate; auto. intros [_ Hx]; congruence.
      * destruct (Z.eqb_spec f 0) as [->|Hf1]; cbn [negb].
        -- repeat split; auto; [congruence|]. intros [Hx _]; congruence.
        -- repeat split; try discriminate; try congruence.
           intros _. eexists; split; [reflexivity|]. cbn [fst snd]. split; [lia|].
           split; [apply before_iff; unfold lfile, lline, lcol; simpl; lia|].
           intros [qf [ql qc]]. rewrite !before_iff. unfold lfile, lline, lcol; cbn [fst snd].
           intros Hq Hb.
           destruct (Z.eq_dec qf (f - 1)); [|right; lia].
           destruct (Z.eq_dec ql (2^32 - 1)); [|right; lia].
           destruct (Z.eq_dec qc (2^16 - 1)); [|right; lia].
           left; congruence.
    + repeat split; try discriminate; try congruence.
      intros _. eexists; split; [reflexivity|]. cbn [fst snd]. split; [lia|].
      split; [apply before_iff; unfold lfile, lline, lcol; simpl; lia|].
      intros [qf [ql qc]]. rewrite !before_iff. unfold lfile, lline, lcol; cbn [fst snd].
      intros Hq Hb.
      destruct (Z.eq_dec qf f); [|right; lia].
      destruct (Z.eq_dec ql (ln - 1)); [|right; lia].
      destruct (Z.eq_dec qc (2^16 - 1)); [|right; lia].
      left; congruence.
  - repeat split; try discriminate; try congruence.
    intros _. eexists; split; [reflexivity|]. cbn [fst snd]. split; [lia|].
    split; [apply before_iff; unfold lfile, lline, lcol; simpl; lia|].
    intros [qf [ql qc]]. rewrite !before_iff. unfold lfile, lline, lcol; cbn [fst snd].
    intros Hq Hb.
    destruct (Z.eq_dec qf f); [|right; lia].
    destruct (Z.eq_dec ql ln); [|right; lia].
    destruct (Z.eq_dec qc (c - 1)); [|right; lia].
    left; congruence.
Qed.

Lemma pack_value l : loc_ok l -> pack l = lfile l * 2 ^ 48 + lline l * 2 ^ 16 + lcol l.
Proof.
  intros (Hf & Hl & Hc). unfold pack.
  replace (Z.lor (Z.shiftl (lfile l) 48) (Z.shiftl (lline l) 16))
    with (Z.shiftl (lfile l * 2 ^ 32 + lline l) 16).
  - rewrite lor_add by lia. lia.
  - rewrite <- (lor_add (lfile l) (lline l) 32) by lia.
    rewrite Z.shiftl_lor. rewrite Z.shiftl_shiftl by lia. reflexivity.
Qed.

Lemma pack_lemma a b : loc_ok a -> loc_ok b ->
  0 <= pack a < 2 ^ 64 /\ (pack a = pack b <-> a = b) /\ (pack a < pack b <-> before a b).
Proof.
  intros Ha Hb. rewrite (pack_value a Ha), (pack_value b Hb), before_iff.
  destruct Ha as (Haf & Hal & Hac), Hb as (Hbf & Hbl & Hbc).
  split; [lia|]. split.
  - split; [|intros ->; reflexivity]. intros Heq.
    destruct a as [f1 [l1 c1]], b as [f2 [l2 c2]]. unfold lfile, lline, lcol in *; cbn [fst snd] in *.
    assert (f1 = f2) by lia. assert (l1 = l2) by lia. assert (c1 = c2) by lia. congruence.
  - lia.
Qed.

(** ** AnnotationTree *)
Section AP.
  Context {V : Type}.
  Notation item := (loc * loc * V)%type.

  Definition mm (l : list item) : (loc * loc) -> list V :=
    fun k => map snd (filter (fun x => range_eqb (fst x) k) l).

  Lemma loc_eqb_eq a b : loc_eqb a b = true <-> a = b.
  Proof.
    destruct a as [f1 [l1 c1]], b as [f2 [l2 c2]]. unfold loc_eqb, lfile, lline, lcol; simpl.
    rewrite !andb_true_iff, !Z.eqb_eq. split; [intros [[-> ->] ->]; reflexivity|].
    intros H; inversion H; auto.
  Qed.

  Lemma range_eqb_eq a b : range_eqb a b = true <-> a = b.
  Proof.
    unfold range_eqb. rewrite andb_true_iff, !loc_eqb_eq. destruct a, b; simpl.
    split; [intros [-> ->]; reflexivity|]. intros H; inversion H; auto.
  Qed.

  Lemma range_eqb_refl a : range_eqb a a = true.
  Proof. apply range_eqb_eq; reflexivity. Qed.

  Lemma range_eqb_dec a b : range_eqb a b = if keq_dec b a then true else false.
  Proof.
    destruct (keq_dec b a) as [->|Hne]; [apply range_eqb_refl|].
    apply not_true_iff_false. rewrite range_eqb_eq. congruence.
  Qed.

  Lemma mm_app l1 l2 k : mm (l1 ++ l2) k = mm l1 k ++ mm l2 k.
  Proof. unfold mm. rewrite filter_app, map_app. reflexivity. Qed.

  Definition all (b : build V) : list item := map reported (inserted b).

  Lemma run_build_ok b : build_ok b ->
    exists a, run_build b = Some a /\ repr (atree a) (mm (all b)) /\ alen a = length (inserted b).
  Proof.
    induction b as [|b IH s e v|b1 IH1 b2 IH2]; intros Hok; simpl.
    - exists a_new. split; [reflexivity|]. split; [apply repr_leaf|reflexivity].
    - destruct IH as (a & -> & Hr & Hl).
      { intros s' e' v' Hin. apply (Hok s' e' v'). simpl. apply in_app_iff; left; assumption. }
      destruct (Hok s e v) as (Hs & He & Hp); [simpl; apply in_app_iff; right; left; reflexivity|].
      unfold a_insert. destruct (pred_lemma e He) as (_ & _ & Hpred).
      destruct (Hpred Hp) as (p & Ep & _). rewrite Ep.
      destruct (apply_op_repr (atree a) _ (Insert (s, p) v) Hr) as (t & Et & Hr').
      simpl in Et. rewrite Et. eexists; split; [reflexivity|]. cbn [atree alen]. split.
      + eapply repr_ext; [|exact Hr']. intros k. unfold all. simpl. rewrite map_app, mm_app.
        cbn [map reported]. rewrite Ep. unfold mm at 4. cbn [filter fst].
        cbn [spec_step]. destruct (range_eqb (s, p) k) eqn:Ek.
        * apply range_eqb_eq in Ek. subst k.
          match goal with |- context [@keq_dec ?A ?B ?x ?y] => destruct (@keq_dec A B x y) end;
            [reflexivity|congruence].
        * match goal with |- context [@keq_dec ?A ?B ?x ?y] => destruct (@keq_dec A B x y) as [->|_] end;
            [rewrite range_eqb_refl in Ek; discriminate|].
          simpl. rewrite app_nil_r. reflexivity.
      + rewrite app_length. simpl. lia.
    - destruct IH1 as (a1 & -> & Hr1 & Hl1).
      { intros s' e' v' Hin. apply (Hok s' e' v'). simpl. apply in_app_iff; left; assumption. }
      destruct IH2 as (a2 & -> & Hr2 & Hl2).
      { intros s' e' v' Hin. apply (Hok s' e' v'). simpl. apply in_app_iff; right; assumption. }
      unfold a_merge. destruct (merge_repr _ _ _ _ Hr1 Hr2) as (t & -> & Hr).
      eexists; split; [reflexivity|]. cbn [atree alen]. split.
      + eapply repr_ext; [|exact Hr]. intros k. unfold all. simpl. rewrite map_app, mm_app. reflexivity.
      + rewrite app_length. lia.
  Qed.

  (** From the tree's specification to [reports]. *)
  Lemma filter_flat (m : loc * loc -> list V) ks k : NoDup ks ->
    filter (fun x : item => range_eqb (fst x) k)
      (flat_map (fun k0 => map (fun v => (k0, v)) (m k0)) ks) =
    if in_dec keq_dec k ks then map (fun v => (k, v)) (m k) else [].
  Proof.
    intros Hnd. induction ks as [|k0 ks IH]; [reflexivity|].
    inversion Hnd as [|? ? Hnin Hnd']; subst. cbn [flat_map]. rewrite filter_app, IH by assumption.
    assert (E : filter (fun x : item => range_eqb (fst x) k) (map (fun v => (k0, v)) (m k0)) =
                if keq_dec k k0 then map (fun v => (k0, v)) (m k0) else []).
    { induction (m k0) as [|v vs IHv]; simpl; [destruct (keq_dec k k0); reflexivity|].
      rewrite IHv. rewrite range_eqb_dec. destruct (keq_dec k k0); reflexivity. }
    rewrite E. clear IH E.
    destruct (keq_dec k k0) as [->|Hne].
    - destruct (in_dec keq_dec k0 ks) as [Hin|_]; [contradiction|]. rewrite app_nil_r.
      destruct (in_dec keq_dec k0 (k0 :: ks)) as [_|Hn]; [reflexivity|].
      exfalso; apply Hn; left; reflexivity.
    - cbn [app]. destruct (in_dec keq_dec k ks) as [Hin|Hn].
      + destruct (in_dec keq_dec k (k0 :: ks)) as [_|Hn]; [reflexivity|].
        exfalso; apply Hn; right; assumption.
      + destruct (in_dec keq_dec k (k0 :: ks)) as [[Hx|Hx]|_]; [congruence|contradiction|reflexivity].
  Qed.

  Lemma StronglySorted_NoDup (ks : list (loc * loc)) : StronglySorted klt ks -> NoDup ks.
  Proof.
    induction ks as [|k ks IH]; intros Hs; constructor.
    - inversion Hs as [|? ? Hss Hf]; subst. intros Hin. rewrite Forall_forall in Hf.
      exact (klt_irrefl _ (Hf _ Hin)).
    - apply IH. inversion Hs; assumption.
  Qed.

  Lemma kle_range_le (a b : loc * loc) : kle a b -> range_le a b.
  Proof.
    unfold range_le. rewrite !before_klt. unfold kle, klt.
    change (kcmp a b) with (lexcmp a b). unfold lexcmp.
    destruct (kcmp (fst a) (fst b)) eqn:E; [|auto|congruence].
    apply kcmp_eq in E. intros H. right. split; [assumption|].
    rewrite <- kcmp_gt_lt. assumption.
  Qed.

  Lemma sorted_flat (m : loc * loc -> list V) ks : StronglySorted klt ks ->
    StronglySorted (fun x y : item => range_le (fst x) (fst y))
      (flat_map (fun k0 => map (fun v => (k0, v)) (m k0)) ks).
  Proof.
    induction ks as [|k ks IH]; intros Hs; [constructor|].
    inversion Hs as [|? ? Hss Hf]; subst. cbn [flat_map].
    assert (Hrest : Forall (fun y : item => range_le k (fst y))
                      (flat_map (fun k0 => map (fun v => (k0, v)) (m k0)) ks)).
    { rewrite Forall_forall in *. intros x Hx. apply in_flat_map in Hx as (k' & Hk' & Hx).
      apply in_map_iff in Hx as (v & <- & _). cbn [fst]. apply kle_range_le, klt_kle. auto. }
    induction (m k) as [|v vs IHv]; simpl; [auto|].
    constructor; [assumption|]. cbn [fst].
    rewrite Forall_app. split; [|assumption].
    rewrite Forall_forall. intros x Hx. apply in_map_iff in Hx as (w & <- & _). cbn [fst].
    apply kle_range_le, kle_refl.
  Qed.

  Lemma filter_key_pair (l : list item) k :
    filter (fun x => range_eqb (fst x) k) l = map (fun v => (k, v)) (mm l k).
  Proof.
    unfold mm. induction l as [|[k' v] l IH]; simpl; [reflexivity|].
    destruct (range_eqb k' k) eqn:E; simpl; [|exact IH].
    apply range_eqb_eq in E; subst. f_equal. exact IH.
  Qed.

  Lemma exact_reports b Q (P : loc -> loc -> bool) res :
    build_ok b ->
    lists_exactly (mm (all b)) Q res ->
    (forall s e v, In (s, e, v) (inserted b) -> forall p, pred e = Some p ->
       (Q (s, p) <-> P s e = true)) ->
    reports b P res.
  Proof.
    intros Hok (ks & Hs & Hks & ->) HQ. split; [apply sorted_flat; assumption|].
    intros k. rewrite filter_flat by (apply StronglySorted_NoDup; assumption).
    rewrite filter_key_pair.
    assert (HP : forall s e v, In (s, e, v) (inserted b) -> reported (s, e, v) = (k, v) ->
                 (P s e = true <-> Q k)).
    { intros s e v Hin Hk. destruct (Hok s e v Hin) as (H1 & H2 & H3).
      destruct (pred_lemma e H2) as (_ & _ & Hp). destruct (Hp H3) as (p & Ep & _).
      simpl in Hk. rewrite Ep in Hk. inversion Hk; subst. symmetry. eapply HQ; eassumption. }
    assert (E : mm (map reported (filter (fun x => P (fst (fst x)) (snd (fst x))) (inserted b))) k =
                if in_dec keq_dec k ks then mm (all b) k else []).
    { unfold all in *. clear HQ Hok.
      assert (Hq : in_dec keq_dec k ks = in_dec keq_dec k ks) by reflexivity.
      destruct (in_dec keq_dec k ks) as [Hin|Hnin]; clear Hq.
      - apply Hks in Hin as [HQk _]. unfold mm. clear Hks.
        induction (inserted b) as [|[[s e] v] l IH]; [reflexivity|].
        cbn [filter fst snd]. assert (IH' := IH (fun s e v Hin => HP s e v (or_intror Hin))). clear IH.
        destruct (P s e) eqn:EP; cbn [map filter].
        + destruct (range_eqb (fst (reported (s, e, v))) k); cbn [map]; rewrite IH'; reflexivity.
        + destruct (range_eqb (fst (reported (s, e, v))) k) eqn:Ek; [|exact IH'].
          exfalso. apply range_eqb_eq in Ek.
          assert (P s e = true) by (apply (HP s e v); [left; reflexivity| |assumption];
                                    simpl in *; rewrite Ek; reflexivity).
          congruence.
      - assert (Hcase : mm (map reported (inserted b)) k = [] \/ ~ Q k).
        { destruct (mm (map reported (inserted b)) k) eqn:Em; [left; reflexivity|].
          right. intros HQk. apply Hnin. apply Hks. split; [assumption|]. rewrite Em. discriminate. }
        clear Hks Hnin Hs. unfold mm in *.
        induction (inserted b) as [|[[s e] v] l IH]; [reflexivity|].
        assert (IH' := IH (fun s e v Hin => HP s e v (or_intror Hin))). clear IH.
        cbn [filter fst snd map] in *.
        destruct (range_eqb (fst (reported (s, e, v))) k) eqn:Ek.
        + destruct Hcase as [Hc|HnQ]; [discriminate|].
          destruct (P s e) eqn:EP.
          * exfalso. apply HnQ. apply range_eqb_eq in Ek.
            apply (HP s e v); [left; reflexivity| |assumption]. simpl in *. rewrite Ek; reflexivity.
          * apply IH'. right; assumption.
        + destruct (P s e) eqn:EP; cbn [map filter]; [rewrite Ek|]; apply IH'; assumption. }
    rewrite E. destruct (in_dec keq_dec k ks); reflexivity.
  Qed.

  Lemma not_before_kle (a b : loc) : ~ before b a <-> kle a b.
  Proof. rewrite before_klt. apply not_klt. Qed.

  Lemma negb_before (a b : loc) : negb (beforeb b a) = true <-> kle a b.
  Proof. rewrite <- not_before_kle. unfold before. destruct (beforeb b a); simpl; intuition congruence. Qed.

  (** [a <= pred e] exactly when [a < e]; and [pred l <= pred e] exactly when [l <= e]. *)
  Lemma kle_pred a e p : loc_ok a -> loc_ok e -> has_pred e -> pred e = Some p ->
    (kle a p <-> klt a e).
  Proof.
    intros Ha He Hp Ep. destruct (pred_lemma e He) as (_ & _ & Hl).
    destruct (Hl Hp) as (p' & Ep' & Hok & Hb & Hmax). rewrite Ep in Ep'; inversion Ep'; subst p'.
    apply before_klt in Hb. split.
    - intros H. eapply kle_klt_trans; eassumption.
    - intros H. apply before_klt in H. destruct (Hmax a Ha H) as [->|H2]; [apply kle_refl|].
      apply klt_kle, before_klt. assumption.
  Qed.

  Lemma has_pred_Some e : loc_ok e -> has_pred e -> exists p, pred e = Some p /\ loc_ok p.
  Proof.
    intros He Hp. destruct (pred_lemma e He) as (_ & _ & Hl).
    destruct (Hl Hp) as (p' & Ep' & Hok & _). eauto.
  Qed.

  Lemma annot_lemma (b : build V) : build_ok b ->
    exists a, run_build b = Some a /\ alen a = length (inserted b) /\
      (exists res, a_iter a = Some res /\ reports b (fun _ _ => true) res) /\
      (forall s0 e0, loc_ok s0 -> loc_ok e0 -> has_pred e0 ->
         exists res, a_get_range a s0 e0 = Some res /\
           reports b (fun s e => beforeb s e0 && beforeb s0 e) res) /\
      (forall l, loc_ok l -> has_pred l ->
         exists res, a_get_location a l = Some res /\
           reports b (fun s e => negb (beforeb l s) && negb (beforeb e l)) res) /\
      (forall s0 e0, loc_ok s0 -> loc_ok e0 ->
         exists res, a_get_range_raw a (s0, e0) = Some res /\
           reports b (fun s e => negb (beforeb e0 s) && beforeb s0 e) res).
  Proof.
    intros Hok. destruct (run_build_ok b Hok) as (a & Ha & Hr & Hlen).
    exists a. split; [assumption|]. split; [assumption|].
    assert (Hq : forall s0 e0 (P : loc -> loc -> bool),
       (forall s e, loc_ok s -> loc_ok e -> has_pred e -> forall p, pred e = Some p ->
          (meets (s, p) (s0, e0) <-> P s e = true)) ->
       exists res, query (atree a) (s0, e0) = Some res /\ reports b P res).
    { intros s0 e0 P HP. destruct (query_exact (atree a) _ (s0, e0) Hr) as (res & Eq & Hres).
      exists res. split; [assumption|]. eapply exact_reports; [assumption|exact Hres|].
      intros s e v Hin p Ep. destruct (Hok s e v Hin) as (H1 & H2 & H3). apply HP; assumption. }
    split; [|split; [|split]].
    - unfold a_iter. destruct (iter_exact (atree a) _ Hr) as (res & Eq & Hres).
      exists res. split; [assumption|]. eapply exact_reports; [assumption|exact Hres|]. tauto.
    - intros s0 e0 Hs0 He0 Hp0. unfold a_get_range.
      destruct (has_pred_Some e0 He0 Hp0) as (p0 & Ep0 & Hp0ok). rewrite Ep0.
      apply Hq. intros s e Hs He Hp p Ep. unfold meets; cbn [fst snd].
      rewrite andb_true_iff. fold (before s e0) (before s0 e). rewrite !before_klt.
      rewrite (kle_pred s e0 p0), (kle_pred s0 e p) by assumption. tauto.
    - intros l Hl Hpl. unfold a_get_location.
      destruct (has_pred_Some l Hl Hpl) as (p0 & Ep0 & Hp0ok). rewrite Ep0.
      apply Hq. intros s e Hs He Hp p Ep. unfold meets; cbn [fst snd].
      rewrite andb_true_iff, !negb_before.
      rewrite (kle_pred p0 e p) by assumption.
      assert (Hx : klt p0 e <-> kle l e).
      { destruct (pred_lemma l Hl) as (_ & _ & Hll). destruct (Hll Hpl) as (p' & Ep' & Hok' & Hb & Hmax).
        rewrite Ep0 in Ep'; inversion Ep'; subst p'. apply before_klt in Hb. split.
        - intros H1. apply not_klt. intros H2. apply before_klt in H2.
          destruct (Hmax e He H2) as [->|H3]; [exact (klt_irrefl _ H1)|].
          apply before_klt in H3. apply (klt_irrefl e). eapply klt_trans; eassumption.
        - intros H1. eapply klt_kle_trans; eassumption. }
      rewrite Hx. tauto.
    - intros s0 e0 Hs0 He0. unfold a_get_range_raw.
      apply Hq. intros s e Hs He Hp p Ep. unfold meets; cbn [fst snd].
      rewrite andb_true_iff, negb_before. fold (before s0 e). rewrite before_klt.
      rewrite (kle_pred s0 e p) by assumption. tauto.
  Qed.
End AP.
