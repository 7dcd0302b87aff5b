(** C52: procedures that must be pure. *)
From Coq Require Import List Arith NArith Bool String Lia Relations.
From Verif Require Import Common.Text Objtree.Model Objtree.Spec Checker.CallTree Checker.Spec Checker.SleepProofs Checker.TreeFacts Checker.PureProofs.
Import ListNotations.
Open Scope nat_scope.

Section C52.
Variables V D L X : Type.
Implicit Types (t : objtree V D) (f : facts L X).

Lemma parents_nodup t pre p : finished t pre -> acyclic t -> defined V D t p -> NoDup (tree_parents t p).
Proof using Type.
  intros F AC H. destruct (tree_parents_iff V D t pre F AC p H) as (l & a & C & E). destruct (chain_nodup V D t AC _ _ _ C) as [N _]. rewrite E in N. clear - N. induction a as [|x a IH]; cbn [app] in N; inversion N; subst; auto.
Qed.
Lemma overrides_parents t pre c p : finished t pre -> acyclic t -> defined V D t c -> (In p (tree_parents t c) <-> overrides t c p).
Proof using Type.
  intros F AC H. destruct (tree_parents_iff V D t pre F AC c H) as (l & a & C & E). unfold overrides. split.
  - intro Hp. exists a, (tree_parents t c). rewrite <- E. auto.
  - intros (a' & b & C' & Hp). pose proof (Calls.chain_fun V D t _ _ _ _ C C') as Q. rewrite E in Q. destruct (chain_nodup V D t AC _ _ _ C) as [N _]. rewrite E in N. clear - Q N Hp.
    revert a' Q. induction a as [|x a IH]; intros [|x' a'] Q; cbn [app] in *.
    + assert (tree_parents t c = b) by congruence. subst b. exact Hp.
    + inversion N as [|? ? N1 _]; subst. assert (E : tree_parents t c = a' ++ c :: b) by congruence. destruct N1. rewrite E. apply in_or_app. right. left. reflexivity.
    + inversion N as [|? ? N1 _]; subst. assert (E : x = c) by congruence. destruct N1. rewrite E. apply in_or_app. right. left. reflexivity.
    + inversion N as [|? ? N1 N2]; subst. apply (IH N2 a'). congruence.
Qed.
Lemma recorded t pre f p c : finished t pre -> acyclic t -> keyed f ->
  (In c (getl p (impure_overrides L X (propagated t f))) <-> defined V D t c /\ snd (fst c) <> lit "New" /\ (exists what, is_impure f c what) /\ overrides t c p).
Proof using Type.
  intros F AC K. unfold propagated, with_overrides. cbn [impure_overrides]. rewrite (propagate_all L X f (tree_parents t)) by (intros q Hq; apply (parents_nodup t pre q F AC), (all_procs_iff V D t pre F); exact Hq).
  cbn [getl pr_get List.find app]. rewrite filter_In, (all_procs_iff V D t pre F). unfold blames. rewrite !andb_true_iff, negb_true_iff, pr_in_iff. split.
  - intros (Hd & (Hn & Hi) & Hp). split; [exact Hd|]. split; [intro Q; rewrite Q, text_eqb_refl in Hn; discriminate|]. split; [|apply (overrides_parents t pre c p F AC Hd); exact Hp].
    destruct (pr_get c (impure L X f)) as [w|] eqn:E; [|discriminate]. exists w. apply (impure_get L X f K). exact E.
  - intros (Hd & Hn & (w & Hw) & Ho). split; [exact Hd|]. split; [split|apply (overrides_parents t pre c p F AC Hd); exact Ho]; [destruct (text_eqb_spec (snd (fst c)) (lit "New")); congruence|]. apply (impure_get L X f K) in Hw. rewrite Hw. reflexivity.
Qed.
Lemma recorded_nodup t pre f p : finished t pre -> acyclic t -> NoDup (getl p (impure_overrides L X (propagated t f))).
Proof using Type.
  intros F AC. unfold propagated, with_overrides. cbn [impure_overrides]. rewrite (propagate_all L X f (tree_parents t)) by (intros q Hq; apply (parents_nodup t pre q F AC), (all_procs_iff V D t pre F); exact Hq).
  cbn [getl pr_get List.find app]. apply NoDup_filter. apply (all_procs_nodup V D t pre F).
Qed.

(** The check comes to an end and does not panic.  What it reports is exactly what there is to complain about, once each; the calls shown
    are ones that lead there, though all but the first with the location of the directive (C52_location_refuted). *)
Theorem C52_exact : forall t pre f, finished t pre -> acyclic t -> keyed f -> exists enough reports, (forall fuel, enough <= fuel -> tree_pure t f fuel = Ended _ reports) /\
  (forall r, In r reports -> impurity t f r) /\
  (forall r, impurity t f r -> exists r', In r' reports /\ but_calls r' = but_calls r) /\
  NoDup (map about reports).
Proof using Type.
  intros t pre f F AC K. set (g := propagated t f). assert (Kg : keyed g) by exact K. set (U := flat_map (fun e => map (e_proc L) (snd e)) (call_tree L X f)).
  assert (CU : forall p e, calls g p e -> In (e_proc L e) U).
  { intros p e (l & Hl & He). apply in_flat_map. exists (p, l). split; [exact Hl|]. apply in_map. exact He. }
  assert (OI : forall p c, In c (getl p (impure_overrides L X g)) -> exists what, is_impure g c what) by (intros p c H; apply (recorded t pre f p c F AC K) in H; apply H).
  assert (ND : forall p, NoDup (getl p (impure_overrides L X g))) by (intro p; apply (recorded_nodup t pre f p F AC)).
  (* what is here *)
  assert (Ca : forall root p c, skips (tree_sub t) root p c = false <-> can_answer t root p c).
  { intros root p c. unfold skips, can_answer. rewrite <- !(tree_sub_iff V D t pre F AC). destruct (tree_sub t (pr_ty root) (pr_ty p)), (tree_sub t (pr_ty c) (pr_ty root)); cbn; intuition congruence. }
  assert (St : forall root real p, started g root real p <-> started f root real p).
  { intros root real p. split; induction 1; [apply started_first; assumption|eapply started_call; eassumption|apply started_first; assumption|eapply started_call; eassumption]. }
  assert (He : forall root set_at p real r, In (root, set_at) (must_be_pure L X f) -> started f root real p -> here L X g (tree_sub t) root set_at p (shown set_at real) r -> impurity t f r).
  { intros root set_at p real r Hr R [(w & Hw & ->)|(Hn & c & w & Hc & Hs & Hw & ->)]; [apply by_call; assumption|]. apply (recorded t pre f p c F AC K) in Hc. destruct Hc as (Hd & HN & _ & Ho). apply by_override; auto. apply Ca. exact Hs. }
  assert (Gen : forall roots, incl roots (must_be_pure L X f) -> NoDup (map fst roots) -> exists enough l, (forall fuel out, enough <= fuel -> check_pure_roots L X g (tree_sub t) fuel roots out = Ended _ (out ++ l)) /\
    (forall r, In r l -> impurity t f r /\ In (fst (fst (about r))) (map fst roots)) /\ (forall r, impurity t f r -> In (fst (fst (about r))) (map fst roots) -> exists r', In r' l /\ but_calls r' = but_calls r) /\ NoDup (map about l)).
  { induction roots as [|[root set_at] roots IH]; intros Inc Nd.
    - exists 0, []. split; [intros; cbn; rewrite app_nil_r; reflexivity|]. split; [intros r []|]. split; [intros r _ []|constructor].
    - cbn [map fst] in Nd. inversion Nd as [|? ? Nd1 Nd2]; subst. destruct IH as (F2 & l2 & B1 & B2 & B3 & B4); [intros x Hx; apply Inc; right; exact Hx|exact Nd2|].
      assert (Hroot : In (root, set_at) (must_be_pure L X f)) by (apply Inc; left; reflexivity).
      destruct (pwalk_root L X g (tree_sub t) Kg OI U CU root set_at) as (F1 & l1 & A1 & A2 & A3 & A4 & A5). specialize (A4 ND).
      set (own := match pr_get root (impure L X g) with Some what => [ImpureItself L X root set_at what] | None => [] end).
      exists (F1 + F2), (own ++ l1 ++ l2). split; [|split; [|split]].
      + intros fuel out Hf. cbn [check_pure_roots]. replace (match pr_get root (impure L X g) with Some what => out ++ [ImpureItself L X root set_at what] | None => out end) with (out ++ own) by (unfold own; destruct (pr_get root (impure L X g)); [reflexivity|apply app_nil_r]).
        rewrite A1 by lia. rewrite B1 by lia. rewrite <- !app_assoc. reflexivity.
      + intros r Hr. apply in_app_or in Hr. destruct Hr as [Hr|Hr].
        * unfold own in Hr. destruct (pr_get root (impure L X g)) as [w|] eqn:E; [|destruct Hr]. destruct Hr as [<-|[]]. split; [|left; reflexivity]. apply itself; [exact Hroot|]. apply (impure_get L X g Kg). exact E.
        * apply in_app_or in Hr. destruct Hr as [Hr|Hr]; [|destruct (B2 r Hr) as [H1 H2]; split; [exact H1|right; exact H2]]. rewrite Forall_forall in A5. split; [|left; symmetry; apply A5; exact Hr].
          destruct (A2 r Hr) as (p & real & R & H). apply (He root set_at p real r Hroot); [apply St; exact R|exact H].
      + assert (Ky : forall s, In (root, s) (must_be_pure L X f) -> s = set_at).
        { destruct K as (_ & _ & _ & _ & K). intros s Hs. apply (pr_get_iff root _ s K) in Hs. apply (pr_get_iff root _ set_at K) in Hroot. congruence. }
        intros r Hi Hr. destruct Hr as [Hr|Hr]; [|destruct (B3 r Hi Hr) as (r' & H1 & H2); exists r'; split; [apply in_or_app; right; apply in_or_app; right; exact H1|exact H2]].
        destruct Hi as [root' s w Hs Hw|root' s p st w Hs R Hw|root' s p st c w Hs R Hn Ho HN Hd Hw Hc]; cbn [about fst] in Hr; subst root'; rewrite (Ky s Hs) in *.
        * eexists. split; [apply in_or_app; left; unfold own; apply (impure_get L X g Kg) in Hw; rewrite Hw; left; reflexivity|reflexivity].
        * destruct (A3 p st) as (real' & _ & A); [apply St; exact R|]. eexists. split; [apply in_or_app; right; apply in_or_app; left; apply A; left; exists w; split; [exact Hw|reflexivity]|reflexivity].
        * destruct (A3 p st) as (real' & _ & A); [apply St; exact R|]. eexists. split; [apply in_or_app; right; apply in_or_app; left; apply A; right; split; [exact Hn|]; exists c, w; split; [apply (recorded t pre f p c F AC K); repeat split; eauto|split; [apply Ca; exact Hc|split; [exact Hw|reflexivity]]]|reflexivity].
      + rewrite !map_app. rewrite Forall_forall in A5.
        assert (N2 : NoDup (map about l1 ++ map about l2)).
        { assert (Dj : forall x, In x (map about l1) -> ~ In x (map about l2)).
          { intros x Hx Q. apply in_map_iff in Hx. destruct Hx as (r & <- & Hr). apply in_map_iff in Q. destruct Q as (r' & E & Hr'). destruct (B2 r' Hr') as [_ H]. rewrite E in H. destruct (A5 r Hr) as [H' _]. rewrite H' in H. exact (Nd1 H). }
          revert Dj A4. generalize (map about l1) as a. induction a as [|x a IHa]; [intros; exact B4|]. intros Dj S. inversion S as [|? ? S1 S2]; subst. cbn [app]. constructor; [|apply IHa; [intros y Hy; apply Dj; right; exact Hy|exact S2]].
          intro Q. apply in_app_or in Q. destruct Q as [Q|Q]; [exact (S1 Q)|]. exact (Dj x (or_introl eq_refl) Q). }
        unfold own. destruct (pr_get root (impure L X g)) as [w|]; [|exact N2]. cbn [map app about]. constructor; [|exact N2]. intro Q. apply in_app_or in Q. destruct Q as [Q|Q]; apply in_map_iff in Q; destruct Q as (r & E & Hr).
        * destruct (A5 r Hr) as [_ H]. rewrite E in H. cbn in H. congruence.
        * destruct (B2 r Hr) as [_ H]. rewrite E in H. exact (Nd1 H). }
  destruct (Gen (must_be_pure L X f) (incl_refl _)) as (enough & l & G1 & G2 & G3 & G4); [apply K|]. exists enough, l. split; [|split; [|split; [|exact G4]]].
  - intros fuel Hf. unfold tree_pure, check_pure. exact (G1 fuel [] Hf).
  - intros r Hr. apply G2. exact Hr.
  - intros r Hi. apply G3; [exact Hi|]. destruct Hi; cbn [about fst]; apply in_map_iff; exists (root, set_at); auto.
Qed.
End C52.
