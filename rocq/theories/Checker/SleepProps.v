(** C51: procedures that must not sleep. *)
From Coq Require Import List Arith NArith Bool String Lia Relations.
From Verif Require Import Common.Text Objtree.Model Objtree.Spec Checker.CallTree Checker.Spec Checker.SleepProofs Checker.TreeFacts.
Import ListNotations.
Open Scope nat_scope.

Section C51.
Variables V D L X : Type.
Implicit Types (t : objtree V D) (f : facts L X).

(** The check comes to an end, whatever calls whatever. *)
Theorem C51_ends : forall t pre f, finished t pre -> acyclic t -> keyed f -> exists enough reports, forall fuel, enough <= fuel -> tree_sleep t f fuel = Some reports.
Proof using Type.
  intros t pre f F AC K. set (U := all_procs t ++ flat_map (fun e => map (e_proc L) (snd e)) (call_tree L X f)).
  apply (roots_end L X f (tree_within t) K U).
  - intros p recv c H. apply in_or_app. left. apply (all_procs_iff V D t pre F). apply (within_iff V D t pre F AC) in H. exact (dispatches_defined V D t pre F _ _ _ H).
  - intros p e (l & Hl & He). apply in_or_app. right. apply in_flat_map. exists (p, l). split; [exact Hl|]. apply in_map. exact He.
Qed.
(** What is reported is true: the procedure must not sleep; it does, or the calls shown lead from it to one that does, without [spawn] and
    without passing through one that is not looked into.  Nothing that sleeps is reported twice. *)
Theorem C51_sound : forall t pre f fuel reports, finished t pre -> acyclic t -> keyed f -> tree_sleep t f fuel = Some reports ->
  (forall root set_at what, In (SleepsItself L X root set_at what) reports -> In (root, set_at) (must_not_sleep L X f) /\ sleeps f root what) /\
  (forall root set_at k p stack what, In (Sleeps L X root set_at k p stack what) reports -> In (root, set_at) (must_not_sleep L X f) /\ sleeps f p what /\ ~ stops f p /\
     exists called receiver exact, reach t f root stack called p receiver exact /\ says root called p k) /\
  NoDup (flat_map (fun r => match r with Sleeps _ _ _ _ _ p _ _ => [p] | SleepsItself _ _ _ _ _ => [] end) reports).
Proof using Type.
  intros t pre f fuel reports F AC K E. destruct (check_during V D L X t f (tree_within t) K (within_iff V D t pre F AC) fuel reports E) as (done & visited & Du & _ & _). destruct Du as [D1 [D2 _] _ _]. split; [|split; [|exact D2]].
  - intros root set_at what H. exact (D1 _ H).
  - intros root set_at k p stack what H. destruct (D1 _ H) as (H1 & H2 & H3 & called & recv & ex & H4 & H5). split; [exact H1|]. split; [exact H3|]. split; [exact H2|]. exists called, recv, ex. split; [exact H4|]. subst k. unfold kind_of.
    destruct (Nat.eqb_spec (pr_ty p) (pr_ty root)) as [E1|E1], (Nat.eqb_spec (pr_ty p) (pr_ty called)) as [E2|E2]; cbn [negb andb says]; auto.
Qed.
(** What should be reported is, for a procedure that no other such procedure leads to, provided that what a call can be answered by does not
    depend on how one came there.  Both conditions are needed: C51_skipped_refuted, C51_narrow_refuted. *)
Theorem C51_complete_partial : forall t pre f fuel reports root set_at, finished t pre -> acyclic t -> keyed f -> uniform t f -> tree_sleep t f fuel = Some reports ->
  In (root, set_at) (must_not_sleep L X f) ->
  (forall other l stack called receiver exact, In (other, l) (must_not_sleep L X f) -> other <> root -> ~ reach t f other stack called root receiver exact) ->
  (forall what, sleeps f root what -> In (SleepsItself L X root set_at what) reports) /\
  (forall stack called p receiver exact what, reach t f root stack called p receiver exact -> ~ stops f p -> sleeps f p what ->
     exists root' set_at' k stack', In (Sleeps L X root' set_at' k p stack' what) reports).
Proof using Type.
  intros t pre f fuel reports root set_at F AC K Uf E Hroot Alone. pose proof (within_iff V D t pre F AC) as WT. destruct (check_during V D L X t f (tree_within t) K WT fuel reports E) as (done & visited & Du & Inc & Sk). destruct Du as [D1 _ D3 D4].
  assert (Hr0 : In root (map fst (must_not_sleep L X f))) by (apply in_map_iff; exists (root, set_at); auto).
  assert (Kr : forall r s s', In (r, s) (must_not_sleep L X f) -> In (r, s') (must_not_sleep L X f) -> s = s').
  { destruct K as (_ & _ & _ & K & _). intros r s s' H1 H2. apply (pr_get_iff r _ s K) in H1. apply (pr_get_iff r _ s' K) in H2. congruence. }
  assert (Hd : In root done).
  { destruct (Sk root Hr0) as [H|(r' & H1 & st & ca & re & ex & H2)]; [exact H|]. destruct (pr_eqb_spec r' root) as [->|N]; [exact H1|]. pose proof (Inc r' H1) as H3. apply in_map_iff in H3. destruct H3 as ([r2 l] & <- & H3). cbn [fst] in *. destruct (Alone r2 l st ca re ex H3 N H2). }
  assert (Dn : forall p, In p done -> stops f p).
  { intros p Hp. right. right. apply Inc in Hp. apply in_map_iff in Hp. destruct Hp as ([q l] & <- & Hp). exists l. exact Hp. }
  split.
  - intros what S. destruct (D4 root Hd) as (_ & _ & _ & H). destruct (H what S) as (s & Hs). pose proof (D1 _ Hs) as [H1 _]. rewrite (Kr root set_at s Hroot H1). exact Hs.
  - assert (A : forall stack called p receiver exact, reach t f root stack called p receiver exact -> In p visited).
    { induction 1 as [e He N|stack called p recv c R IH P Ty Hc Nc|stack called p recv ex e R IH P He N].
      - destruct (D4 root Hd) as (_ & _ & H & _). destruct (H e He N) as [Q|(j & [] & _)]. exact Q.
      - destruct (D3 p IH) as [Q|(r & st & ca & re & ex & H1 & H2 & H3 & _)]; [destruct P as [P _]; destruct (P (Dn p Q))|]. destruct (H3 P) as [_ H4].
        pose proof (Inc r H1) as Hr. apply in_map_iff in Hr. destruct Hr as ([r2 l] & <- & Hr). cbn [fst] in *.
        destruct (Uf root stack called r2 st ca p recv ex re c (ex_intro _ set_at Hroot) (ex_intro _ l Hr) R H2 Ty Hc) as [->|[-> Hc']]; [exact IH|]. destruct (H4 c eq_refl Ty (proj2 (WT _ _ _) Hc')) as [Q|(j & [] & _)]. exact Q.
      - destruct (D3 p IH) as [Q|(r & st & ca & re & ex' & H1 & H2 & H3 & _)]; [destruct P as [P _]; destruct (P (Dn p Q))|]. destruct (H3 P) as [H4 _]. destruct (H4 e He N) as [Q|(j & [] & _)]. exact Q. }
    intros stack called p recv ex what R N S. destruct (D3 p (A _ _ _ _ _ R)) as [Q|(r & st & ca & re & ex' & H1 & H2 & _ & H4)]; [destruct (N (Dn p Q))|]. destruct (H4 what N S) as (a & b & c & d & w & H). exists a, b, c, d.
    pose proof (D1 _ H) as (_ & _ & S' & _). unfold sleeps in *. destruct K as (_ & K & _). apply (pr_get_iff p _ what K) in S. apply (pr_get_iff p _ w K) in S'. replace what with w by congruence. exact H.
Qed.
End C51.
