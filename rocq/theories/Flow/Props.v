(** C54: reports about code that is never reached, or about conditions that are always the same, are right. *)
From Coq Require Import List NArith ZArith Bool String.
From Verif Require Import Common.Text Parse.Ast Flow.Model Flow.Spec Flow.Proofs.
Import ListNotations.
Open Scope nat_scope.

(** A report about unreachable code or about a condition excludes events that happen in no run of the procedure.  Partial: for orderly
    procedures (Spec.v), see the refutations below for the others. *)
Theorem C54_sound_partial : forall (F L : Type) (f_zero : F -> bool) (b : block F L), NoDup (places_block b) -> orderly_block f_zero b ->
  forall r, In r (reports f_zero b) -> right f_zero b r.
Proof. intros F L f_zero b N O r I. exact (reports_right F L f_zero b N O r I). Qed.
Print Assumptions C54_sound_partial.

(** What is_truthy says about a condition is so in every run. *)
Theorem C54_conditions : forall (F : Type) (f_zero : F -> bool) (e : expr F) b b', is_truthy f_zero e = Some b -> truth f_zero e b' -> b' = b.
Proof. intros F f_zero. exact (truthy F f_zero). Qed.
Print Assumptions C54_conditions.

(** Code behind a statement that always returns is reported, or else code before it is. *)
Theorem C54_reported : forall (F L : Type) (f_zero : F -> bool) (pre : block F L) l s l2 s2 post, calm_block f_zero pre -> surely f_zero s ->
  exists l', In l' (tops pre ++ [l; l2]) /\ In (Unreachable l') (reports f_zero (append pre (Then l s (Then l2 s2 post)))).
Proof. intros F L f_zero. exact (reports_direct F L f_zero). Qed.
Print Assumptions C54_reported.

(** ** Reports that are wrong *)
Definition zero (_ : unit) : bool := true.
Definition a : expr unit := Base (MIdent (lit "a")) [].
Definition int (z : Z) : expr unit := Base (MInt z) [].
Definition prog := block unit nat.
Definition one (l : nat) (s : stmt unit nat) : prog := Then l s End.
Lemma any : forall b, truth zero a b.
Proof. intro b. apply truth_term. apply tt_any. exact I. Qed.

(** [do { if(a) break; else break } while(a); x]: x is called unreachable, *)
Definition do_breaks : prog := Then 1 (DoWhile (one 2 (If (Arm 3 a (one 4 (Break None)) NoArm) (SomeBlock (one 5 (Break None))))) a) (one 6 Plain).
Theorem C54_do_break_refuted : NoDup (places_block do_breaks) /\ In (Unreachable 6) (reports zero do_breaks) /\ ~ right zero do_breaks (Unreachable 6).
Proof.
  split; [repeat constructor; cbn; intuition discriminate|]. split; [vm_compute; auto|]. intro R.
  refine (R (At 1 :: (At 2 :: [Tested 3 true; At 4]) ++ At 6 :: [] ++ []) Done (At 6) _ _ eq_refl).
  - apply block_on.
    + apply run_do. apply Spec.do_break. apply block_leave; [|discriminate]. apply run_if. apply arms_this; [apply any|]. apply block_leave; [apply run_break|discriminate].
    + apply block_on; [apply run_plain|apply block_end].
  - cbn. auto 10.
Qed.
Print Assumptions C54_do_break_refuted.
(** [do { if(a) { if(a) continue; else continue } return } while(a)]: the condition is said to be never reached, *)
Definition do_continues : prog :=
  one 1 (DoWhile (Then 2 (If (Arm 3 a (one 4 (If (Arm 5 a (one 6 (Continue None)) NoArm) (SomeBlock (one 7 (Continue None))))) NoArm) NoBlock) (one 8 Return)) a).
Theorem C54_do_continue_refuted : NoDup (places_block do_continues) /\ In (NeverTested 1) (reports zero do_continues) /\ ~ right zero do_continues (NeverTested 1).
Proof.
  split; [repeat constructor; cbn; intuition discriminate|]. split; [vm_compute; auto|]. intro R.
  refine (R (At 1 :: ((At 2 :: [Tested 3 true; At 4; Tested 5 true; At 6]) ++ [Until 1 false]) ++ []) Done (Until 1 false) _ _ (ex_intro _ false eq_refl)).
  - apply block_on; [|apply block_end]. apply run_do. apply (do_end _ _ _ _ _ _ _ (Continued None)); [|exact I|apply any].
    apply block_leave; [|discriminate]. apply run_if. apply arms_this; [apply any|]. apply block_leave; [|discriminate]. apply run_if. apply arms_this; [apply any|]. apply block_leave; [apply run_continue|discriminate].
  - cbn. auto 10.
Qed.
Print Assumptions C54_do_continue_refuted.
(** [for(i = 1 to 3) { if(a) break; else break } x]: x is called unreachable, *)
Definition range_breaks : prog := Then 1 (ForRange (int 1) (int 3) None (one 2 (If (Arm 3 a (one 4 (Break None)) NoArm) (SomeBlock (one 5 (Break None)))))) (one 6 Plain).
Theorem C54_range_break_refuted : NoDup (places_block range_breaks) /\ In (Unreachable 6) (reports zero range_breaks) /\ ~ right zero range_breaks (Unreachable 6).
Proof.
  split; [repeat constructor; cbn; intuition discriminate|]. split; [vm_compute; auto|]. intro R.
  refine (R (At 1 :: (Entered 1 :: At 2 :: [Tested 3 true; At 4]) ++ At 6 :: [] ++ []) Done (At 6) _ _ eq_refl).
  - apply block_on.
    + apply run_range_break.
      * intros x y Hx Hy. injection Hx as <-. injection Hy as <-. split; [reflexivity|discriminate].
      * apply block_leave; [|discriminate]. apply run_if. apply arms_this; [apply any|]. apply block_leave; [apply run_break|discriminate].
    + apply block_on; [apply run_plain|apply block_end].
  - cbn. auto 10.
Qed.
Print Assumptions C54_range_break_refuted.
(** [for(i = 5 to 1 step 1) return; x]: x is called unreachable, although the loop is not entered, *)
Definition range_steps : prog := Then 1 (ForRange (int 5) (int 1) (Some (int 1)) (one 2 Return)) (one 3 Plain).
Theorem C54_range_step_refuted : NoDup (places_block range_steps) /\ In (Unreachable 3) (reports zero range_steps) /\ ~ right zero range_steps (Unreachable 3).
Proof.
  split; [repeat constructor; cbn; intuition discriminate|]. split; [vm_compute; auto|]. intro R.
  refine (R (At 1 :: [] ++ At 3 :: [] ++ []) Done (At 3) _ _ eq_refl).
  - apply block_on.
    + apply run_range_not. intros x y Hx Hy. injection Hx as <-. injection Hy as <-. split; [discriminate|]. intros e s He Hs. injection He as <-. injection Hs as <-. split; [reflexivity|discriminate].
    + apply block_on; [apply run_plain|apply block_end].
  - cbn. auto 10.
Qed.
Print Assumptions C54_range_step_refuted.
(** [for(i = 0 to 0) x]: x is said to be never reached, *)
Definition range_zeros : prog := one 1 (ForRange (int 0) (int 0) None (one 2 Plain)).
Theorem C54_range_zero_refuted : NoDup (places_block range_zeros) /\ In (NeverEntered 1) (reports zero range_zeros) /\ ~ right zero range_zeros (NeverEntered 1).
Proof.
  split; [repeat constructor; cbn; intuition discriminate|]. split; [vm_compute; auto|]. intro R.
  refine (R (At 1 :: Entered 1 :: []) Cut (Entered 1) _ _ eq_refl).
  - apply block_leave; [|discriminate]. apply run_range_leave; [|apply block_cut|exact I]. intros x y Hx Hy. injection Hx as <-. injection Hy as <-. split; [reflexivity|discriminate].
  - cbn. auto.
Qed.
Print Assumptions C54_range_zero_refuted.
(** [goto x; return; x: ...]: the label is called unreachable. *)
Definition jump : prog := Then 1 (Goto (lit "x")) (Then 2 Return (one 3 (Label (lit "x") (one 4 Plain)))).
Theorem C54_goto_refuted : NoDup (places_block jump) /\ In (Unreachable 3) (reports zero jump) /\ ~ right zero jump (Unreachable 3).
Proof.
  split; [repeat constructor; cbn; intuition discriminate|]. split; [vm_compute; auto|]. intro R.
  refine (R ([At 1] ++ (At 3 :: (At 4 :: [] ++ []) ++ [])) Done (At 3) _ _ eq_refl).
  - apply (block_goto _ _ _ jump [At 1] (lit "x") (one 3 (Label (lit "x") (one 4 Plain)))).
    + apply block_leave; [apply run_goto|discriminate].
    + reflexivity.
    + apply block_on; [|apply block_end]. apply run_label. apply block_on; [apply run_plain|apply block_end].
  - cbn. auto.
Qed.
Print Assumptions C54_goto_refuted.
