(** C54 on concrete procedures. *)
From Coq Require Import List NArith ZArith Bool String.
From Verif Require Import Common.Text Parse.Ast Flow.Model Flow.Spec Flow.Props.
Import ListNotations.
Open Scope nat_scope.

(** An orderly procedure, with loops, break and continue:
[[
  for(i = 1 to 3) { a; return }       // 1, 2, 3
  if(1) { }                           // 4, 5: unreachable
]] and [[
  do { if(a) continue; if(a) break; else ; if(a) return; else return } while(a)   // 1: tested;
  while(a) { if(0) x else if(1) return else return; z }
  return; x
]] *)
Definition first : prog := Then 1 (ForRange (int 1) (int 3) None (Then 2 Plain (one 3 Return))) (one 4 (If (Arm 5 (int 1) End NoArm) NoBlock)).
Definition second : prog :=
  Then 1 (DoWhile (Then 2 (If (Arm 3 a (one 4 (Continue None)) NoArm) NoBlock) (Then 5 (If (Arm 6 a (one 7 (Break None)) NoArm) (SomeBlock (one 8 Plain))) (one 9 (If (Arm 10 a (one 11 Return) NoArm) (SomeBlock (one 12 Return)))))) a)
  (Then 13 (While a (Then 14 (If (Arm 15 (int 0) (one 16 Plain) (Arm 17 (int 1) (one 18 Return) NoArm)) (SomeBlock (one 19 Return))) (one 20 Plain)))
  (Then 21 Return (one 22 Plain))).
Lemma first_places : NoDup (places_block first).
Proof. repeat constructor; cbn; intuition discriminate. Qed.
Lemma second_places : NoDup (places_block second).
Proof. repeat constructor; cbn; intuition discriminate. Qed.
Lemma first_orderly : orderly_block zero first.
Proof. cbn. repeat split; try congruence; try (intros; cbn in *; tauto). intros [E _]. cbn in *. congruence. Qed.
Lemma second_orderly : orderly_block zero second.
Proof.
  cbn. repeat split; auto. 
  - intros []; [right|right]; intuition discriminate.
  - intros []; right; intuition discriminate.
Qed.
Example first_reports : reports zero first = [Unreachable 4].
Proof. vm_compute. reflexivity. Qed.
Example second_reports : reports zero second = [AlwaysFalse 15; AlwaysTrue 17; UnreachableElse 19; Unreachable 20; Unreachable 22].
Proof. vm_compute. reflexivity. Qed.
(** so none of this happens: *)
Example never : forall tr o, run_block zero second tr o -> ~ In (At 19) tr /\ ~ In (At 20) tr /\ ~ In (At 22) tr /\ ~ In (Tested 15 true) tr.
Proof.
  intros tr o H. assert (K : forall r e, In r (reports zero second) -> excludes r e -> ~ In e tr).
  { intros r e I X J. exact (C54_sound_partial _ _ _ _ second_places second_orderly r I tr o e H J X). }
  rewrite second_reports in K. repeat split.
  - apply (K (UnreachableElse 19)); cbn; auto.
  - apply (K (Unreachable 20)); cbn; auto 10.
  - apply (K (Unreachable 22)); cbn; auto 10.
  - apply (K (AlwaysFalse 15)); cbn; auto.
Qed.
(** but all of this does *)
Example reached : exists tr o, run_block zero second tr o /\ In (At 21) tr /\ In (Until 1 false) tr /\ In (At 4) tr.
Proof.
  exists (At 1 :: ((At 2 :: [Tested 3 true; At 4]) ++ [Until 1 false]) ++ At 13 :: [Looped 13 false] ++ At 21 :: []), Returned. split.
  - apply block_on; [|apply block_on].
    + apply run_do. apply (do_end _ _ _ _ _ _ _ (Continued None)); [|exact I|apply any]. apply block_leave; [|discriminate]. apply run_if. apply arms_this; [apply any|]. apply block_leave; [apply run_continue|discriminate].
    + apply run_while. apply loop_end. apply any.
    + apply block_leave; [apply run_return|discriminate].
  - cbn. auto 20.
Qed.
Example surely_example : surely zero (If (Arm 1 a (Then 2 Plain (one 3 Return)) NoArm) (SomeBlock (one 4 Crash))) /\ calm_block zero (Then 5 Plain (one 6 (While a (one 7 (Break None))))).
Proof. cbn. unfold calm. cbn. intuition discriminate. Qed.
