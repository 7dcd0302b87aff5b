(** What the check of named arguments is meant to find. *)
From Coq Require Import List Arith NArith Bool String.
From Verif Require Import Common.Text Objtree.Ispath Objtree.Model Objtree.Spec Checker.CallTree Checker.Spec Checker.TreeFacts Checker.Kwargs.
Import ListNotations.
Open Scope nat_scope.

(** what can be the name of a procedure *)
Definition word (s : text) : Prop := s <> [] /\ forall c, In c s -> c <> SLASH /\ c <> 93%N.

Section SPEC.
Variables V D L : Type.
Variable t : objtree V D.
Variable params : V -> list text.

(** the places where [nm] is called on the type [i] with the argument named [k], with a call that may go to an override *)
Definition uses (cs : list (call L)) (i : nat) (nm k : text) : list L :=
  flat_map (fun c => if negb (c_exact c) && (c_src c =? i) && text_eqb (snd (fst (c_proc c))) nm && existsb (text_eqb k) (parameters t params (c_proc c))
                     then map (fun _ => c_loc c) (filter (fun a => match a with Some k' => text_eqb k k' | None => false end) (c_args c))
                     else []) cs.

(** [p] is the last definition on its type, the one that a call finds *)
Definition effective (p : procref) : Prop := exists q, procs_of t (pr_ty p) (snd (fst p)) = Some q /\ List.length (p_values q) = S (snd p).
(** a call on the type [i] can find [p], and [p] does not have the argument *)
Definition goes_wrong (cs : list (call L)) (i : nat) (nm k : text) (p : procref) : Prop :=
  uses cs i nm k <> [] /\ snd (fst p) = nm /\ subtype t (pr_ty p) i /\ effective p /\ ~ In k (parameters t params p).
End SPEC.
Arguments uses {V D L}. Arguments effective {V D}. Arguments goes_wrong {V D L}.
