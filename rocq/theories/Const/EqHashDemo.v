(** C48: examples. *)
From Coq Require Import List NArith ZArith Bool String Lia Permutation.
From Verif Require Import Common.Text Const.Model Dmm.TgmModel Const.EqHash Const.EqHashProps Const.Demo.
Import ListNotations.
Open Scope nat_scope.
Definition bits (f : Z) : N := Z.to_N (f + 1000).
Definition pop1 : const := CPrefab (Pop [lit "obj"] [(lit "name", CString (lit "x")); (lit "dir", CFloat 40%Z)]).
Definition pop2 : const := CPrefab (Pop [lit "obj"] [(lit "dir", CFloat 40%Z); (lit "name", CString (lit "x"))]).
Definition nest (c : const) : const := CList [(CString (lit "k"), Some (CNew (Some (Pop [lit "mob"] [(lit "held", c)])) (Some [(c, None)]))); (CFloat 10%Z, None)].
Lemma pop_keyed : keyed Z pop1 /\ keyed Z pop2.
Proof. split; constructor; constructor; cbn [map fst]; repeat constructor; cbn; intuition discriminate. Qed.
Lemma nest_keyed c : keyed Z c -> keyed Z (nest c).
Proof.
  intro H. unfold nest. constructor. constructor; [|constructor; [split; [constructor|discriminate]|constructor]]. split; [constructor|]. intros v Q. injection Q as <-. constructor.
  - intros p Q. injection Q as <-. constructor; [repeat constructor; intros []|]. repeat constructor. exact H.
  - intros l Q. injection Q as <-. constructor; [split; [exact H|discriminate]|constructor].
Qed.
Example C48_demo : const_eqb Z tenths (nest pop1) (nest pop2) = true /\ hash Z bits (nest pop1) = hash Z bits (nest pop2) /\ nest pop1 <> nest pop2 /\ keyed Z (nest pop1) /\ keyed Z (nest pop2).
Proof. split; [vm_compute; reflexivity|]. split; [vm_compute; reflexivity|]. split; [discriminate|]. split; apply nest_keyed; apply pop_keyed. Qed.
Example C48_differ : const_eqb Z tenths pop1 (CPrefab (Pop [lit "obj"] [(lit "name", CString (lit "x"))])) = false /\
  const_eqb Z tenths pop1 (CPrefab (Pop [lit "obj"] [(lit "name", CString (lit "x")); (lit "dir", CFloat 41%Z)])) = false /\
  const_eqb Z tenths (CList [(CFloat 1%Z, None); (CFloat 2%Z, None)]) (CList [(CFloat 2%Z, None); (CFloat 1%Z, None)]) = false.
Proof. vm_compute. auto. Qed.
Print Assumptions C48_equality.
Print Assumptions C48_prefab_equality.
Print Assumptions C48_equivalence.
Print Assumptions C48_hash.
Print Assumptions C48_prefab_hash.
