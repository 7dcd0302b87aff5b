(** Lawful total orders: what Rust's [Ord] promises for the key types used in
    the code base ([u64], [Location]; equal means identical for them). *)
From Coq Require Import ZArith Lia Bool.

Class TotalOrd (K : Type) := {
  kcmp : K -> K -> comparison;
  kcmp_eq : forall x y, kcmp x y = Eq <-> x = y;
  kcmp_opp : forall x y, kcmp y x = CompOpp (kcmp x y);
  kcmp_trans : forall x y z, kcmp x y = Lt -> kcmp y z = Lt -> kcmp x z = Lt
}.

#[global] Arguments kcmp {K TotalOrd} x y : simpl never, rename.

Definition klt {K} `{TotalOrd K} (x y : K) : Prop := kcmp x y = Lt.
Definition kle {K} `{TotalOrd K} (x y : K) : Prop := kcmp x y <> Gt.
Definition kltb {K} `{TotalOrd K} (x y : K) : bool :=
  match kcmp x y with Lt => true | _ => false end.
Definition kleb {K} `{TotalOrd K} (x y : K) : bool :=
  match kcmp x y with Gt => false | _ => true end.

Section Facts.
  Context {K : Type} `{TO : TotalOrd K}.
  Implicit Types x y z : K.

  Lemma kcmp_refl x : kcmp x x = Eq.
  Proof. apply kcmp_eq; reflexivity. Qed.

  Lemma klt_irrefl x : ~ klt x x.
  Proof. unfold klt; rewrite kcmp_refl; discriminate. Qed.

  Lemma klt_trans x y z : klt x y -> klt y z -> klt x z.
  Proof. apply kcmp_trans. Qed.

  Lemma kcmp_gt_lt x y : kcmp x y = Gt <-> kcmp y x = Lt.
  Proof. rewrite (kcmp_opp x y); destruct (kcmp x y); simpl; split; congruence. Qed.

  Lemma kle_iff x y : kle x y <-> klt x y \/ x = y.
  Proof.
    unfold kle, klt; rewrite <- (kcmp_eq x y).
    destruct (kcmp x y); split; intros Hx; try tauto; try congruence.
    - destruct Hx; congruence.
  Qed.

  Lemma kle_refl x : kle x x.
  Proof. apply kle_iff; right; reflexivity. Qed.

  Lemma klt_kle x y : klt x y -> kle x y.
  Proof. intros; apply kle_iff; left; assumption. Qed.

  Lemma kle_trans x y z : kle x y -> kle y z -> kle x z.
  Proof.
    rewrite !kle_iff; intros [Hxy|Hxy] [Hyz|Hyz]; subst; auto.
    left; eapply klt_trans; eassumption.
  Qed.

  Lemma klt_kle_trans x y z : klt x y -> kle y z -> klt x z.
  Proof. rewrite kle_iff; intros Hxy [Hyz|Hyz]; subst; auto; eapply klt_trans; eassumption. Qed.

  Lemma kle_klt_trans x y z : kle x y -> klt y z -> klt x z.
  Proof. rewrite kle_iff; intros [Hxy|Hxy] Hyz; subst; auto; eapply klt_trans; eassumption. Qed.

  Lemma not_klt x y : ~ klt x y <-> kle y x.
  Proof.
    unfold klt, kle; rewrite (kcmp_opp x y); destruct (kcmp x y); simpl; split; intros Hx; try congruence; intros Hy; congruence.
  Qed.

  Lemma not_kle x y : ~ kle x y <-> klt y x.
  Proof.
    unfold klt, kle; rewrite (kcmp_opp x y); destruct (kcmp x y); simpl; split; intros Hx; try congruence; try (intros Hy; congruence); exfalso; apply Hx; congruence.
  Qed.

  Lemma kltb_spec x y : reflect (klt x y) (kltb x y).
  Proof. unfold kltb, klt; destruct (kcmp x y); constructor; try congruence; intros Hx; congruence. Qed.

  Lemma kleb_spec x y : reflect (kle x y) (kleb x y).
  Proof. unfold kleb, kle; destruct (kcmp x y); constructor; try congruence; intros Hx; congruence. Qed.

  Lemma kleb_true x y : kleb x y = true <-> kle x y.
  Proof. destruct (kleb_spec x y); split; intros; try assumption; try reflexivity; try discriminate; contradiction. Qed.

  Lemma kltb_true x y : kltb x y = true <-> klt x y.
  Proof. destruct (kltb_spec x y); split; intros; try assumption; try reflexivity; try discriminate; contradiction. Qed.

  Lemma klt_total x y : klt x y \/ x = y \/ klt y x.
  Proof.
    unfold klt; rewrite <- (kcmp_eq x y), (kcmp_opp x y).
    destruct (kcmp x y); simpl; auto.
  Qed.

  Definition keq_dec x y : {x = y} + {x <> y}.
  Proof.
    destruct (kcmp x y) eqn:E.
    - left; apply kcmp_eq; assumption.
    - right; intros ->; rewrite kcmp_refl in E; discriminate.
    - right; intros ->; rewrite kcmp_refl in E; discriminate.
  Defined.
End Facts.

(** Derived lexicographic [Ord] of a pair (Rust: [#[derive(Ord)]] on a struct of two fields). *)
Definition lexcmp {A B} `{TotalOrd A} `{TotalOrd B} (p q : A * B) : comparison :=
  match kcmp (fst p) (fst q) with
  | Eq => kcmp (snd p) (snd q)
  | c => c
  end.

#[export] Instance TotalOrd_pair {A B} `{TA : TotalOrd A} `{TB : TotalOrd B} : TotalOrd (A * B).
Proof.
  refine {| kcmp := lexcmp |}; unfold lexcmp.
  - intros [a b] [c d]; simpl. destruct (kcmp a c) eqn:E.
    + apply kcmp_eq in E; subst. rewrite kcmp_eq. split; congruence.
    + split; [discriminate|]. intros Heq; inversion Heq; subst.
      rewrite kcmp_refl in E; discriminate.
    + split; [discriminate|]. intros Heq; inversion Heq; subst.
      rewrite kcmp_refl in E; discriminate.
  - intros [a b] [c d]; simpl. rewrite (kcmp_opp a c), (kcmp_opp b d).
    destruct (kcmp a c); reflexivity.
  - intros [a b] [c d] [e f]; simpl.
    destruct (kcmp a c) eqn:E1; destruct (kcmp c e) eqn:E2; try discriminate; intros H1 H2.
    + apply kcmp_eq in E1, E2; subst. rewrite kcmp_refl. eapply kcmp_trans; eassumption.
    + apply kcmp_eq in E1; subst. rewrite E2. reflexivity.
    + apply kcmp_eq in E2; subst. rewrite E1. reflexivity.
    + rewrite (kcmp_trans _ _ _ E1 E2). reflexivity.
Defined.

#[export] Instance TotalOrd_Z : TotalOrd Z.
Proof.
  refine {| kcmp := Z.compare |}.
  - intros; apply Z.compare_eq_iff.
  - intros; apply Z.compare_antisym.
  - intros x y z; rewrite !Z.compare_lt_iff; lia.
Defined.
