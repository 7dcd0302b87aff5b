(** Facts about the grammar, and the form in which the parser meets it: operands separated by operators of one level. *)
From Coq Require Import List NArith ZArith Bool String Lia.
From Verif Require Import Common.Text Lexer.Punct Lexer.Model Parse.Ast Parse.Model Parse.Spec Parse.Facts.
Import ListNotations.
Open Scope nat_scope.

Section GRAM.
Variable F : Type.
Notation tok := (token F).
Notation expr := (expr F).
Notation P p := (TPunct F p).
Notation sp_expr := (sp_expr F).
Notation swallow := (swallow F).

Lemma sp_expr_up (l l' : nat) (t : bool) (e : expr) (ts : list tok) (A : swallow) :
  l <= l' -> sp_expr l t e ts A -> sp_expr l' t e ts A.
Proof using Type.
  intros H D. inversion D; subst; clear D.
  - apply S_group; assumption.
  - eapply S_binary; try eassumption; lia.
  - eapply S_ternary; try eassumption; lia.
  - eapply S_assign; try eassumption; lia.
  - eapply S_in; try eassumption; lia.
  - eapply S_range; try eassumption; lia.
Qed.

(** An operator token of level [n] and what it builds, by the specification *)
Inductive op_at : nat -> punct -> oper -> Prop :=
  | At_bin p n op : binary_op p = Some (n, op) -> op_at n p (OBin op)
  | At_tern : op_at 12 PQuestionMark OTern
  | At_assign p op : assign_op p = Some op -> op_at 13 p (OAssign op)
  | At_in : op_at 14 PIn (OBin BIn).
Lemma op_at_iff (p : punct) (n : nat) (o : oper) :
  op_at n p o <-> exists st, op_of F (P p) = Some {| o_strength := st; o_token := p; o_oper := o |} /\ rank st = n.
Proof using Type.
  pose proof (op_of_view F p) as V. split.
  - intros H. destruct V as [n0 op st Hb Hn Hr|E0|op Ha|E0|Hb Ha Hq Hi]; inversion H; subst; try congruence;
      try (destruct p; discriminate); try discriminate.
    + rewrite Hb in H0; injection H0 as <- <-. exists st; split; reflexivity.
    + exists SConditional; split; reflexivity.
    + exists SAssign; split; [congruence|reflexivity].
    + exists SIn; split; reflexivity.
  - intros (st & H & <-). destruct V as [n0 op st' Hb Hn Hr|E0|op Ha|E0|Hb Ha Hq Hi]; try discriminate;
      injection H as <- <-; subst; constructor; assumption.
Qed.
Lemma binary_level (p : punct) (n : nat) (op : binop) : binary_op p = Some (n, op) -> 1 <= n <= 11.
Proof using Type. destruct p; cbn; intros H; try discriminate; injection H as <- _; lia. Qed.
Lemma op_at_level (p : punct) (n : nat) (o : oper) : op_at n p o -> 1 <= n <= 14.
Proof using Type. intros H. inversion H as [p0 n0 op Hb| | |]; subst; try lia. apply binary_level in Hb; lia. Qed.

(** Operands of level [n - 1] separated by operators of level [n]: all but the last operand, the operators, the last one *)
Inductive seq (n : nat) (t : bool) : list expr -> list oper -> expr -> list tok -> swallow -> Prop :=
  | seq_last r tr A : sp_expr (n - 1) t r tr A -> seq n t [] [] r tr A
  | seq_cons r tr A p o bs os z ts B :
      sp_expr (n - 1) t r tr A -> A (P p) = false -> op_at n p o -> seq n t bs os z ts B ->
      seq n t (r :: bs) (o :: os) z (tr ++ P p :: ts) B.

Lemma seq_left (n : nat) (t : bool) (bs : list expr) (os : list oper) (z : expr) (ts : list tok) (B : swallow) :
  n <= 11 -> seq n t bs os z ts B ->
  forall (a : expr) (ta : list tok) (A : swallow) (p : punct) (o : oper),
  sp_expr n t a ta A -> A (P p) = false -> op_at n p o ->
  sp_expr n t (fold_left_ops F a bs (o :: os) z) (ta ++ P p :: ts) B.
Proof using Type.
  intros Hn H. induction H as [r tr A Hr|r tr A p o bs os z ts B Hr HA Ho Hs IH]; intros a ta A' p' o' Ha HA' Ho'.
  - cbn [fold_left_ops]. inversion Ho'; subst; try lia. cbn [build]. eapply S_binary; try eassumption; lia.
  - cbn [fold_left_ops]. inversion Ho'; subst; try lia. cbn [build].
    assert (D : sp_expr n t (Bin op a r) (ta ++ P p' :: tr) A) by (eapply S_binary; try eassumption; lia).
    specialize (IH _ _ _ p o D HA Ho). rewrite <- app_assoc in IH. exact IH.
Qed.
Lemma seq_in (t : bool) (bs : list expr) (os : list oper) (z : expr) (ts : list tok) (B : swallow) :
  seq 14 t bs os z ts B ->
  forall (a : expr) (ta : list tok) (A : swallow),
  sp_expr 14 t a ta A -> A (P PIn) = false ->
  sp_expr 14 t (fold_left_ops F a bs (OBin BIn :: os) z) (ta ++ P PIn :: ts) (either F (the_word F (lit "to")) B) /\
  (forall ws c tc C, B (TIdent F (lit "to") ws) = false -> sp_expr 14 t c tc C ->
   sp_expr 14 t (fold_left_ops F a bs (OBin BIn :: os) (Bin BTo z c)) (ta ++ P PIn :: ts ++ TIdent F (lit "to") ws :: tc)
     (either F (operator F) C)).
Proof using Type.
  intros H. induction H as [r tr A Hr|r tr A p o bs os z ts B Hr HA Ho Hs IH]; intros a ta A' Ha HA'.
  - cbn [fold_left_ops build]. split.
    + eapply S_in; try eassumption; lia.
    + intros ws c tc C HB Hc. eapply S_range; try eassumption; lia.
  - cbn [fold_left_ops build]. assert (p = PIn /\ o = OBin BIn) as [-> ->].
    { inversion Ho as [p0 n0 op Hb|Hx|p0 op Ha0 Hx|Hx]; subst; auto.
      apply binary_level in Hb; lia. }
    assert (D : sp_expr 14 t (Bin BIn a r) (ta ++ P PIn :: tr) (either F (the_word F (lit "to")) A)).
    { eapply S_in; try eassumption; lia. }
    specialize (IH _ _ _ D). rewrite <- app_assoc in IH. cbn [app] in IH. split.
    + apply IH. cbn [either the_word]. exact HA.
    + intros ws c tc C HB Hc. destruct (IH HA) as [_ IH2]. specialize (IH2 ws c tc C HB Hc).
      rewrite <- app_assoc in IH2 |- *. exact IH2.
Qed.
Lemma seq_right (t : bool) (bs : list expr) (os : list oper) (z : expr) (ts : list tok) (B : swallow) :
  seq 13 t bs os z ts B -> sp_expr 13 t (build_right F bs os z) ts B.
Proof using Type.
  intros H. induction H as [r tr A Hr|r tr A p o bs os z ts B Hr HA Ho Hs IH].
  - cbn. eapply sp_expr_up; [|exact Hr]. lia.
  - unfold build_right in *. cbn [combine fold_right fst snd].
    inversion Ho as [p0 n0 op Hb|Hx|p0 op Ha0 Hx|Hx]; subst; [apply binary_level in Hb; lia|].
    cbn [build]. eapply S_assign; try eassumption; lia.
Qed.
End GRAM.
