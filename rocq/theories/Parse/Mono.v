(** More fuel never changes a result. *)
From Coq Require Import List NArith ZArith Bool String Lia.
From Verif Require Import Common.Text Lexer.Punct Lexer.Model Parse.Ast Parse.Model Parse.Spec Parse.Facts.
Import ListNotations.
Open Scope nat_scope.

Section MONO.
Variable F : Type.
Notation tok := (token F).
Notation expr := (expr F).
Notation pst := (pst F).

(** [x] is [y], unless the fuel was not enough for [x] *)
Definition appr {A : Type} (x y : Model.res F A) : Prop := x = Stuck \/ x = y.
Lemma appr_refl {A : Type} (x : Model.res F A) : appr x x.
Proof using Type. right; reflexivity. Qed.
Lemma appr_opt {A B : Type} (x x' : Model.res F A) (k k' : option A -> pst -> Model.res F B) :
  appr x x' -> (forall a s, appr (k a s) (k' a s)) -> appr (opt_ F x k) (opt_ F x' k').
Proof using Type. intros [->| ->] H; [left; reflexivity|]. destruct x'; cbn; [apply H|apply appr_refl|apply appr_refl]. Qed.
Lemma appr_req {A B : Type} (x x' : Model.res F A) (k k' : A -> pst -> Model.res F B) :
  appr x x' -> (forall a s, appr (k a s) (k' a s)) -> appr (req_ F x k) (req_ F x' k').
Proof using Type. intros [->| ->] H; [left; reflexivity|]. destruct x' as [[a|] s|s|]; cbn; try apply appr_refl; apply H. Qed.
Lemma appr_lead {A B : Type} (x x' : Model.res F A) (k k' : A -> pst -> Model.res F B) :
  appr x x' -> (forall a s, appr (k a s) (k' a s)) -> appr (lead_ F x k) (lead_ F x' k').
Proof using Type. intros [->| ->] H; [left; reflexivity|]. destruct x' as [[a|] s|s|]; cbn; try apply appr_refl; apply H. Qed.

Record below (R R' : fns F) : Prop := {
  b_expr : forall st t s, appr (f_expr F R st t s) (f_expr F R' st t s);
  b_expr_loop : forall e st t s, appr (f_expr_loop F R e st t s) (f_expr_loop F R' e st t s);
  b_part : forall e i t s, appr (f_part F R e i t s) (f_part F R' e i t s);
  b_part_loop : forall b o e i t s, appr (f_part_loop F R b o e i t s) (f_part_loop F R' b o e i t s);
  b_group : forall t s, appr (f_group F R t s) (f_group F R' t s);
  b_follows : forall l b t s, appr (f_follows F R l b t s) (f_follows F R' l b t s);
  b_term : forall s, appr (f_term F R s) (f_term F R' s);
  b_args : forall c l s, appr (f_args F R c l s) (f_args F R' c l s);
  b_pick : forall c l s, appr (f_pick F R c l s) (f_pick F R' c l s);
  b_vars : forall c l s, appr (f_vars F R c l s) (f_vars F R' c l s);
  b_interp : forall l s, appr (f_interp F R l s) (f_interp F R' l s) }.

Section WITH.
Variable R R' : fns F.
Hypothesis HB : below R R'.
Ltac base := first [ apply appr_refl | apply (b_expr R R' HB) | apply (b_expr_loop R R' HB) | apply (b_part R R' HB)
  | apply (b_part_loop R R' HB) | apply (b_group R R' HB) | apply (b_follows R R' HB) | apply (b_term R R' HB)
  | apply (b_args R R' HB) | apply (b_pick R R' HB) | apply (b_vars R R' HB) | apply (b_interp R R' HB) | assumption ].
Ltac go base := intros; cbv beta zeta; repeat first [ base
  | lazymatch goal with
    | |- appr (opt_ _ _ _) _ => apply appr_opt; [|intros]
    | |- appr (req_ _ _ _) _ => apply appr_req; [|intros]
    | |- appr (lead_ _ _ _) _ => apply appr_lead; [|intros]
    | |- appr (match ?x with _ => _ end) _ => destruct x
    end ].

Lemma else_mono (bits : list expr) : forall e s, appr (else_loop F R bits e s) (else_loop F R' bits e s).
Proof using HB.
  induction bits as [|b bits IH]; intros e s; cbn [else_loop]; [apply appr_refl|]. go ltac:(first [base | apply IH]).
Qed.
Lemma expression_mono s : appr (expression F R s) (expression F R' s).
Proof using HB. apply (b_expr R R' HB). Qed.
Lemma arguments_mono s : appr (arguments F R s) (arguments F R' s).
Proof using HB. unfold arguments. go base. Qed.
Ltac base1 := first [base | apply expression_mono | apply arguments_mono | apply else_mono ].
Lemma pick_arguments_mono s : appr (pick_arguments F R s) (pick_arguments F R' s).
Proof using HB. unfold pick_arguments. go base1. Qed.
Lemma prefab_mono ps s : appr (prefab_ex F R ps s) (prefab_ex F R' ps s).
Proof using HB. unfold prefab_ex. go base1. Qed.
Ltac base2 := first [base1 | apply pick_arguments_mono | apply prefab_mono].
Lemma new_mono s : appr (new_term F R s) (new_term F R' s).
Proof using HB. unfold new_term. go base2. Qed.
Lemma call_ext_mono s : appr (call_ext_term F R s) (call_ext_term F R' s).
Proof using HB. unfold call_ext_term. go base2. Qed.
Lemma specifier_mono s : appr (input_specifier F R s) (input_specifier F R' s).
Proof using HB. unfold input_specifier. go base2. Qed.
Lemma input_mono i s : appr (input_term F R i s) (input_term F R' i s).
Proof using HB. unfold input_term. go ltac:(first [base2 | apply specifier_mono]). Qed.
Lemma locate_mono i s : appr (locate_term F R i s) (locate_term F R' i s).
Proof using HB.
  unfold locate_term. apply appr_opt; [apply arguments_mono|]. intros [args|] s1; [|apply appr_refl]. cbv zeta.
  apply appr_opt; [apply appr_refl|]. intros [u|] s3; [|apply appr_refl]. go base2.
Qed.
Lemma list_mono i s : appr (list_term F R i s) (list_term F R' i s).
Proof using HB. unfold list_term. go base2. Qed.
Lemma dot_mono s : appr (dot_term F R s) (dot_term F R' s).
Proof using HB. unfold dot_term. go base2. Qed.
Lemma scope_mono s : appr (scope_term F R s) (scope_term F R' s).
Proof using HB. unfold scope_term. go base2. Qed.
Lemma paren_mono s : appr (paren_term F R s) (paren_term F R' s).
Proof using HB. unfold paren_term. go base2. Qed.
Ltac base3 := first [base2 | apply new_mono | apply call_ext_mono | apply input_mono | apply locate_mono
  | apply list_mono | apply dot_mono | apply scope_mono | apply paren_mono ].
Lemma ident_term_mono i s : appr (ident_term F R i s) (ident_term F R' i s).
Proof using HB. unfold ident_term. cbv zeta.
  repeat match goal with |- appr (if ?b then _ else _) _ => destruct b end; go base3. Qed.
Lemma list_access_mono s : appr (list_access F R s) (list_access F R' s).
Proof using HB. unfold list_access. go base2. Qed.
Lemma follow_mono b t s : appr (follow_one F R b t s) (follow_one F R' b t s).
Proof using HB. unfold follow_one. go ltac:(first [base2 | apply list_access_mono]). Qed.
Lemma separated_mono {X : Type} (p q : punct) (al : option X) (item item' : pst -> Model.res F X)
  (again again' : bool -> list X -> pst -> Model.res F (list X)) c l s :
  (forall s, appr (item s) (item' s)) -> (forall c l s, appr (again c l s) (again' c l s)) ->
  appr (separated_body F p q al item again c l s) (separated_body F p q al item' again' c l s).
Proof using Type. clear. intros H1 H2. unfold separated_body. go ltac:(first [apply appr_refl | apply H1 | apply H2]). Qed.

Lemma step_mono : below (step F R) (step F R').
Proof using HB.
  constructor; cbn [step f_expr f_expr_loop f_part f_part_loop f_group f_follows f_term f_args f_pick f_vars f_interp]; intros.
  - unfold expr_body. go base1.
  - unfold expr_loop_body. go base1.
  - unfold part_body. go base1.
  - unfold part_loop_body. go base1.
  - unfold group_body. destruct (prefix_loop F (toks s)) as [us r]. go base1.
  - unfold follows_body. go ltac:(first [base1 | apply follow_mono]).
  - unfold term_body. cbv zeta. destruct (toks s) as [|x r]; [apply appr_refl|].
    destruct x; try apply appr_refl; try destruct p; go ltac:(first [base3 | apply ident_term_mono]).
  - apply separated_mono; [go base1|apply (b_args R R' HB)].
  - apply separated_mono; [unfold pick_item; go base1|apply (b_pick R R' HB)].
  - apply separated_mono; [unfold var_item; go base1|apply (b_vars R R' HB)].
  - unfold interp_body. go base1.
Qed.
End WITH.

Lemma run_mono (n m : nat) : n <= m -> below (run F n) (run F m).
Proof using Type.
  revert m. induction n as [|n IH]; intros m H.
  - constructor; intros; left; reflexivity.
  - destruct m as [|m]; [lia|]. cbn [run]. apply step_mono, IH. lia.
Qed.
End MONO.
