(** Basic facts about the parser model: inversion of the monadic combinators, the operator table, diagnostics only
    accumulate, a missing phrase consumes nothing. *)
From Coq Require Import List NArith ZArith Bool String Lia.
From Verif Require Import Common.Text Lexer.Punct Lexer.Model Parse.Ast Parse.Model Parse.Spec.
Import ListNotations.
Open Scope nat_scope.

Section FACTS.
Variable F : Type.
Notation tok := (token F).
Notation expr := (expr F).
Notation term := (term F).
Notation follow := (follow F).
Notation pst := (pst F).

Lemma opt_inv {A B : Type} (x : Model.res F A) (k : option A -> pst -> Model.res F B) (o : option B) (s' : pst) :
  opt_ F x k = Ok o s' -> exists a s1, x = Ok a s1 /\ k a s1 = Ok o s'.
Proof using Type. destruct x as [a s1|s1|]; cbn [opt_]; intros H; try discriminate; eauto. Qed.
Lemma req_inv {A B : Type} (x : Model.res F A) (k : A -> pst -> Model.res F B) (o : option B) (s' : pst) :
  req_ F x k = Ok o s' -> exists a s1, x = Ok (Some a) s1 /\ k a s1 = Ok o s'.
Proof using Type. destruct x as [[a|] s1|s1|]; cbn [req_]; intros H; try discriminate; eauto. Qed.
Lemma lead_inv {A B : Type} (x : Model.res F A) (k : A -> pst -> Model.res F B) (o : option B) (s' : pst) :
  lead_ F x k = Ok o s' ->
  (exists a s1, x = Ok (Some a) s1 /\ k a s1 = Ok o s') \/ (x = Ok None s' /\ o = None).
Proof using Type.
  destruct x as [[a|] s1|s1|]; cbn [lead_]; intros H; try discriminate; [eauto|].
  right; injection H as <- <-; auto.
Qed.

Lemma peqb_spec (p q : punct) : reflect (p = q) (peqb p q).
Proof using Type. unfold peqb; destruct (punct_eq_dec p q); constructor; assumption. Qed.
Lemma peqb_refl (p : punct) : peqb p p = true.
Proof using Type. destruct (peqb_spec p p); congruence. Qed.

(** ** Diagnostics accumulate *)
Definition ext (s s' : pst) : Prop := exists ds, diags s' = diags s ++ ds.
Lemma ext_refl (s : pst) : ext s s.
Proof using Type. exists []; rewrite app_nil_r; reflexivity. Qed.
Lemma ext_trans (a b c : pst) : ext a b -> ext b c -> ext a c.
Proof using Type. intros [x Hx] [y Hy]. exists (x ++ y). rewrite Hy, Hx, app_assoc. reflexivity. Qed.
Lemma ext_toks (ts : list tok) (s : pst) : ext s (with_toks F ts s).
Proof using Type. exists []; cbn; rewrite app_nil_r; reflexivity. Qed.
Lemma ext_toks_r (ts : list tok) (s s' : pst) : ext (with_toks F ts s) s' -> ext s s'.
Proof using Type. intros [x Hx]; exists x; exact Hx. Qed.
Lemma ext_take (s : pst) : ext s (take F s).
Proof using Type. apply ext_toks. Qed.
Lemma ext_register (d : diag) (s : pst) : ext s (register F d s).
Proof using Type. exists [d]; reflexivity. Qed.
Lemma ext_squeeze (a b c : pst) : ext a b -> ext b c -> diags c = diags a -> diags b = diags a /\ diags c = diags b.
Proof using Type.
  intros [x Hx] [y Hy] E. rewrite Hy, Hx in E. rewrite <- app_assoc in E.
  assert (E' : x ++ y = []). { apply (app_inv_head (diags a)). rewrite app_nil_r. exact E. }
  apply app_eq_nil in E' as [-> ->]. rewrite app_nil_r in *. split; congruence.
Qed.

Definition grows {A : Type} (f : pst -> Model.res F A) : Prop := forall s o s', f s = Ok o s' -> ext s s'.

Lemma exact_grows (p : punct) : grows (exact F p).
Proof using Type.
  intros s o s'; unfold exact, success. destruct (at_punct F p s); intros H; injection H as <- <-;
    [apply ext_take|apply ext_refl].
Qed.
Lemma ident_grows : grows (ident F).
Proof using Type.
  intros s o s'; unfold ident, success. destruct (toks s) as [|[] r]; intros H; injection H as <- <-;
    first [apply ext_toks|apply ext_refl].
Qed.
Lemma exact_ident_grows (w : text) : grows (exact_ident F w).
Proof using Type.
  intros s o s'; unfold exact_ident, success.
  destruct (toks s) as [|[| i ws| | | | | | | |] r]; try (intros H; injection H as <- <-; apply ext_refl).
  destruct (text_eqb i w); intros H; injection H as <- <-; [apply ext_toks|apply ext_refl].
Qed.
Lemma input_loop_grows (ts : list tok) : forall (n : N) (ds : list diag) (o : option N) (s' : pst),
  input_loop F ts n ds = Ok o s' -> exists es, diags s' = ds ++ es.
Proof using Type.
  induction ts as [ts IH] using (well_founded_induction (Wf_nat.well_founded_ltof _ (@List.length tok))).
  intros n ds o s'.
  assert (D : forall x : list tok, Ok (Some n) {| toks := x; diags := ds |} = Ok o s' -> exists es, diags s' = ds ++ es).
  { intros x H; injection H as <- <-; exists []; cbn; rewrite app_nil_r; reflexivity. }
  destruct ts as [|[p| | | | | | | | |] r]; cbn [input_loop]; try exact (D _).
  destruct p; try exact (D _).
  destruct r as [|[|i ws| | | | | | | |] r']; try discriminate.
  destruct (input_type_of i); intros H.
  - apply IH in H; [exact H|]. unfold Wf_nat.ltof; cbn; lia.
  - apply IH in H as [es He]; [|unfold Wf_nat.ltof; cbn; lia]. exists (DBadInput i :: es). rewrite He, <- app_assoc; reflexivity.
Qed.
Lemma input_type_grows : grows (input_type F).
Proof using Type.
  intros s o s'; unfold input_type. intros H. apply opt_inv in H as (p & s1 & E1 & H).
  apply exact_grows in E1. destruct p as [p|].
  - apply req_inv in H as (u & s2 & E2 & H). apply exact_grows in E2. injection H as <- <-.
    eapply ext_trans; eassumption.
  - apply lead_inv in H as [(i & s2 & E2 & H)|[E2 ->]].
    + apply ident_grows in E2. destruct (input_type_of i); apply input_loop_grows in H as [es He].
      * eapply ext_trans; [eassumption|]. eapply ext_trans; [eassumption|]. exists es; exact He.
      * eapply ext_trans; [eassumption|]. eapply ext_trans; [eassumption|]. eexists. rewrite He, <- app_assoc; reflexivity.
    + apply ident_grows in E2. eapply ext_trans; eassumption.
Qed.

(** ** The operator table *)
Inductive op_view (p : punct) : option opinfo -> Prop :=
  | V_bin n op st : binary_op p = Some (n, op) -> 1 <= n <= 11 -> rank st = n ->
      op_view p (Some {| o_strength := st; o_token := p; o_oper := OBin op |})
  | V_tern : p = PQuestionMark ->
      op_view p (Some {| o_strength := SConditional; o_token := p; o_oper := OTern |})
  | V_assign op : assign_op p = Some op ->
      op_view p (Some {| o_strength := SAssign; o_token := p; o_oper := OAssign op |})
  | V_in : p = PIn -> op_view p (Some {| o_strength := SIn; o_token := p; o_oper := OBin BIn |})
  | V_none : binary_op p = None -> assign_op p = None -> p <> PQuestionMark -> p <> PIn -> op_view p None.
Lemma op_of_view (p : punct) : op_view p (op_of F (TPunct F p)).
Proof using Type.
  destruct p; cbv;
    first [ eapply V_none; [reflexivity|reflexivity|discriminate|discriminate]
          | eapply V_tern; reflexivity
          | eapply V_in; reflexivity
          | eapply V_assign; reflexivity
          | eapply V_bin; [reflexivity|lia|reflexivity] ].
Qed.

(** *** [ends_before], in terms of the table *)
Lemma ends_before_iff (l : nat) (A : swallow F) (s : pst) :
  ends_before F l A (toks s) <->
  delimited F A (toks s) /\ match peek_op F s with Some i => l < rank (o_strength i) | None => True end.
Proof using Type.
  unfold ends_before, peek_op. destruct (toks s) as [|[p| | | | | | | | |] r]; cbn [op_of]; try tauto.
  change (find (fun i : opinfo => peqb (o_token i) p) BINARY_OPS) with (op_of F (TPunct F p)).
  pose proof (op_of_view p) as V. destruct V as [n op st Hb Hn Hr|E0|op Ha|E0|Hb Ha Hq Hi].
  - rewrite Hb. cbn [o_strength]. rewrite Hr.
    assert (p <> PQuestionMark /\ assign_op p = None /\ p <> PIn) as (Q1 & Q2 & Q3).
    { clear - Hb. destruct p; cbn in Hb |- *; try discriminate; repeat split; congruence. }
    split; [tauto|]. intros [H1 H2]; repeat split; try tauto; congruence.
  - subst p; cbn. split; [intros (H1 & _ & H2 & _); auto|]. intros [H1 H2]. repeat split; auto; congruence.
  - rewrite Ha. assert (binary_op p = None /\ p <> PQuestionMark /\ p <> PIn) as (Q1 & Q2 & Q3).
    { clear - Ha. destruct p; cbn in Ha |- *; try discriminate; repeat split; congruence. }
    rewrite Q1. cbn [o_strength rank]. split.
    + intros (H1 & _ & _ & H2 & _). split; [exact H1|]. apply H2; discriminate.
    + intros [H1 H2]; repeat split; auto; congruence.
  - subst p; cbn. split; [intros (H1 & _ & _ & _ & H2); auto|]. intros [H1 H2]. repeat split; auto; congruence.
  - rewrite Hb, Ha. split; [tauto|]. intros [H1 _]; repeat split; auto; congruence.
Qed.
End FACTS.
