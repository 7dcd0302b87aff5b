(** Diagnostics only accumulate, for every function of the parser. *)
From Coq Require Import List NArith ZArith Bool String Lia.
From Verif Require Import Common.Text Lexer.Punct Lexer.Model Parse.Ast Parse.Model Parse.Spec Parse.Facts.
Import ListNotations.
Open Scope nat_scope.

Ltac mstep :=
  match goal with
  | H : opt_ _ _ _ = Ok _ _ |- _ => let a := fresh "a" in let s := fresh "s" in let E := fresh "E" in
      apply opt_inv in H as (a & s & E & H)
  | H : req_ _ _ _ = Ok _ _ |- _ => let a := fresh "a" in let s := fresh "s" in let E := fresh "E" in
      apply req_inv in H as (a & s & E & H)
  | H : lead_ _ _ _ = Ok _ _ |- _ => let a := fresh "a" in let s := fresh "s" in let E := fresh "E" in
      apply lead_inv in H as [(a & s & E & H)|[H E]]
  | H : success _ _ _ = Ok _ _ |- _ => unfold success in H
  | H : Ok _ _ = Ok _ _ |- _ => injection H; clear H; intros; subst
  | H : Err _ = Ok _ _ |- _ => discriminate H
  | H : Stuck = Ok _ _ |- _ => discriminate H
  | H : match ?x with _ => _ end = Ok _ _ |- _ => let E := fresh "Q" in destruct x eqn:E
  end.

Section GROW.
Variable F : Type.
Notation tok := (token F).
Notation expr := (expr F).
Notation pst := (pst F).

Definition le (a b : list diag) : Prop := exists c, b = a ++ c.
Lemma le_refl (a : list diag) : le a a.
Proof using Type. exists []; rewrite app_nil_r; reflexivity. Qed.
Lemma le_trans (a b c : list diag) : le a b -> le b c -> le a c.
Proof using Type. intros [x ->] [y ->]. exists (x ++ y). rewrite app_assoc. reflexivity. Qed.
Lemma le_snoc (a : list diag) (d : diag) : le a (a ++ [d]).
Proof using Type. exists [d]; reflexivity. Qed.
Definition gr {A : Type} (f : pst -> Model.res F A) : Prop := forall s o s', f s = Ok o s' -> le (diags s) (diags s').

Lemma gr_of {A : Type} (f : pst -> Model.res F A) : grows F f -> gr f.
Proof using Type. intros H s o s' E. exact (H s o s' E). Qed.
Definition exact_gr p := gr_of _ (exact_grows F p).
Definition ident_gr := gr_of _ (ident_grows F).
Definition exact_ident_gr w := gr_of _ (exact_ident_grows F w).
Definition input_type_gr := gr_of _ (input_type_grows F).

Record grow_all (R : fns F) : Prop := {
  g_expr : forall st t, gr (f_expr F R st t);
  g_expr_loop : forall e st t, gr (f_expr_loop F R e st t);
  g_part : forall e i t, gr (f_part F R e i t);
  g_part_loop : forall b o e i t, gr (f_part_loop F R b o e i t);
  g_group : forall t, gr (f_group F R t);
  g_follows : forall l b t, gr (f_follows F R l b t);
  g_term : gr (f_term F R);
  g_args : forall c l, gr (f_args F R c l);
  g_pick : forall c l, gr (f_pick F R c l);
  g_vars : forall c l, gr (f_vars F R c l);
  g_interp : forall l, gr (f_interp F R l) }.

Section WITH.
Variable R : fns F.
Hypothesis HR : grow_all R.

Ltac conv :=
  match goal with
  | H : exact F _ _ = Ok _ _ |- _ => apply exact_gr in H
  | H : ident F _ = Ok _ _ |- _ => apply ident_gr in H
  | H : exact_ident F _ _ = Ok _ _ |- _ => apply exact_ident_gr in H
  | H : input_type F _ = Ok _ _ |- _ => apply input_type_gr in H
  | H : f_expr F R _ _ _ = Ok _ _ |- _ => apply (g_expr R HR) in H
  | H : expression F R _ = Ok _ _ |- _ => apply (g_expr R HR) in H
  | H : f_expr_loop F R _ _ _ _ = Ok _ _ |- _ => apply (g_expr_loop R HR) in H
  | H : f_part F R _ _ _ _ = Ok _ _ |- _ => apply (g_part R HR) in H
  | H : f_part_loop F R _ _ _ _ _ _ = Ok _ _ |- _ => apply (g_part_loop R HR) in H
  | H : f_group F R _ _ = Ok _ _ |- _ => apply (g_group R HR) in H
  | H : f_follows F R _ _ _ _ = Ok _ _ |- _ => apply (g_follows R HR) in H
  | H : f_term F R _ = Ok _ _ |- _ => apply (g_term R HR) in H
  | H : f_args F R _ _ _ = Ok _ _ |- _ => apply (g_args R HR) in H
  | H : f_pick F R _ _ _ = Ok _ _ |- _ => apply (g_pick R HR) in H
  | H : f_vars F R _ _ _ = Ok _ _ |- _ => apply (g_vars R HR) in H
  | H : f_interp F R _ _ = Ok _ _ |- _ => apply (g_interp R HR) in H
  end.
Ltac fin :=
  subst; cbn [diags toks take with_toks register] in *;
  repeat first [assumption | apply le_refl | match goal with H : le ?a ?b |- le ?a _ => apply (le_trans _ _ _ H); clear H end | match goal with H : le (?a ++ [?d]) _ |- le ?a _ => apply (le_trans _ _ _ (le_snoc a d)) end | apply le_snoc].
Ltac go := repeat first [mstep | conv]; try discriminate; fin.

Lemma else_gr (bits : list expr) : forall e, gr (else_loop F R bits e).
Proof using HR.
  induction bits as [|b bits IH]; intros e s o s' H; cbn [else_loop] in H; [go|].
  repeat mstep; match goal with H : else_loop _ _ _ _ _ = _ |- _ => apply IH in H end; repeat conv; fin.
Qed.
Lemma arguments_gr : gr (arguments F R).
Proof using HR. intros s o s' H; unfold arguments in H; go. Qed.
Ltac conv ::=
  match goal with
  | H : exact F _ _ = Ok _ _ |- _ => apply exact_gr in H
  | H : ident F _ = Ok _ _ |- _ => apply ident_gr in H
  | H : exact_ident F _ _ = Ok _ _ |- _ => apply exact_ident_gr in H
  | H : input_type F _ = Ok _ _ |- _ => apply input_type_gr in H
  | H : f_expr F R _ _ _ = Ok _ _ |- _ => apply (g_expr R HR) in H
  | H : expression F R _ = Ok _ _ |- _ => apply (g_expr R HR) in H
  | H : f_expr_loop F R _ _ _ _ = Ok _ _ |- _ => apply (g_expr_loop R HR) in H
  | H : f_part F R _ _ _ _ = Ok _ _ |- _ => apply (g_part R HR) in H
  | H : f_part_loop F R _ _ _ _ _ _ = Ok _ _ |- _ => apply (g_part_loop R HR) in H
  | H : f_group F R _ _ = Ok _ _ |- _ => apply (g_group R HR) in H
  | H : f_follows F R _ _ _ _ = Ok _ _ |- _ => apply (g_follows R HR) in H
  | H : f_term F R _ = Ok _ _ |- _ => apply (g_term R HR) in H
  | H : f_args F R _ _ _ = Ok _ _ |- _ => apply (g_args R HR) in H
  | H : f_pick F R _ _ _ = Ok _ _ |- _ => apply (g_pick R HR) in H
  | H : f_vars F R _ _ _ = Ok _ _ |- _ => apply (g_vars R HR) in H
  | H : f_interp F R _ _ = Ok _ _ |- _ => apply (g_interp R HR) in H
  | H : arguments F R _ = Ok _ _ |- _ => apply arguments_gr in H
  | H : else_loop F R _ _ _ = Ok _ _ |- _ => apply else_gr in H
  end.
Lemma prefab_gr (ps : list (pathop * text)) : gr (prefab_ex F R ps).
Proof using HR. intros s o s' H; unfold prefab_ex in H; go. Qed.
Lemma fields_gr (ts : list tok) : forall ds fs s', fields_loop F ts ds = (fs, s') -> le ds (diags s').
Proof using Type.
  clear R HR.
  induction ts as [ts IH] using (well_founded_induction (Wf_nat.well_founded_ltof _ (@List.length tok))).
  intros ds fs s' H. destruct ts as [|t r]; cbn [fields_loop] in H; [injection H as <- <-; apply le_refl|].
  destruct (field_kind F t); [|injection H as <- <-; apply le_refl].
  assert (D : (let '(fs0, s0) := fields_loop F r (ds ++ [DParse]) in ((p, []) :: fs0, s0)) = (fs, s') ->
              le ds (diags s')).
  { intros H'. destruct (fields_loop F r (ds ++ [DParse])) as [fs0 s0] eqn:E0. injection H' as <- <-.
    eapply le_trans; [apply le_snoc|]. eapply IH; [|exact E0]. unfold Wf_nat.ltof; cbn; lia. }
  destruct r as [|[|i ws| | | | | | | |] r']; try exact (D H).
  destruct (fields_loop F r' ds) as [fs0 s0] eqn:E0. injection H as <- <-.
  eapply IH; [|exact E0]. unfold Wf_nat.ltof; cbn; lia.
Qed.
Lemma new_gr : gr (new_term F R).
Proof using HR.
  intros s o s' H; unfold new_term in H.
  repeat first [ match goal with
                 | H : prefab_ex _ _ _ _ = Ok _ _ |- _ => apply prefab_gr in H
                 | H : fields_loop _ _ _ = _ |- _ => apply fields_gr in H end | mstep | conv ]; try discriminate; fin.
Qed.
Lemma call_ext_gr : gr (call_ext_term F R).
Proof using HR. intros s o s' H; unfold call_ext_term in H. go. Qed.
Lemma spec_gr : gr (input_specifier F R).
Proof using HR. intros s o s' H; unfold input_specifier in H. go. Qed.
Lemma input_gr (i : text) : gr (input_term F R i).
Proof using HR.
  intros s o s' H; unfold input_term in H.
  repeat first [ match goal with H : input_specifier _ _ _ = Ok _ _ |- _ => apply spec_gr in H end | mstep | conv ]; fin.
Qed.
Lemma locate_gr (i : text) : gr (locate_term F R i).
Proof using HR.
  intros s o s' H; unfold locate_term in H. mstep. conv. destruct a as [args|]; [|go].
  set (s2 := match args with Bin BIn _ _ :: _ => register F DLocateIn s0 | _ => s0 end) in *.
  assert (L : le (diags s0) (diags s2)).
  { subst s2. clear. destruct args as [|[|op ? ?|?|?] ?]; try apply le_refl. destruct op; first [apply le_refl|apply le_snoc]. }
  clearbody s2. mstep. conv. destruct a as [u|]; [|go]. destruct (1 <? Datatypes.length args); go.
Qed.
Lemma as_gr : gr (as_term F).
Proof using Type. clear R HR. intros s o s' H; unfold as_term in H.
  repeat first [mstep | match goal with
  | H : exact F _ _ = Ok _ _ |- _ => apply exact_gr in H
  | H : input_type F _ = Ok _ _ |- _ => apply input_type_gr in H end]; fin. Qed.
Lemma list_gr (i : text) : gr (list_term F R i).
Proof using HR. intros s o s' H; unfold list_term in H. go. Qed.
Lemma pick_gr : gr (pick_arguments F R).
Proof using HR. intros s o s' H; unfold pick_arguments in H. go. Qed.
Lemma dot_gr : gr (dot_term F R).
Proof using HR.
  intros s o s' H; unfold dot_term in H.
  repeat first [ match goal with H : prefab_ex _ _ _ _ = Ok _ _ |- _ => apply prefab_gr in H end | mstep | conv ]; fin.
Qed.
Lemma scope_gr : gr (scope_term F R).
Proof using HR. intros s o s' H; unfold scope_term in H. go. Qed.
Lemma paren_gr : gr (paren_term F R).
Proof using HR. intros s o s' H; unfold paren_term in H. go. Qed.

Ltac conv2 := match goal with
  | H : prefab_ex _ _ _ _ = Ok _ _ |- _ => apply prefab_gr in H
  | H : new_term _ _ _ = Ok _ _ |- _ => apply new_gr in H
  | H : call_ext_term _ _ _ = Ok _ _ |- _ => apply call_ext_gr in H
  | H : input_term _ _ _ _ = Ok _ _ |- _ => apply input_gr in H
  | H : locate_term _ _ _ _ = Ok _ _ |- _ => apply locate_gr in H
  | H : as_term _ _ = Ok _ _ |- _ => apply as_gr in H
  | H : list_term _ _ _ _ = Ok _ _ |- _ => apply list_gr in H
  | H : pick_arguments _ _ _ = Ok _ _ |- _ => apply pick_gr in H
  | H : dot_term _ _ _ = Ok _ _ |- _ => apply dot_gr in H
  | H : scope_term _ _ _ = Ok _ _ |- _ => apply scope_gr in H
  | H : paren_term _ _ _ = Ok _ _ |- _ => apply paren_gr in H
  end.
Lemma ident_term_gr (i : text) : gr (ident_term F R i).
Proof using HR.
  intros s o s' H; unfold ident_term in H.
  repeat match type of H with (if ?b then _ else _) = _ => destruct b end;
    repeat first [conv2 | mstep | conv]; fin.
Qed.
Lemma follow_gr (b t : bool) : gr (follow_one F R b t).
Proof using HR.
  intros s o s' H; unfold follow_one in H. mstep. unfold list_access in E.
  assert (L : le (diags s) (diags s0)) by go. clear E. destruct a as [f|]; [go|].
  destruct (toks s0) as [|x r]; [go|]. destruct (follow_kind F b t x) as [kind|]; [|go].
  mstep. destruct a as [i|]; go.
Qed.
Lemma sep_gr {X : Type} (p q : punct) (al : option X) (item : pst -> Model.res F X)
  (again : bool -> list X -> pst -> Model.res F (list X)) (c : bool) (l : list X) :
  gr item -> (forall c l, gr (again c l)) -> gr (separated_body F p q al item again c l).
Proof using Type.
  clear R HR. intros Hi Ha s o s' H; unfold separated_body in H.
  repeat first [mstep | match goal with
  | H : exact F _ _ = Ok _ _ |- _ => apply exact_gr in H
  | H : item _ = Ok _ _ |- _ => apply Hi in H
  | H : again _ _ _ = Ok _ _ |- _ => apply Ha in H end]; fin.
Qed.

Lemma step_grows : grow_all (step F R).
Proof using HR.
  constructor; cbn [step f_expr f_expr_loop f_part f_part_loop f_group f_follows f_term f_args f_pick f_vars f_interp].
  - intros st t s o s' H; unfold expr_body in H. go.
  - intros e st t s o s' H; unfold expr_loop_body in H. go.
  - intros e i t s o s' H; unfold part_body in H. go.
  - intros b os e i t s o s' H; unfold part_loop_body in H. go.
  - intros t s o s' H; unfold group_body in H. go.
  - intros l b t s o s' H; unfold follows_body in H.
    repeat first [ match goal with H : follow_one _ _ _ _ _ = Ok _ _ |- _ => apply follow_gr in H end | mstep | conv ]; fin.
  - intros s o s' H; unfold term_body in H.
    destruct (toks s) as [|x r]; [go|].
    destruct x; try destruct p;
      repeat first [ match goal with H : ident_term _ _ _ _ = Ok _ _ |- _ => apply ident_term_gr in H end
                   | conv2 | mstep | conv]; fin.
  - intros c l. apply sep_gr; [|exact (g_args R HR)]. intros s o s' H; go.
  - intros c l. apply sep_gr; [|exact (g_pick R HR)]. intros s o s' H; unfold pick_item in H; go.
  - intros c l. apply sep_gr; [|exact (g_vars R HR)]. intros s o s' H; unfold var_item in H; go.
  - intros l s o s' H; unfold interp_body in H. go.
Qed.
End WITH.

Theorem run_grows (n : nat) : grow_all (run F n).
Proof using Type.
  induction n as [|n IH]; [|apply step_grows, IH].
  constructor; intros; intros ? ? ? H; discriminate H.
Qed.
End GROW.
