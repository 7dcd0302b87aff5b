(** Termination of the parser: the fuel [4 * tokens + 4] suffices, whatever the tokens. *)
From Coq Require Import List NArith ZArith Bool String Lia.
From Verif Require Import Common.Text Lexer.Punct Lexer.Model Parse.Ast Parse.Model Parse.Spec Parse.Facts Parse.Grow.
Import ListNotations.
Open Scope nat_scope.

Ltac dopt o := lazymatch o with None => cbv iota | Some _ => cbv iota | _ => destruct o end.
Section TERM.
Variable F : Type.
Notation tok := (token F).
Notation expr := (expr F).
Notation pst := (pst F).
Notation len s := (List.length (toks s)).

Lemma at_punct_inv (p : punct) (s : pst) : at_punct F p s = true -> toks s = TPunct F p :: toks (take F s).
Proof using Type.
  unfold at_punct. destruct (toks s) as [|[q| | | | | | | | |] r] eqn:E; try discriminate.
  intros H. destruct (peqb_spec p q); [|discriminate]. subst. unfold take; cbn [with_toks toks]. rewrite E. reflexivity.
Qed.
Lemma at_punct_len (p : punct) (s : pst) : at_punct F p s = true -> len (take F s) < len s.
Proof using Type. intros H. rewrite (at_punct_inv _ _ H). cbn. lia. Qed.
Lemma peek_op_len (s : pst) (i : opinfo) : peek_op F s = Some i -> len (take F s) < len s.
Proof using Type. unfold peek_op, take; cbn [with_toks toks]. destruct (toks s); [discriminate|cbn; lia]. Qed.

Definition shr {A : Type} (f : pst -> Model.res F A) : Prop := forall s o s', f s = Ok o s' -> len s' <= len s.
Definition strict {A : Type} (f : pst -> Model.res F A) : Prop :=
  forall s o s', f s = Ok o s' -> match o with Some _ => len s' < len s | None => s' = s end.
Definition some {A : Type} (f : pst -> Model.res F A) : Prop :=
  forall s o s', f s = Ok o s' -> o <> None /\ len s' <= len s.
Definition some_strict {A : Type} (f : pst -> Model.res F A) : Prop :=
  forall s o s', f s = Ok o s' -> o <> None /\ len s' < len s.

Lemma exact_sh (p : punct) : strict (exact F p).
Proof using Type.
  intros s o s'; unfold exact, success. destruct (at_punct F p s) eqn:E; intros H; injection H as <- <-; auto.
  apply at_punct_len with p; exact E.
Qed.
Lemma ident_sh : strict (ident F).
Proof using Type.
  intros s o s'; unfold ident, success. destruct (toks s) as [|[] r] eqn:E; intros H; injection H as <- <-;
    cbn [toks with_toks]; try rewrite E; cbn [List.length]; first [reflexivity|lia].
Qed.
Lemma exact_ident_sh (w : text) : strict (exact_ident F w).
Proof using Type.
  intros s o s'; unfold exact_ident, success.
  destruct (toks s) as [|[| i ws| | | | | | | |] r] eqn:E; try (intros H; injection H as <- <-; reflexivity).
  destruct (text_eqb i w); intros H; injection H as <- <-; cbn [toks with_toks]; try rewrite E; cbn; first [reflexivity|lia].
Qed.
Lemma input_loop_sh (ts : list tok) : forall (n : N) (ds : list diag) (o : option N) (s' : pst),
  input_loop F ts n ds = Ok o s' -> o <> None /\ len s' <= List.length ts.
Proof using Type.
  induction ts as [ts IH] using (well_founded_induction (Wf_nat.well_founded_ltof _ (@List.length tok))).
  intros n ds o s'.
  assert (D : forall x : list tok, Ok (Some n) {| toks := x; diags := ds |} = Ok o s' -> o <> None /\ len s' <= List.length x).
  { intros x H; injection H as <- <-; cbn; split; [discriminate|lia]. }
  destruct ts as [|[p| | | | | | | | |] r]; cbn [input_loop]; try exact (D _).
  destruct p; try exact (D _).
  destruct r as [|[|i ws| | | | | | | |] r']; try discriminate.
  destruct (input_type_of i); intros H; (apply IH in H; [cbn in *; split; [tauto|lia]|unfold Wf_nat.ltof; cbn; lia]).
Qed.
Lemma input_type_sh : strict (input_type F).
Proof using Type.
  intros s o s'; unfold input_type. intros H. apply opt_inv in H as (p & s1 & E1 & H).
  apply exact_sh in E1. destruct p as [p|].
  - apply req_inv in H as (u & s2 & E2 & H). apply exact_sh in E2. injection H as <- <-. cbn in *; lia.
  - subst s1. apply lead_inv in H as [(i & s2 & E2 & H)|[E2 ->]].
    + apply ident_sh in E2. destruct (input_type_of i); apply input_loop_sh in H as [H1 H2];
        destruct o; try congruence; lia.
    + apply ident_sh in E2. exact E2.
Qed.
Lemma input_type_ns (s : pst) : input_type F s <> Stuck.
Proof using Type.
  assert (L : forall (ts : list tok) n ds, input_loop F ts n ds <> Stuck).
  { clear. intros ts.
    induction ts as [ts IH] using (well_founded_induction (Wf_nat.well_founded_ltof _ (@List.length tok))). intros n ds.
    destruct ts as [|[p| | | | | | | | |] r]; cbn [input_loop]; try discriminate.
    destruct p; try discriminate.
    destruct r as [|[|i ws| | | | | | | |] r']; try discriminate.
    destruct (input_type_of i); apply IH; unfold Wf_nat.ltof; cbn; lia. }
  unfold input_type, exact, ident, success. destruct (at_punct F PLParen s); cbn [opt_].
  - destruct (at_punct F PRParen (take F s)); cbn [req_]; discriminate.
  - destruct (toks s) as [|[] r]; cbn [lead_ toks with_toks]; try discriminate. destruct (input_type_of i); apply L.
Qed.

Record shrink_all (R : fns F) : Prop := {
  h_expr : forall st t, strict (f_expr F R st t);
  h_expr_loop : forall e st t, some (f_expr_loop F R e st t);
  h_part : forall e i t, some_strict (f_part F R e i t);
  h_part_loop : forall b o e i t, some (f_part_loop F R b o e i t);
  h_group : forall t, strict (f_group F R t);
  h_follows : forall l b t, some (f_follows F R l b t);
  h_term : strict (f_term F R);
  h_args : forall c l, some_strict (f_args F R c l);
  h_pick : forall c l, some_strict (f_pick F R c l);
  h_vars : forall c l, some_strict (f_vars F R c l);
  h_interp : forall l, some_strict (f_interp F R l) }.

Lemma prefix_len (ts : list tok) : List.length (snd (prefix_loop F ts)) + List.length (fst (prefix_loop F ts)) = List.length ts.
Proof using Type.
  induction ts as [|t r IH]; cbn [prefix_loop]; [reflexivity|]. destruct (Model.prefix_op F t); [|cbn; lia].
  destruct (prefix_loop F r); cbn in *; lia.
Qed.
Lemma path_len (ts : list tok) : List.length (snd (path_loop F ts)) <= List.length ts.
Proof using Type.
  induction ts as [ts IH] using (well_founded_induction (Wf_nat.well_founded_ltof _ (@List.length tok))).
  destruct ts as [|t r]; cbn [path_loop]; [cbn; lia|]. destruct (separator_of F t); [|cbn; lia].
  assert (D : List.length (snd (path_loop F r)) <= S (List.length r)).
  { specialize (IH r). unfold Wf_nat.ltof in IH. cbn in IH. lia. }
  destruct r as [|[|i ws| | | | | | | |] r']; try exact D.
  specialize (IH r'). unfold Wf_nat.ltof in IH. cbn [List.length] in *. destruct (path_loop F r') as [a b]; cbn [snd] in *. lia.
Qed.
Lemma path_len_lt (t : tok) (r : list tok) (o : pathop) :
  separator_of F t = Some o -> List.length (snd (path_loop F (t :: r))) < List.length (t :: r).
Proof using Type.
  intros E. cbn [path_loop]. rewrite E.
  assert (D : List.length (snd (path_loop F r)) < List.length (t :: r)) by (pose proof (path_len r); cbn; lia).
  destruct r as [|[|i ws| | | | | | | |] r']; try exact D.
  pose proof (path_len r'). destruct (path_loop F r') as [a b]; cbn [snd List.length] in *. lia.
Qed.
Lemma fields_len (ts : list tok) : forall ds fs s', fields_loop F ts ds = (fs, s') -> len s' <= List.length ts.
Proof using Type.
  induction ts as [ts IH] using (well_founded_induction (Wf_nat.well_founded_ltof _ (@List.length tok))).
  intros ds fs s' H. destruct ts as [|t r]; cbn [fields_loop] in H; [injection H as <- <-; cbn; lia|].
  destruct (field_kind F t); [|injection H as <- <-; cbn; lia].
  assert (D : (let '(fs0, s0) := fields_loop F r (ds ++ [DParse]) in ((p, []) :: fs0, s0)) = (fs, s') ->
              len s' <= List.length (t :: r)).
  { intros H'. destruct (fields_loop F r (ds ++ [DParse])) as [fs0 s0] eqn:E0. injection H' as <- <-.
    apply IH in E0; [cbn; lia|]. unfold Wf_nat.ltof; cbn; lia. }
  destruct r as [|[|i ws| | | | | | | |] r']; try exact (D H).
  destruct (fields_loop F r' ds) as [fs0 s0] eqn:E0. injection H as <- <-.
  apply IH in E0; [cbn; lia|]. unfold Wf_nat.ltof; cbn; lia.
Qed.

Section WITH.
Variable R : fns F.
Hypothesis HR : shrink_all R.

Ltac conv :=
  match goal with
  | H : exact F _ _ = Ok ?o _ |- _ => apply exact_sh in H; dopt o
  | H : ident F _ = Ok ?o _ |- _ => apply ident_sh in H; dopt o
  | H : exact_ident F _ _ = Ok ?o _ |- _ => apply exact_ident_sh in H; dopt o
  | H : input_type F _ = Ok ?o _ |- _ => apply input_type_sh in H; dopt o
  | H : f_expr F R _ _ _ = Ok ?o _ |- _ => apply (h_expr R HR) in H; dopt o
  | H : expression F R _ = Ok ?o _ |- _ => apply (h_expr R HR) in H; dopt o
  | H : f_expr_loop F R _ _ _ _ = Ok _ _ |- _ => apply (h_expr_loop R HR) in H as [? H]
  | H : f_part F R _ _ _ _ = Ok _ _ |- _ => apply (h_part R HR) in H as [? H]
  | H : f_part_loop F R _ _ _ _ _ _ = Ok _ _ |- _ => apply (h_part_loop R HR) in H as [? H]
  | H : f_group F R _ _ = Ok ?o _ |- _ => apply (h_group R HR) in H; dopt o
  | H : f_follows F R _ _ _ _ = Ok _ _ |- _ => apply (h_follows R HR) in H as [? H]
  | H : f_term F R _ = Ok ?o _ |- _ => apply (h_term R HR) in H; dopt o
  | H : f_args F R _ _ _ = Ok _ _ |- _ => apply (h_args R HR) in H as [? H]
  | H : f_pick F R _ _ _ = Ok _ _ |- _ => apply (h_pick R HR) in H as [? H]
  | H : f_vars F R _ _ _ = Ok _ _ |- _ => apply (h_vars R HR) in H as [? H]
  | H : f_interp F R _ _ = Ok _ _ |- _ => apply (h_interp R HR) in H as [? H]
  | H : at_punct F _ _ = true |- _ => apply at_punct_len in H
  | H : peek_op F _ = Some _ |- _ => apply peek_op_len in H
  end.
Ltac fin := subst; cbn [toks diags with_toks register] in *;
  repeat match goal with H : ?x <> ?x |- _ => congruence | |- _ /\ _ => split | |- match ?o with _ => _ end => destruct o end;
  try congruence; try lia.
Ltac go := repeat first [mstep | conv]; fin.

Lemma else_sh (bits : list expr) : forall e, some (else_loop F R bits e).
Proof using HR.
  induction bits as [|b bits IH]; intros e s o s' H; cbn [else_loop] in H; [go|].
  destruct (at_punct F PColon s || at_punct F PCloseColon s) eqn:Q; [|discriminate].
  assert (L : len (take F s) < len s) by (apply orb_true_iff in Q as [Q|Q]; apply at_punct_len in Q; exact Q). clear Q.
  repeat mstep; match goal with H : else_loop _ _ _ _ _ = _ |- _ => apply IH in H as [? H] end; repeat conv; fin.
Qed.
Lemma arguments_sh : strict (arguments F R).
Proof using HR. intros s o s' H; unfold arguments in H; go. Qed.
Lemma prefab_sh (ps : list (pathop * text)) : ps = [] -> strict (prefab_ex F R ps).
Proof using HR.
  intros -> s o s' H; unfold prefab_ex in H. destruct (toks s) as [|t r] eqn:Et in H; [go|].
  destruct (separator_of F t) as [p|] eqn:Es; [|go].
  pose proof (path_len_lt t r p Es) as L. destruct (path_loop F (t :: r)) as [more r'] eqn:Ep. cbn [snd] in L. rewrite <- Et in L.
  go.
Qed.
Lemma prefab_sh' (ps : list (pathop * text)) : ps <> [] -> some (prefab_ex F R ps).
Proof using HR.
  intros Hp s o s' H; unfold prefab_ex in H. destruct (toks s) as [|t r] eqn:Et in H; [destruct ps; go|].
  destruct (separator_of F t) as [p|] eqn:Es; [|destruct ps; go].
  pose proof (path_len_lt t r p Es) as L. destruct (path_loop F (t :: r)) as [more r'] eqn:Ep. cbn [snd] in L. rewrite <- Et in L.
  go.
Qed.
Ltac conv2 := first [ conv | match goal with
  | H : arguments F R _ = Ok ?o _ |- _ => apply arguments_sh in H; dopt o
  | H : else_loop F R _ _ _ = Ok _ _ |- _ => apply else_sh in H as [? H]
  | H : prefab_ex F R [] _ = Ok ?o _ |- _ => apply prefab_sh in H; [dopt o|reflexivity]
  | H : prefab_ex F R (_ :: _) _ = Ok ?o _ |- _ => apply prefab_sh' in H as [? H]; [|discriminate]
  | H : fields_loop _ _ _ = _ |- _ => apply fields_len in H
  end ].
Ltac go2 := repeat first [mstep | conv2]; fin.
Lemma new_sh : some (new_term F R).
Proof using HR. intros s o s' H; unfold new_term in H. go2. Qed.
Lemma call_ext_sh : some (call_ext_term F R).
Proof using HR. intros s o s' H; unfold call_ext_term in H. go2. Qed.
Lemma spec_sh : some (input_specifier F R).
Proof using HR. intros s o s' H; unfold input_specifier in H. go2. Qed.
Lemma input_sh (i : text) : some (input_term F R i).
Proof using HR.
  intros s o s' H; unfold input_term in H.
  repeat first [ match goal with H : input_specifier _ _ _ = Ok _ _ |- _ => apply spec_sh in H as [? H] end | mstep | conv2 ]; fin.
Qed.
Lemma locate_sh (i : text) : some (locate_term F R i).
Proof using HR.
  intros s o s' H; unfold locate_term in H. mstep. conv2; [|go2].
  set (s2 := match l with Bin BIn _ _ :: _ => register F DLocateIn s0 | _ => s0 end) in *.
  assert (L : len s2 = len s0).
  { subst s2. clear. destruct l as [|[|op ? ?|?|?] ?]; try reflexivity. destruct op; reflexivity. }
  clearbody s2. mstep. destruct a as [u|]; [|go2]. destruct (1 <? Datatypes.length l); go2.
Qed.
Lemma as_sh : some (as_term F).
Proof using HR. intros s o s' H; unfold as_term in H. go2. Qed.
Lemma list_sh (i : text) : some (list_term F R i).
Proof using HR. intros s o s' H; unfold list_term in H. go2. Qed.
Lemma pick_sh : strict (pick_arguments F R).
Proof using HR. intros s o s' H; unfold pick_arguments in H. go2. Qed.
Lemma dot_sh : some (dot_term F R).
Proof using HR. intros s o s' H; unfold dot_term in H. go2. Qed.
Lemma scope_sh : some (scope_term F R).
Proof using HR. intros s o s' H; unfold scope_term in H. go2. Qed.
Lemma paren_sh : some (paren_term F R).
Proof using HR. intros s o s' H; unfold paren_term in H. go2. Qed.
Ltac conv3 := first [ conv2 | match goal with
  | H : new_term _ _ _ = Ok _ _ |- _ => apply new_sh in H as [? H]
  | H : call_ext_term _ _ _ = Ok _ _ |- _ => apply call_ext_sh in H as [? H]
  | H : input_term _ _ _ _ = Ok _ _ |- _ => apply input_sh in H as [? H]
  | H : locate_term _ _ _ _ = Ok _ _ |- _ => apply locate_sh in H as [? H]
  | H : as_term _ _ = Ok _ _ |- _ => apply as_sh in H as [? H]
  | H : list_term _ _ _ _ = Ok _ _ |- _ => apply list_sh in H as [? H]
  | H : pick_arguments _ _ _ = Ok ?o _ |- _ => apply pick_sh in H; dopt o
  | H : dot_term _ _ _ = Ok _ _ |- _ => apply dot_sh in H as [? H]
  | H : scope_term _ _ _ = Ok _ _ |- _ => apply scope_sh in H as [? H]
  | H : paren_term _ _ _ = Ok _ _ |- _ => apply paren_sh in H as [? H]
  end ].
Ltac go3 := repeat first [mstep | conv3]; fin.
Lemma ident_term_sh (i : text) : some (ident_term F R i).
Proof using HR.
  intros s o s' H; unfold ident_term in H.
  repeat match type of H with (if ?b then _ else _) = _ => destruct b end; go3.
Qed.
Lemma list_access_sh : strict (list_access F R).
Proof using HR. intros s o s' H; unfold list_access in H. go3. Qed.
Lemma follow_sh (b t : bool) : strict (follow_one F R b t).
Proof using HR.
  intros s o s' H; unfold follow_one in H. mstep. apply list_access_sh in E. destruct a as [f|]; [go3|]. subst s0.
  destruct (toks s) as [|x r] eqn:Et in H; [go3|]. destruct (follow_kind F b t x) as [kind|]; [|go3].
  assert (L : List.length r < List.length (x :: r)) by (cbn; lia). rewrite <- Et in L.
  mstep. destruct a as [i|]; go3.
Qed.
Lemma sep_sh {X : Type} (p q : punct) (al : option X) (item : pst -> Model.res F X)
  (again : bool -> list X -> pst -> Model.res F (list X)) (c : bool) (l : list X) :
  strict item -> (forall c l, some_strict (again c l)) -> some_strict (separated_body F p q al item again c l).
Proof using Type.
  clear R HR. intros Hi Ha s o s' H; unfold separated_body in H.
  repeat first [mstep | match goal with
  | H : exact F _ _ = Ok ?o _ |- _ => apply exact_sh in H; dopt o
  | H : item _ = Ok ?o _ |- _ => apply Hi in H; dopt o
  | H : again _ _ _ = Ok _ _ |- _ => apply Ha in H as [? H] end]; fin.
Qed.
Lemma args_item_sh : strict (fun s => lead_ F (expression F R s) (fun e s1 => success F (Some e) s1)).
Proof using HR. intros s o s' H; go3. Qed.
Lemma pick_item_sh : strict (pick_item F R).
Proof using HR. intros s o s' H; unfold pick_item in H; go3. Qed.
Lemma var_item_sh : strict (var_item F R).
Proof using HR. intros s o s' H; unfold var_item in H; go3. Qed.

Lemma step_shrinks : shrink_all (step F R).
Proof using HR.
  constructor; cbn [step f_expr f_expr_loop f_part f_part_loop f_group f_follows f_term f_args f_pick f_vars f_interp].
  - intros st t s o s' H; unfold expr_body in H. go3.
  - intros e st t s o s' H; unfold expr_loop_body in H. go3.
  - intros e i t s o s' H; unfold part_body in H. go3.
  - intros b os e i t s o s' H; unfold part_loop_body in H. go3.
  - intros t s o s' H; unfold group_body in H. pose proof (prefix_len (toks s)) as L.
    destruct (prefix_loop F (toks s)) as [us r] eqn:Ep; cbn [fst snd] in L.
    destruct us as [|u us].
    + assert (Er : with_toks F r s = s).
      { destruct s as [ts ds]; cbn in *. destruct ts as [|x ts]; cbn [prefix_loop] in Ep; [injection Ep as <-; reflexivity|].
        destruct (Model.prefix_op F x); [destruct (prefix_loop F ts); discriminate|]. injection Ep as <-. reflexivity. }
      rewrite Er in H. go3.
    + cbn [List.length] in L. go3.
  - intros l b t s o s' H; unfold follows_body in H.
    repeat first [ match goal with H : follow_one _ _ _ _ _ = Ok ?o _ |- _ => apply follow_sh in H; dopt o end | mstep | conv3 ]; fin.
  - intros s o s' H; unfold term_body in H.
    destruct (toks s) as [|x r] eqn:Et in H; [go3|].
    assert (L : List.length r < List.length (x :: r)) by (cbn; lia). rewrite <- Et in L. clear Et.
    destruct x; try destruct p;
      repeat first [ match goal with H : ident_term _ _ _ _ = Ok _ _ |- _ => apply ident_term_sh in H as [? H] end
                   | mstep | conv3]; fin.
  - intros c l. apply sep_sh; [|exact (h_args R HR)]. apply args_item_sh.
  - intros c l. apply sep_sh; [|exact (h_pick R HR)]. apply pick_item_sh.
  - intros c l. apply sep_sh; [|exact (h_vars R HR)]. apply var_item_sh.
  - intros l s o s' H; unfold interp_body in H. mstep. conv.
    + destruct (toks s0) as [|x r] eqn:Et; [discriminate|]. cbn [List.length] in E. destruct x; try discriminate; go3.
    + subst s0. destruct (toks s) as [|x r] eqn:Et in H; [discriminate|].
      assert (L : List.length r < List.length (x :: r)) by (cbn; lia). rewrite <- Et in L. destruct x; try discriminate; go3.
Qed.
End WITH.

Theorem run_shrinks (n : nat) : shrink_all (run F n).
Proof using Type.
  induction n as [|n IH]; [|apply step_shrinks, IH].
  constructor; intros; intros ? ? ? H; discriminate H.
Qed.

(** ** Fuel *)
Lemma opt_ns {A B : Type} (x : Model.res F A) (k : option A -> pst -> Model.res F B) :
  x <> Stuck -> (forall a s1, x = Ok a s1 -> k a s1 <> Stuck) -> opt_ F x k <> Stuck.
Proof using Type. destruct x as [a s1|s1|]; cbn [opt_]; intros H K; try discriminate; [apply K; reflexivity|congruence]. Qed.
Lemma req_ns {A B : Type} (x : Model.res F A) (k : A -> pst -> Model.res F B) :
  x <> Stuck -> (forall a s1, x = Ok (Some a) s1 -> k a s1 <> Stuck) -> req_ F x k <> Stuck.
Proof using Type. destruct x as [[a|] s1|s1|]; cbn [req_]; intros H K; try discriminate; [apply K; reflexivity|congruence]. Qed.
Lemma lead_ns {A B : Type} (x : Model.res F A) (k : A -> pst -> Model.res F B) :
  x <> Stuck -> (forall a s1, x = Ok (Some a) s1 -> k a s1 <> Stuck) -> lead_ F x k <> Stuck.
Proof using Type. destruct x as [[a|] s1|s1|]; cbn [lead_]; intros H K; try discriminate; [apply K; reflexivity|congruence]. Qed.
Lemma exact_ns p s : exact F p s <> Stuck.
Proof using Type. unfold exact, success. destruct (at_punct F p s); discriminate. Qed.
Lemma ident_ns s : ident F s <> Stuck.
Proof using Type. unfold ident, success. destruct (toks s) as [|[] r]; discriminate. Qed.
Lemma exact_ident_ns w s : exact_ident F w s <> Stuck.
Proof using Type. unfold exact_ident, success. destruct (toks s) as [|[] r]; try discriminate. destruct (text_eqb i w); discriminate. Qed.

Record enough (n : nat) (R : fns F) : Prop := {
  e_expr : forall st t s, 4 * len s + 3 <= n -> f_expr F R st t s <> Stuck;
  e_expr_loop : forall e st t s, 4 * len s + 1 <= n -> f_expr_loop F R e st t s <> Stuck;
  e_part : forall e i t s, 4 * len s + 3 <= n -> f_part F R e i t s <> Stuck;
  e_part_loop : forall b o e i t s, 4 * len s + 1 <= n -> f_part_loop F R b o e i t s <> Stuck;
  e_group : forall t s, 4 * len s + 2 <= n -> f_group F R t s <> Stuck;
  e_follows : forall l b t s, 4 * len s + 1 <= n -> f_follows F R l b t s <> Stuck;
  e_term : forall s, 4 * len s + 1 <= n -> f_term F R s <> Stuck;
  e_args : forall c l s, 4 * len s + 4 <= n -> f_args F R c l s <> Stuck;
  e_pick : forall c l s, 4 * len s + 4 <= n -> f_pick F R c l s <> Stuck;
  e_vars : forall c l s, 4 * len s + 4 <= n -> f_vars F R c l s <> Stuck;
  e_interp : forall l s, 4 * len s + 4 <= n -> f_interp F R l s <> Stuck }.

Section STEP.
Variable n : nat.
Variable R : fns F.
Hypothesis HR : shrink_all R.
Hypothesis HE : enough n R.

Ltac conv :=
  match goal with
  | H : exact F _ _ = Ok ?o _ |- _ => apply exact_sh in H; dopt o
  | H : ident F _ = Ok ?o _ |- _ => apply ident_sh in H; dopt o
  | H : exact_ident F _ _ = Ok ?o _ |- _ => apply exact_ident_sh in H; dopt o
  | H : input_type F _ = Ok ?o _ |- _ => apply input_type_sh in H; dopt o
  | H : f_expr F R _ _ _ = Ok ?o _ |- _ => apply (h_expr R HR) in H; dopt o
  | H : expression F R _ = Ok ?o _ |- _ => apply (h_expr R HR) in H; dopt o
  | H : f_expr_loop F R _ _ _ _ = Ok _ _ |- _ => apply (h_expr_loop R HR) in H as [? H]
  | H : f_part F R _ _ _ _ = Ok _ _ |- _ => apply (h_part R HR) in H as [? H]
  | H : f_part_loop F R _ _ _ _ _ _ = Ok _ _ |- _ => apply (h_part_loop R HR) in H as [? H]
  | H : f_group F R _ _ = Ok ?o _ |- _ => apply (h_group R HR) in H; dopt o
  | H : f_follows F R _ _ _ _ = Ok _ _ |- _ => apply (h_follows R HR) in H as [? H]
  | H : f_term F R _ = Ok ?o _ |- _ => apply (h_term R HR) in H; dopt o
  | H : f_args F R _ _ _ = Ok _ _ |- _ => apply (h_args R HR) in H as [? H]
  | H : f_pick F R _ _ _ = Ok _ _ |- _ => apply (h_pick R HR) in H as [? H]
  | H : f_vars F R _ _ _ = Ok _ _ |- _ => apply (h_vars R HR) in H as [? H]
  | H : f_interp F R _ _ = Ok _ _ |- _ => apply (h_interp R HR) in H as [? H]
  | H : at_punct F _ _ = true |- _ => apply at_punct_len in H
  | H : peek_op F _ = Some _ |- _ => apply peek_op_len in H
  | H : arguments F R _ = Ok ?o _ |- _ => apply (arguments_sh R HR) in H; dopt o
  | H : prefab_ex F R [] _ = Ok ?o _ |- _ => apply (prefab_sh R HR) in H; [dopt o|reflexivity]
  | H : prefab_ex F R (_ :: _) _ = Ok ?o _ |- _ => apply (prefab_sh' R HR) in H as [? H]; [|discriminate]
  | H : fields_loop _ _ _ = _ |- _ => apply fields_len in H
  | H : new_term _ _ _ = Ok _ _ |- _ => apply (new_sh R HR) in H as [? H]
  | H : call_ext_term _ _ _ = Ok _ _ |- _ => apply (call_ext_sh R HR) in H as [? H]
  | H : input_term _ _ _ _ = Ok _ _ |- _ => apply (input_sh R HR) in H as [? H]
  | H : input_specifier _ _ _ = Ok _ _ |- _ => apply (spec_sh R HR) in H as [? H]
  | H : locate_term _ _ _ _ = Ok _ _ |- _ => apply (locate_sh R HR) in H as [? H]
  | H : as_term _ _ = Ok _ _ |- _ => apply (as_sh R HR) in H as [? H]
  | H : list_term _ _ _ _ = Ok _ _ |- _ => apply (list_sh R HR) in H as [? H]
  | H : pick_arguments _ _ _ = Ok ?o _ |- _ => apply (pick_sh R HR) in H; dopt o
  | H : dot_term _ _ _ = Ok _ _ |- _ => apply (dot_sh R HR) in H as [? H]
  | H : scope_term _ _ _ = Ok _ _ |- _ => apply (scope_sh R HR) in H as [? H]
  | H : paren_term _ _ _ = Ok _ _ |- _ => apply (paren_sh R HR) in H as [? H]
  | H : follow_one _ _ _ _ _ = Ok ?o _ |- _ => apply (follow_sh R HR) in H; dopt o
  end.
Ltac fin := subst; cbn [toks diags with_toks register List.length] in *; first [discriminate | lia | congruence].
Ltac base :=
  first [ apply exact_ns | apply ident_ns | apply exact_ident_ns | apply input_type_ns | discriminate
        | apply (e_expr n R HE); fin | apply (e_expr_loop n R HE); fin | apply (e_part n R HE); fin
        | apply (e_part_loop n R HE); fin | apply (e_group n R HE); fin | apply (e_follows n R HE); fin
        | apply (e_term n R HE); fin | apply (e_args n R HE); fin | apply (e_pick n R HE); fin
        | apply (e_vars n R HE); fin | apply (e_interp n R HE); fin ].
Ltac ns :=
  repeat first
    [ base
    | conv
    | match goal with
      | |- opt_ _ _ _ <> Stuck => apply opt_ns; [|intros ? ? ?]
      | |- req_ _ _ _ <> Stuck => apply req_ns; [|intros ? ? ?]
      | |- lead_ _ _ _ <> Stuck => apply lead_ns; [|intros ? ? ?]
      | |- (let '(_, _) := ?x in _) <> Stuck => let Q := fresh "Q" in destruct x eqn:Q
      | |- match ?x with _ => _ end <> Stuck => let Q := fresh "Q" in destruct x eqn:Q
      end ].

Lemma expression_ns s : 4 * len s + 3 <= n -> expression F R s <> Stuck.
Proof using HE. apply (e_expr n R HE). Qed.
Lemma else_ns (bits : list expr) : forall e s, 4 * len s <= n -> else_loop F R bits e s <> Stuck.
Proof using HR HE.
  induction bits as [|b bits IH]; intros e s H; cbn [else_loop]; [discriminate|].
  destruct (at_punct F PColon s || at_punct F PCloseColon s) eqn:Q; [|discriminate].
  assert (L : len (take F s) < len s) by (apply orb_true_iff in Q as [Q|Q]; apply at_punct_len in Q; exact Q). clear Q.
  apply opt_ns; [base|]. intros a s1 E. conv; apply IH; fin.
Qed.
Lemma arguments_ns s : 4 * len s <= n -> arguments F R s <> Stuck.
Proof using HR HE. intros H. unfold arguments. ns. Qed.
Lemma pick_ns s : 4 * len s <= n -> pick_arguments F R s <> Stuck.
Proof using HR HE. intros H. unfold pick_arguments. ns. Qed.
Lemma prefab_ns ps s : 4 * len s <= n -> prefab_ex F R ps s <> Stuck.
Proof using HR HE.
  intros H. unfold prefab_ex. destruct (toks s) as [|t r] eqn:Et; [destruct ps; discriminate|].
  destruct (separator_of F t) as [p|] eqn:Es; [|destruct ps; discriminate].
  pose proof (path_len_lt t r p Es) as L. destruct (path_loop F (t :: r)) as [more r'] eqn:Ep. cbn [snd] in L.
  ns.
Qed.
Ltac base ::=
  first [ apply exact_ns | apply ident_ns | apply exact_ident_ns | apply input_type_ns | discriminate
        | apply (e_expr n R HE); fin | apply (e_expr_loop n R HE); fin | apply (e_part n R HE); fin
        | apply (e_part_loop n R HE); fin | apply (e_group n R HE); fin | apply (e_follows n R HE); fin
        | apply (e_term n R HE); fin | apply (e_args n R HE); fin | apply (e_pick n R HE); fin
        | apply (e_vars n R HE); fin | apply (e_interp n R HE); fin
        | apply expression_ns; fin | apply arguments_ns; fin | apply prefab_ns; fin | apply pick_ns; fin
        | apply else_ns; fin ].
Lemma new_ns s : 4 * len s <= n -> new_term F R s <> Stuck.
Proof using HR HE. intros H. unfold new_term. ns. Qed.
Lemma call_ext_ns s : 4 * len s <= n -> call_ext_term F R s <> Stuck.
Proof using HR HE. intros H. unfold call_ext_term. ns. Qed.
Lemma spec_ns s : 4 * len s <= n -> input_specifier F R s <> Stuck.
Proof using HR HE. intros H. unfold input_specifier. ns. Qed.
Lemma input_ns i s : 4 * len s <= n -> input_term F R i s <> Stuck.
Proof using HR HE. intros H. unfold input_term. ns. apply spec_ns. fin. Qed.
Lemma locate_ns i s : 4 * len s <= n -> locate_term F R i s <> Stuck.
Proof using HR HE.
  intros H. unfold locate_term. apply opt_ns; [base|]. intros a s1 E. conv; [|discriminate].
  set (s2 := match l with Bin BIn _ _ :: _ => register F DLocateIn s1 | _ => s1 end).
  assert (L : len s2 = len s1).
  { subst s2. clear. destruct l as [|[|op ? ?|?|?] ?]; try reflexivity. destruct op; reflexivity. }
  clearbody s2. apply opt_ns; [base|]. intros a s3 E3. conv; [|discriminate].
  destruct (1 <? Datatypes.length l); ns.
Qed.
Lemma as_ns s : as_term F s <> Stuck.
Proof using HR HE. unfold as_term. ns. Qed.
Lemma list_ns i s : 4 * len s <= n -> list_term F R i s <> Stuck.
Proof using HR HE. intros H. unfold list_term. ns. Qed.
Lemma dot_ns s : 4 * len s <= n -> dot_term F R s <> Stuck.
Proof using HR HE. intros H. unfold dot_term. ns. Qed.
Lemma scope_ns s : 4 * len s <= n -> scope_term F R s <> Stuck.
Proof using HR HE. intros H. unfold scope_term. ns. Qed.
Lemma paren_ns s : 4 * len s + 4 <= n -> paren_term F R s <> Stuck.
Proof using HR HE. intros H. unfold paren_term. ns. Qed.
Ltac base2 := first [ base | apply new_ns; fin | apply call_ext_ns; fin | apply input_ns; fin | apply locate_ns; fin
  | apply as_ns | apply list_ns; fin | apply dot_ns; fin | apply scope_ns; fin | apply paren_ns; fin ].
Ltac ns2 :=
  repeat first
    [ base2
    | conv
    | match goal with
      | |- opt_ _ _ _ <> Stuck => apply opt_ns; [|intros ? ? ?]
      | |- req_ _ _ _ <> Stuck => apply req_ns; [|intros ? ? ?]
      | |- lead_ _ _ _ <> Stuck => apply lead_ns; [|intros ? ? ?]
      | |- (let '(_, _) := ?x in _) <> Stuck => let Q := fresh "Q" in destruct x eqn:Q
      | |- match ?x with _ => _ end <> Stuck => let Q := fresh "Q" in destruct x eqn:Q
      end ].
Lemma ident_term_ns i s : 4 * len s <= n -> ident_term F R i s <> Stuck.
Proof using HR HE.
  intros H. unfold ident_term.
  repeat match goal with |- (if ?b then _ else _) <> _ => destruct b end; ns2.
Qed.
Lemma list_access_ns s : 4 * len s <= n -> list_access F R s <> Stuck.
Proof using HR HE. intros H. unfold list_access. ns2. Qed.
Lemma follow_ns b t s : 4 * len s <= n -> follow_one F R b t s <> Stuck.
Proof using HR HE.
  intros H. unfold follow_one. apply opt_ns; [apply list_access_ns, H|]. intros a s0 E. apply (list_access_sh R HR) in E.
  destruct a as [f|]; [discriminate|]. subst s0.
  destruct (toks s) as [|x r] eqn:Et; [discriminate|]. destruct (follow_kind F b t x) as [kind|]; [|discriminate].
  assert (L : List.length r < len s) by (rewrite Et; cbn; lia).
  apply opt_ns; [base|]. intros a s1 E. conv; ns2.
Qed.
Lemma sep_ns {X : Type} (p q : punct) (al : option X) (item : pst -> Model.res F X)
  (again : bool -> list X -> pst -> Model.res F (list X)) (c : bool) (l : list X) s :
  strict item -> (forall s, 4 * len s + 3 <= n -> item s <> Stuck) ->
  (forall c l s, 4 * len s + 4 <= n -> again c l s <> Stuck) ->
  4 * len s + 3 <= n -> separated_body F p q al item again c l s <> Stuck.
Proof using Type.
  clear HR HE R. intros Hs Hi Ha H. unfold separated_body.
  apply opt_ns; [apply exact_ns|]. intros a s1 E1. apply exact_sh in E1. destruct a; [discriminate|]. subst s1.
  apply opt_ns; [apply exact_ns|]. intros a s1 E1. apply exact_sh in E1. destruct a.
  - destruct c; [apply Ha; lia|]. destruct al; [apply Ha; lia|discriminate].
  - subst s1. destruct c; [discriminate|]. apply req_ns; [apply Hi; lia|]. intros v s3 E3. apply Hs in E3. apply Ha; lia.
Qed.
Lemma step_enough : enough (S n) (step F R).
Proof using HR HE.
  constructor; cbn [step f_expr f_expr_loop f_part f_part_loop f_group f_follows f_term f_args f_pick f_vars f_interp].
  - intros st t s H; unfold expr_body. ns2.
  - intros e st t s H; unfold expr_loop_body. ns2.
  - intros e i t s H; unfold part_body. ns2.
  - intros b os e i t s H; unfold part_loop_body. ns2.
  - intros t s H; unfold group_body. pose proof (prefix_len (toks s)) as L.
    destruct (prefix_loop F (toks s)) as [us r] eqn:Ep; cbn [fst snd] in L.
    destruct us as [|u us].
    + assert (Er : with_toks F r s = s).
      { destruct s as [ts ds]; cbn in *. destruct ts as [|x ts]; cbn [prefix_loop] in Ep; [injection Ep as <-; reflexivity|].
        destruct (Model.prefix_op F x); [destruct (prefix_loop F ts); discriminate|]. injection Ep as <-. reflexivity. }
      rewrite Er. ns2.
    + cbn [List.length] in L. ns2.
  - intros l b t s H; unfold follows_body.
    destruct (at_punct F PPlusPlus s) eqn:Q1; [ns2|]. destruct (at_punct F PMinusMinus s) eqn:Q2; [ns2|].
    apply opt_ns; [apply follow_ns; lia|]. intros a s1 E. conv; [|discriminate]. destruct p; ns2.
  - intros s H; unfold term_body.
    destruct (toks s) as [|x r] eqn:Et; [discriminate|].
    assert (L : List.length r < len s) by (rewrite Et; cbn; lia).
    assert (L2 : len s = S (List.length r)) by (rewrite Et; reflexivity). clear Et.
    destruct x; try destruct p; first [discriminate | apply ident_term_ns; fin | ns2].
  - intros c l s H. unfold args_body. apply sep_ns; [apply args_item_sh, HR| |exact (e_args n R HE)|lia]. intros s0 H0; ns2.
  - intros c l s H. unfold pick_body. apply sep_ns; [apply pick_item_sh, HR| |exact (e_pick n R HE)|lia].
    intros s0 H0; unfold pick_item; ns2.
  - intros c l s H. unfold vars_body. apply sep_ns; [apply var_item_sh, HR| |exact (e_vars n R HE)|lia].
    intros s0 H0; unfold var_item; ns2.
  - intros l s H; unfold interp_body. apply opt_ns; [base|]. intros a s0 E. conv.
    + destruct (toks s0) as [|x r] eqn:Et; [discriminate|].
      assert (L : List.length r < len s0) by (rewrite Et; cbn; lia). try rewrite <- Et in H. destruct x; ns2.
    + subst s0. destruct (toks s) as [|x r] eqn:Et; [discriminate|].
      assert (L : List.length r < len s) by (rewrite Et; cbn; lia). try rewrite <- Et in H. destruct x; ns2.
Qed.
End STEP.

Theorem run_enough (n : nat) : enough n (run F n).
Proof using Type.
  induction n as [|n IH]; [constructor; intros; lia|]. apply step_enough; [apply run_shrinks|exact IH].
Qed.
End TERM.
