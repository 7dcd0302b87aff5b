(** Soundness: what the parser returns without registering a diagnostic is spelled by the tokens it took, and what it
    left does not belong to it. *)
From Coq Require Import List NArith ZArith Bool String Lia.
From Verif Require Import Common.Text Lexer.Punct Lexer.Model Parse.Ast Parse.Model Parse.Spec Parse.Facts Parse.Grow
  Parse.Term Parse.Gram.
Import ListNotations.
Open Scope nat_scope.

(** Solve an equation between token lists from the equations in the context. *)
Ltac teq :=
  repeat match goal with H : toks ?s = _ |- context [toks ?s] => rewrite H; clear H end;
  cbn [app]; repeat (rewrite <- app_assoc; cbn [app]); reflexivity.

Section SOUND.
Variable F : Type.
Notation tok := (token F).
Notation expr := (expr F).
Notation term := (term F).
Notation follow := (follow F).
Notation pst := (pst F).
Notation P p := (TPunct F p).
Notation sp_expr := (sp_expr F).
Notation swallow := (swallow F).
Notation delimited := (delimited F).
Notation ends_before := (ends_before F).
Notation le := Grow.le.

Definition lim (st : option strength) : nat := match st with Some m => rank m | None => 14 end.
Definition somes {A : Type} (l : list (option A)) : list A :=
  flat_map (fun o => match o with Some e => [e] | None => [] end) l.

(** *** Primitives *)
Lemma exact_some (p : punct) (s : pst) (u : unit) (s' : pst) :
  exact F p s = Ok (Some u) s' -> toks s = P p :: toks s' /\ diags s' = diags s.
Proof using Type.
  unfold exact, success. destruct (at_punct F p s) eqn:E; [|discriminate]. intros H; injection H as <- <-.
  split; [apply at_punct_inv, E|reflexivity].
Qed.
Lemma punct_in_one (p q : punct) : punct_in F [p] (P q) = peqb q p.
Proof using Type. unfold punct_in, peqb. cbn. rewrite orb_false_r. reflexivity. Qed.
Lemma exact_none (p : punct) (s s' : pst) :
  exact F p s = Ok None s' -> s' = s /\ delimited (punct_in F [p]) (toks s).
Proof using Type.
  unfold exact, success. destruct (at_punct F p s) eqn:E; [discriminate|]. intros H; injection H as <-.
  split; [reflexivity|]. unfold at_punct in E. destruct (toks s) as [|[q| | | | | | | | |] r]; try exact I; try reflexivity.
  cbn [Spec.delimited]. rewrite punct_in_one. destruct (peqb_spec q p); [subst|reflexivity]. rewrite peqb_refl in E. discriminate.
Qed.
Lemma ident_some (s : pst) (i : text) (s' : pst) :
  ident F s = Ok (Some i) s' -> exists ws, toks s = TIdent F i ws :: toks s' /\ diags s' = diags s.
Proof using Type.
  unfold ident, success. destruct (toks s) as [|[] r] eqn:E; try discriminate. intros H; injection H as <- <-.
  eexists; split; reflexivity.
Qed.
Lemma ident_none (s s' : pst) : ident F s = Ok None s' -> s' = s /\ delimited (an_ident F) (toks s).
Proof using Type.
  unfold ident, success. destruct (toks s) as [|[] r] eqn:E; try discriminate; intros H; injection H as <-;
    split; try reflexivity; exact I.
Qed.
Lemma exact_ident_some (w : text) (s : pst) (u : unit) (s' : pst) :
  exact_ident F w s = Ok (Some u) s' -> exists ws, toks s = TIdent F w ws :: toks s' /\ diags s' = diags s.
Proof using Type.
  unfold exact_ident, success. destruct (toks s) as [|[|i ws| | | | | | | |] r] eqn:E; try discriminate.
  destruct (text_eqb_spec i w) as [->|]; [|discriminate]. intros H; injection H as <- <-.
  eexists; split; reflexivity.
Qed.
Lemma exact_ident_none (w : text) (s s' : pst) :
  exact_ident F w s = Ok None s' -> s' = s /\ delimited (the_word F w) (toks s).
Proof using Type.
  unfold exact_ident, success. destruct (toks s) as [|[|i ws| | | | | | | |] r] eqn:E;
    try (intros H; injection H as <-; split; [reflexivity|first [exact I|reflexivity]]).
  destruct (text_eqb i w) eqn:Q; [discriminate|]. intros H; injection H as <-. split; [reflexivity|]. exact Q.
Qed.
Lemma delimited_either (A B : swallow) (ts : list tok) : delimited A ts -> delimited B ts -> delimited (either F A B) ts.
Proof using Type. destruct ts; cbn; [auto|]. unfold either. intros -> ->. reflexivity. Qed.
Lemma delimited_nothing (ts : list tok) : delimited (nothing F) ts.
Proof using Type. destruct ts; [exact I|reflexivity]. Qed.

Lemma peek_op_some (s : pst) (info : opinfo) :
  peek_op F s = Some info ->
  exists p, toks s = P p :: toks (take F s) /\ op_of F (P p) = Some info /\ o_token info = p.
Proof using Type.
  unfold peek_op, take; cbn [toks with_toks]. destruct (toks s) as [|[p| | | | | | | | |] r]; try discriminate.
  intros H. exists p. split; [reflexivity|]. split; [exact H|].
  pose proof (op_of_view F p) as V. rewrite H in V. inversion V; reflexivity.
Qed.
Lemma op_of_at (p : punct) (info : opinfo) : op_of F (P p) = Some info -> op_at (rank (o_strength info)) p (o_oper info).
Proof using Type.
  intros H. apply (op_at_iff F). pose proof (op_of_view F p) as V. rewrite H in V.
  exists (o_strength info). split; [|reflexivity]. rewrite H. inversion V; reflexivity.
Qed.

(** *** Input types *)
Lemma input_loop_sound (ts : list tok) : forall (n : N) (ds : list diag) (r : N) (s' : pst),
  input_loop F ts n ds = Ok (Some r) s' -> diags s' = ds ->
  (exists t m, ts = P PBitOr :: t ++ toks s' /\ sp_names F m t /\ r = N.lor n m \/ ts = toks s' /\ r = n) /\
  delimited (punct_in F [PBitOr]) (toks s').
Proof using Type.
  induction ts as [ts IH] using (well_founded_induction (Wf_nat.well_founded_ltof _ (@List.length tok))).
  intros n ds r s' H Hd.
  assert (D : delimited (punct_in F [PBitOr]) ts -> Ok (Some n) {| toks := ts; diags := ds |} = Ok (Some r) s' ->
    (exists t m, ts = P PBitOr :: t ++ toks s' /\ sp_names F m t /\ r = N.lor n m \/ ts = toks s' /\ r = n) /\
    delimited (punct_in F [PBitOr]) (toks s')).
  { intros HD E; injection E as <- <-. cbn [toks]. split; [|exact HD]. exists [], 0%N. right. split; reflexivity. }
  destruct ts as [|[p| | | | | | | | |] x]; cbn [input_loop] in H; try (apply D; [first [exact I|reflexivity]|exact H]).
  destruct (punct_eq_dec p PBitOr) as [->|Np].
  2: { apply D; [cbn [Spec.delimited]; rewrite punct_in_one; destruct (peqb_spec p PBitOr); congruence|].
       destruct p; try exact H; congruence. }
  destruct x as [|[|i ws| | | | | | | |] x']; try discriminate.
  assert (L : Wf_nat.ltof (list tok) (@List.length tok) x' (P PBitOr :: TIdent F i ws :: x')) by (unfold Wf_nat.ltof; cbn; lia).
  destruct (input_type_of i) as [w|] eqn:Ei.
  - apply (IH x' L) in H as [(t & m & [(E & Hn & Er)|[E Er]]) HD]; [| |exact Hd].
    + split; [|exact HD]. exists (TIdent F i ws :: P PBitOr :: t), (N.lor w m). left. subst. split; [reflexivity|].
      split; [apply Names_more; assumption|]. rewrite N.lor_assoc; reflexivity.
    + split; [|exact HD]. exists [TIdent F i ws], w. left. subst. split; [reflexivity|]. split; [apply Names_one, Ei|reflexivity].
  - exfalso. apply input_loop_grows in H as [es He]. rewrite Hd in He. rewrite <- app_assoc in He.
    apply (f_equal (@List.length diag)) in He. rewrite app_length in He. cbn in He. lia.
Qed.
Lemma input_type_sound (s : pst) (n : N) (s' : pst) :
  input_type F s = Ok (Some n) s' -> diags s' = diags s ->
  exists ts A, toks s = ts ++ toks s' /\ sp_itype F n ts A /\ delimited A (toks s').
Proof using Type.
  unfold input_type. intros H Hd. apply opt_inv in H as (a & s1 & E1 & H). destruct a as [u|].
  - apply exact_some in E1 as [T1 D1]. apply req_inv in H as (v & s2 & E2 & H). apply exact_some in E2 as [T2 D2].
    injection H as <- <-. do 2 eexists. split; [|split; [apply Itype_none|apply delimited_nothing]]. teq.
  - apply exact_none in E1 as [-> _]. apply lead_inv in H as [(i & s2 & E2 & H)|[_ E]]; [|discriminate].
    apply ident_some in E2 as (ws & T2 & D2).
    destruct (input_type_of i) as [w|] eqn:Ei.
    + apply input_loop_sound in H as [(t & m & [(E & Hn & Er)|[E Er]]) HD]; [| |congruence].
      * subst n. do 2 eexists. split; [|split; [apply Itype_names; eapply Names_more; [exact Ei|exact Hn]|exact HD]].
        rewrite T2, E. reflexivity.
      * subst. do 2 eexists. split; [|split; [apply Itype_names; eapply Names_one, Ei|exact HD]].
        rewrite T2, E. reflexivity.
    + exfalso. apply input_loop_grows in H as [es He]. rewrite Hd, <- D2 in He. rewrite <- app_assoc in He.
      apply (f_equal (@List.length diag)) in He. rewrite !app_length in He. cbn in He. lia.
Qed.

(** *** Squeezing: nothing registered from first to last, so nothing in between *)
Notation dl s := (List.length (diags s)).
Lemma le_len (a b : list diag) : le a b -> List.length a <= List.length b.
Proof using Type. intros [c ->]. rewrite app_length. lia. Qed.
Lemma le_eq (a b : list diag) : le a b -> List.length b <= List.length a -> b = a.
Proof using Type.
  intros [c ->] H. rewrite app_length in H. destruct c; [apply app_nil_r|cbn in H; lia].
Qed.

Definition phrase (s : pst) (ts : list tok) (s' : pst) : Prop := toks s = ts ++ toks s'.

Record sound (R : fns F) : Prop := {
  s_expr : forall st t s e s', f_expr F R st t s = Ok (Some e) s' -> diags s' = diags s ->
    exists ts A, toks s = ts ++ toks s' /\ sp_expr (lim st) t e ts A /\ ends_before (lim st) A (toks s');
  s_expr_loop : forall m e0 te A0 st t s e s',
    sp_expr m t e0 te A0 -> ends_before m A0 (toks s) -> m <= lim st ->
    f_expr_loop F R e0 st t s = Ok (Some e) s' -> diags s' = diags s ->
    exists ts A, toks s = ts ++ toks s' /\ sp_expr (lim st) t e (te ++ ts) A /\ ends_before (lim st) A (toks s');
  s_part : forall m e0 te A0 p info t s e s',
    sp_expr m t e0 te A0 -> A0 (P p) = false -> op_of F (P p) = Some info -> m < rank (o_strength info) ->
    f_part F R e0 info (t || is_conditional (o_strength info)) s = Ok (Some e) s' -> diags s' = diags s ->
    exists ts A, toks s = ts ++ toks s' /\ sp_expr (rank (o_strength info)) t e (te ++ P p :: ts) A /\
      ends_before (rank (o_strength info)) A (toks s');
  s_part_loop : forall m r0 te A0 prev bits ops t s b o r s',
    sp_expr m t r0 te A0 -> ends_before m A0 (toks s) -> m < rank (o_strength prev) ->
    f_part_loop F R bits ops r0 prev t s = Ok (Some (b, o, r)) s' -> diags s' = diags s ->
    exists sb so ts A, b = bits ++ sb /\ o = ops ++ so /\ toks s = ts ++ toks s' /\
      seq F (rank (o_strength prev)) t sb so r (te ++ ts) A /\ ends_before (rank (o_strength prev)) A (toks s');
  s_group : forall t s e s', f_group F R t s = Ok (Some e) s' -> diags s' = diags s ->
    exists ts A, toks s = ts ++ toks s' /\ sp_group F t e ts A /\ delimited A (toks s');
  s_follows : forall acc b t s fs' s' M, f_follows F R acc b t s = Ok (Some fs') s' -> diags s' = diags s ->
    delimited M (toks s) ->
    exists fs ts B, fs' = acc ++ fs /\ toks s = ts ++ toks s' /\ sp_follows F b t M fs ts B /\ delimited B (toks s');
  s_term : forall s m b s', f_term F R s = Ok (Some (m, b)) s' -> diags s' = diags s ->
    exists ts M, toks s = ts ++ toks s' /\ sp_term F m b ts M /\ delimited M (toks s');
  s_args : forall c l s l' s', f_args F R c l s = Ok (Some l') s' -> diags s' = diags s ->
    exists es ts, somes l' = somes l ++ es /\ toks s = ts ++ toks s' /\ sp_args F c es ts;
  s_pick : forall c l s l' s', f_pick F R c l s = Ok (Some l') s' -> diags s' = diags s ->
    exists es ts, l' = l ++ es /\ toks s = ts ++ toks s' /\ sp_pick F c es ts;
  s_vars : forall c l s l' s', f_vars F R c l s = Ok (Some l') s' -> diags s' = diags s ->
    exists es ts, somes l' = somes l ++ es /\ toks s = ts ++ toks s' /\ sp_vars F c es ts;
  s_interp : forall l s l' s', f_interp F R l s = Ok (Some l') s' -> diags s' = diags s ->
    exists ps ts, l' = l ++ ps /\ toks s = ts ++ toks s' /\ sp_interp F ps ts }.

Section WITH.
Variable R : fns F.
Hypothesis HG : grow_all F R.
Hypothesis HH : shrink_all F R.
Hypothesis HS : sound R.

(** record that diagnostics accumulate in the call [E] *)
Ltac acc E lem := let L := fresh "Le" in let N := fresh "Len" in pose proof (lem _ _ _ E) as L; pose proof (le_len _ _ L) as N.
(** nothing was registered between [a] and [b] *)
Ltac quiet := cbn [diags toks take with_toks] in *; apply le_eq; [assumption|]; repeat match goal with H : diags _ = diags _ |- _ => apply (f_equal (@List.length diag)) in H end; lia.

Lemma ends_zero (A : swallow) (ts : list tok) : delimited A ts -> ends_before 0 A ts.
Proof using Type.
  clear. intros H. change ts with (toks (Build_pst F ts [])) in H |- *. apply ends_before_iff. split; [exact H|].
  destruct (peek_op F _) as [i|]; [|exact I]. destruct (o_strength i); cbn; lia.
Qed.

Lemma ends_no_operator (A : swallow) (ts : list tok) : ends_before 14 A ts -> delimited (operator F) ts.
Proof using Type.
  clear. intros [_ H]. destruct ts as [|[p| | | | | | | | |] r]; try exact I; try reflexivity. cbn [Spec.delimited].
  destruct H as (H1 & H2 & H3 & H4). unfold operator.
  destruct (binary_op p) as [[n op]|] eqn:Eb; [apply binary_level in Eb; lia|].
  destruct (assign_op p) as [o|] eqn:Ea; [exfalso; assert (14 < 13) by (apply H3; discriminate); lia|].
  destruct p; try reflexivity; exfalso; first [assert (14 < 14) by (apply H4; reflexivity)|assert (14 < 12) by (apply H2; reflexivity)]; lia.
Qed.

Lemma expr_sound st t s e s' : expr_body F R st t s = Ok (Some e) s' -> diags s' = diags s ->
  exists ts A, toks s = ts ++ toks s' /\ sp_expr (lim st) t e ts A /\ ends_before (lim st) A (toks s').
Proof using HG HS.
  unfold expr_body. intros H D. apply lead_inv in H as [(e0 & s1 & E & H)|[_ Q]]; [|discriminate].
  acc E (g_group F R HG t). acc H (g_expr_loop F R HG e0 st t).
  destruct (s_group R HS _ _ _ _ E) as (tg & A0 & T0 & G0 & D0); [quiet|].
  destruct (s_expr_loop R HS 0 e0 tg A0 st t s1 e s') as (ts & A & T1 & G1 & D1);
    [apply S_group, G0|apply ends_zero, D0|lia|exact H|quiet|].
  exists (tg ++ ts), A. split; [rewrite T0, T1, app_assoc; reflexivity|]. split; assumption.
Qed.

Lemma expr_loop_sound m e0 te A0 st t s e s' :
  sp_expr m t e0 te A0 -> ends_before m A0 (toks s) -> m <= lim st ->
  expr_loop_body F R e0 st t s = Ok (Some e) s' -> diags s' = diags s ->
  exists ts A, toks s = ts ++ toks s' /\ sp_expr (lim st) t e (te ++ ts) A /\ ends_before (lim st) A (toks s').
Proof using HG HS.
  intros G0 N0 Hm H D. unfold expr_loop_body in H.
  assert (Stop : match peek_op F s with Some i => lim st < rank (o_strength i) | None => True end ->
                 success F e0 s = Ok (Some e) s' ->
    exists ts A, toks s = ts ++ toks s' /\ sp_expr (lim st) t e (te ++ ts) A /\ ends_before (lim st) A (toks s')).
  { intros Hl H'. injection H' as <- <-. exists [], A0. split; [reflexivity|]. rewrite app_nil_r.
    split; [eapply sp_expr_up; eassumption|]. apply ends_before_iff. split; [apply N0|exact Hl]. }
  destruct (peek_op F s) as [info|] eqn:Ep; [|apply Stop; [exact I|exact H]].
  destruct (match st with Some m0 => rank m0 <? rank (o_strength info) | None => false end) eqn:El.
  - apply Stop; [|exact H]. destruct st as [m0|]; [|discriminate]. apply Nat.ltb_lt in El. exact El.
  - apply req_inv in H as (e1 & s1 & E & H). acc E (g_part F R HG e0 info (t || is_conditional (o_strength info))).
    acc H (g_expr_loop F R HG e1 st t).
    apply ends_before_iff in N0 as [N1 N2]. rewrite Ep in N2.
    destruct (peek_op_some _ _ Ep) as (p & T & Ho & Et). rewrite T in N1. cbn [Spec.delimited] in N1.
    destruct (s_part R HS m e0 te A0 p info t (take F s) e1 s1) as (ts & A & T1 & G1 & D1);
      try assumption; [quiet|].
    assert (Hl : rank (o_strength info) <= lim st).
    { destruct st as [m0|]; cbn [lim]; [apply Nat.ltb_ge in El; exact El|]. destruct (o_strength info); cbn; lia. }
    destruct (s_expr_loop R HS _ e1 _ A st t s1 e s' G1 D1 Hl H) as (ts2 & A2 & T2 & G2 & D2); [quiet|].
    exists (P p :: ts ++ ts2), A2. split; [rewrite T, T1, T2; cbn [app]; rewrite app_assoc; reflexivity|].
    split; [|assumption]. rewrite <- app_assoc in G2. exact G2.
Qed.

Lemma part_loop_sound m r0 te A0 prev bits ops t s b o r s' :
  sp_expr m t r0 te A0 -> ends_before m A0 (toks s) -> m < rank (o_strength prev) ->
  part_loop_body F R bits ops r0 prev t s = Ok (Some (b, o, r)) s' -> diags s' = diags s ->
  exists sb so ts A, b = bits ++ sb /\ o = ops ++ so /\ toks s = ts ++ toks s' /\
    seq F (rank (o_strength prev)) t sb so r (te ++ ts) A /\ ends_before (rank (o_strength prev)) A (toks s').
Proof using HG HS.
  intros G0 N0 Hm H D. unfold part_loop_body in H. set (n := rank (o_strength prev)) in *.
  assert (Stop : match peek_op F s with Some i => n < rank (o_strength i) | None => True end ->
                 success F (bits, ops, r0) s = Ok (Some (b, o, r)) s' ->
    exists sb so ts A, b = bits ++ sb /\ o = ops ++ so /\ toks s = ts ++ toks s' /\
      seq F n t sb so r (te ++ ts) A /\ ends_before n A (toks s')).
  { intros Hl H'. injection H' as <- <- <- <-. exists [], [], [], A0. rewrite !app_nil_r.
    split; [reflexivity|]. split; [reflexivity|]. split; [reflexivity|].
    split; [apply seq_last; eapply sp_expr_up; [|exact G0]; lia|]. apply ends_before_iff. split; [apply N0|exact Hl]. }
  apply ends_before_iff in N0 as [N1 N2].
  destruct (peek_op F s) as [info|] eqn:Ep; [|apply Stop; [exact I|exact H]].
  destruct (peek_op_some _ _ Ep) as (p & T & Ho & Et). rewrite T in N1. cbn [Spec.delimited] in N1.
  destruct (Nat.compare_spec (rank (o_strength info)) n) as [C|C|C].
  - apply req_inv in H as (r1 & s1 & E & H). acc E (g_group F R HG t).
    acc H (g_part_loop F R HG (bits ++ [r0]) (ops ++ [o_oper info]) r1 prev t).
    destruct (s_group R HS _ _ _ _ E) as (tg & Ag & Tg & Gg & Dg); [quiet|].
    destruct (s_part_loop R HS 0 r1 tg Ag prev (bits ++ [r0]) (ops ++ [o_oper info]) t s1 b o r s')
      as (sb & so & ts & A & Eb & Eo & T2 & G2 & D2); try assumption;
      [apply S_group, Gg|apply ends_zero, Dg|lia|quiet|].
    exists (r0 :: sb), (o_oper info :: so), (P p :: tg ++ ts), A.
    rewrite <- app_assoc in Eb, Eo. split; [exact Eb|]. split; [exact Eo|].
    split; [rewrite T, Tg, T2; cbn [app]; rewrite app_assoc; reflexivity|]. split; [|exact D2].
    apply seq_cons with (A := A0); try assumption; [eapply sp_expr_up; [|exact G0]; fold n; lia|].
    fold n. rewrite <- C. apply op_of_at, Ho.
  - apply req_inv in H as (r1 & s1 & E & H).
    acc E (g_part F R HG r0 info (t || is_conditional (o_strength info))).
    acc H (g_part_loop F R HG bits ops r1 prev t).
    destruct (s_part R HS m r0 te A0 p info t (take F s) r1 s1) as (ts & A & T1 & G1 & D1);
      try assumption; [quiet|].
    destruct (s_part_loop R HS _ r1 _ A prev bits ops t s1 b o r s' G1 D1 C H)
      as (sb & so & ts2 & A2 & Eb & Eo & T2 & G2 & D2); [quiet|].
    exists sb, so, (P p :: ts ++ ts2), A2. split; [exact Eb|]. split; [exact Eo|].
    split; [rewrite T, T1, T2; cbn [app]; rewrite app_assoc; reflexivity|]. split; [|exact D2].
    rewrite <- app_assoc in G2. exact G2.
  - apply Stop; [exact C|exact H].
Qed.

Lemma else_one (c : expr) (more : list expr) (a : expr) (s : pst) (e : expr) (s' : pst)
  (t : bool) (tc : list tok) (C : swallow) (ta : list tok) (A : swallow) :
  sp_expr 11 t c tc C -> C (P PQuestionMark) = false -> sp_expr 12 true a ta A -> delimited A (toks s) ->
  else_loop F R (c :: more) a s = Ok (Some e) s' -> diags s' = diags s ->
  exists te b B s1, toks s = te ++ toks s1 /\ diags s1 = diags s /\
    sp_expr 12 t (Tern c a b) (tc ++ P PQuestionMark :: ta ++ te) B /\ ends_before 12 B (toks s1) /\
    else_loop F R more (Tern c a b) s1 = Ok (Some e) s'.
Proof using HG HS.
  intros Gc HC Ga HA H D. cbn [else_loop] in H.
  destruct (at_punct F PColon s || at_punct F PCloseColon s) eqn:Ec; [|discriminate].
  assert (Hcol : exists colon, (colon = PColon \/ colon = PCloseColon) /\ toks s = P colon :: toks (take F s)).
  { apply orb_true_iff in Ec as [Ec|Ec]; apply at_punct_inv in Ec; eauto. }
  destruct Hcol as (colon & Hcol & T). rewrite T in HA. cbn [Spec.delimited] in HA.
  apply opt_inv in H as (o & s1 & E & H). acc E (g_expr F R HG (Some SConditional) true).
  destruct o as [b|].
  - acc H (else_gr F R HG more (Tern c a b)).
    destruct (s_expr R HS _ _ _ _ _ E) as (tb & B & T1 & G1 & D1); [quiet|]. cbn [lim rank] in *.
    exists (P colon :: tb), b, B, s1. split; [rewrite T, T1; reflexivity|]. split; [quiet|].
    split; [|split; assumption]. eapply S_ternary; try eassumption. lia.
  - exfalso. acc H (else_gr F R HG more (Tern c a (Base MNull []))).
    cbn [diags take with_toks register] in *. rewrite D in *. rewrite app_length in *. cbn in *. lia.
Qed.
Lemma else_many (sb : list expr) (so : list oper) (r : expr) (ts : list tok) (A : swallow) :
  seq F 12 true sb so r ts A ->
  forall (more : list expr) (s : pst) (e : expr) (s' : pst),
  delimited A (toks s) -> else_loop F R (rev sb ++ more) r s = Ok (Some e) s' -> diags s' = diags s ->
  exists a te B s1, toks s = te ++ toks s1 /\ diags s1 = diags s /\ sp_expr 12 true a (ts ++ te) B /\
    delimited B (toks s1) /\ else_loop F R more a s1 = Ok (Some e) s'.
Proof using HG HS.
  intros Hs. induction Hs as [r tr A Hr|r tr A p o bs os z ts B Hr HA Ho Hs IH]; intros more s e s' HD H D.
  - exists r, [], A, s. rewrite app_nil_r. repeat split; try assumption. eapply sp_expr_up; [|exact Hr]. lia.
  - cbn [rev] in H. rewrite <- app_assoc in H. cbn [app] in H.
    destruct (IH (r :: more) s e s' HD H D) as (a & te & E & s1 & T1 & D1 & G1 & N1 & H1).
    assert (p = PQuestionMark).
    { inversion Ho as [p0 n0 op Hb|Hx|p0 op Ha0 Hx|Hx]; subst; [|reflexivity]. apply binary_level in Hb; lia. }
    subst p. change (12 - 1) with 11 in Hr.
    destruct (else_one r more a s1 e s' true tr A (ts ++ te) E Hr HA G1 N1 H1) as (te2 & b & B2 & s2 & T2 & D2 & G2 & N2 & H2);
      [congruence|].
    exists (Tern r a b), (te ++ te2), B2, s2. split; [rewrite T1, T2, app_assoc; reflexivity|]. split; [congruence|].
    split; [|split; [apply N2|exact H2]]. repeat (rewrite <- app_assoc in G2 || rewrite <- app_assoc || cbn [app]). exact G2.
Qed.

Lemma part_sound m e0 te A0 p info t s e s' :
  sp_expr m t e0 te A0 -> A0 (P p) = false -> op_of F (P p) = Some info -> m < rank (o_strength info) ->
  part_body F R e0 info (t || is_conditional (o_strength info)) s = Ok (Some e) s' -> diags s' = diags s ->
  exists ts A, toks s = ts ++ toks s' /\ sp_expr (rank (o_strength info)) t e (te ++ P p :: ts) A /\
    ends_before (rank (o_strength info)) A (toks s').
Proof using HG HS.
  intros G0 HA Ho Hm H D. unfold part_body in H. apply req_inv in H as (r0 & s1 & E & H).
  apply req_inv in H as ([[bits ops] r] & s2 & E2 & H).
  set (t' := t || is_conditional (o_strength info)) in *.
  acc E (g_group F R HG t'). acc E2 (g_part_loop F R HG [e0] [o_oper info] r0 info t').
  pose proof (op_of_at p info Ho) as Hat.
  assert (N3 : dl s2 <= dl s').
  { destruct (o_strength info); try (injection H as <- <-; lia).
    - acc H (else_gr F R HG (rev bits) r). lia.
    - apply opt_inv in H as (o & s3 & E3 & H). acc E3 (exact_ident_gr F (lit "to")). destruct o.
      + apply req_inv in H as (b & s4 & E4 & H). acc E4 (g_expr F R HG (Some SIn) t'). injection H as <- <-. lia.
      + injection H as <- <-. lia. }
  destruct (s_group R HS _ _ _ _ E) as (tg & Ag & Tg & Gg & Dg); [quiet|].
  destruct (s_part_loop R HS 0 r0 tg Ag info [e0] [o_oper info] t' s1 bits ops r s2)
    as (sb & so & ts & A & Eb & Eo & T2 & G2 & D2); try assumption;
    [apply S_group, Gg|apply ends_zero, Dg|lia|quiet|].
  assert (Q2 : diags s2 = diags s) by (transitivity (diags s1); quiet).
  cbn [app] in Eb, Eo. subst bits ops. set (n := rank (o_strength info)) in *.
  destruct (Nat.leb_spec n 11) as [Hn|Hn].
  { assert (H' : success F (build_left F (e0 :: sb) (o_oper info :: so) r) s2 = Ok (Some e) s').
    { subst n. destruct (o_strength info); cbn [rank] in Hn; try lia; exact H. }
    assert (t' = t) as Et by (subst t' n; destruct (o_strength info); cbn [rank] in Hn; try lia; apply orb_false_r).
    rewrite Et in *. injection H' as <- <-. exists (tg ++ ts), A. split; [rewrite Tg, T2, app_assoc; reflexivity|].
    split; [|exact D2]. unfold build_left. apply (seq_left F n t sb so r (tg ++ ts) A Hn G2 e0 te A0); try assumption.
    eapply sp_expr_up; [|exact G0]. lia. }
  destruct (o_strength info) eqn:Es; cbn [rank] in n; subst n; try lia; cbn [is_conditional] in t'.
  - (* conditional *)
    assert (t' = true) as Et by (subst t'; apply orb_true_r). rewrite Et in *.
    cbn [rev] in H. destruct (else_many sb so r _ A G2 [e0] s2 e s') as (a & te2 & B & s3 & T3 & D3 & G3 & N3' & H3);
      [apply D2|exact H|congruence|].
    assert (Hp : p = PQuestionMark).
    { inversion Hat as [p0 n0 op Hb|Hx|p0 op Ha0 Hx|Hx]; subst; [|reflexivity]. apply binary_level in Hb; lia. }
    subst p.
    destruct (else_one e0 [] a s3 e s' t te A0 ((tg ++ ts) ++ te2) B) as (te4 & b & B4 & s4 & T4 & D4 & G4 & N4 & H4);
      try assumption; [eapply sp_expr_up; [|exact G0]; lia|congruence|].
    cbn [else_loop] in H4. injection H4 as <- <-.
    exists (tg ++ ts ++ te2 ++ te4), B4. split; [rewrite Tg, T2, T3, T4, !app_assoc; reflexivity|].
    split; [|exact N4]. rewrite <- !app_assoc in G4. exact G4.
  - (* assignment *)
    assert (t' = t) as Et by (subst t'; apply orb_false_r). rewrite Et in *. clear Et t'. injection H as <- <-. cbn [right_binding].
    exists (tg ++ ts), A. split; [rewrite Tg, T2, app_assoc; reflexivity|]. split; [|exact D2].
    apply (seq_right F t (e0 :: sb)). apply seq_cons with (A := A0); try assumption. eapply sp_expr_up; [|exact G0]. lia.
  - (* in *)
    assert (t' = t) as Et by (subst t'; apply orb_false_r). rewrite Et in *. clear Et t'.
    assert (Hp : p = PIn /\ o_oper info = OBin BIn).
    { inversion Hat as [p0 n0 op Hb|Hx|p0 op Ha0 Hx|Hx]; subst; [|auto]. apply binary_level in Hb; lia. }
    destruct Hp as [-> Hoper]. rewrite Hoper in *.
    destruct (seq_in F t sb so r (tg ++ ts) A G2 e0 te A0) as [Plain Range]; try assumption;
      [eapply sp_expr_up; [|exact G0]; lia|].
    apply opt_inv in H as (o & s3 & E3 & H). destruct o as [u|].
    + apply exact_ident_some in E3 as (ws & T3 & D3). apply req_inv in H as (c & s4 & E4 & H).
      acc E4 (g_expr F R HG (Some SIn) t). injection H as <- <-.
      destruct (s_expr R HS _ _ _ _ _ E4) as (tc & C & T4 & G4 & D4); [quiet|]. cbn [lim rank] in *.
      assert (HA2 : A (TIdent F (lit "to") ws) = false).
      { destruct D2 as [D2 _]. rewrite T3 in D2. exact D2. }
      specialize (Range ws c tc C HA2 G4).
      exists (tg ++ ts ++ TIdent F (lit "to") ws :: tc), (either F (operator F) C).
      split; [rewrite Tg, T2, T3, T4, <- !app_assoc; reflexivity|].
      rewrite <- app_assoc in Range. split; [exact Range|].
      split; [|exact (proj2 D4)]. apply delimited_either; [|apply D4]. apply ends_no_operator with (A := C), D4.
    + apply exact_ident_none in E3 as [-> Nto]. injection H as <- <-.
      exists (tg ++ ts), (either F (the_word F (lit "to")) A). split; [rewrite Tg, T2, app_assoc; reflexivity|].
      split; [exact Plain|]. split; [apply delimited_either; [exact Nto|apply D2]|exact (proj2 D2)].
Qed.
End WITH.
End SOUND.
