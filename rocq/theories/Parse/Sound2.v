(** Soundness, continued: terms, arguments, and all functions together. *)
From Coq Require Import List NArith ZArith Bool String Lia.
From Verif Require Import Common.Text Lexer.Punct Lexer.Model Parse.Ast Parse.Model Parse.Spec Parse.Facts Parse.Grow
  Parse.Term Parse.Gram Parse.Sound.
Import ListNotations.
Open Scope nat_scope.

Section SOUND.
Variable F : Type.
Notation tok := (token F).
Notation expr := (expr F).
Notation term := (term F).
Notation follow := (follow F).
Notation pst := (pst F).
Notation P p := (TPunct F p).
Notation sp_expr := (sp_expr F).
Notation swallow := (swallow F).
Notation delimited := (delimited F).
Notation ends_before := (ends_before F).
Notation le := Grow.le.
Notation dl s := (List.length (diags s)).

Lemma prefix_sound (ts : list tok) : forall us r, prefix_loop F ts = (us, r) ->
  exists ps, ts = map (fun p => P p) ps ++ r /\ Forall2 (fun p u => Spec.prefix_op p = Some u) ps us.
Proof using Type.
  induction ts as [|t ts IH]; intros us r H; cbn [prefix_loop] in H.
  - injection H as <- <-. exists []. split; [reflexivity|constructor].
  - destruct (Model.prefix_op F t) as [o|] eqn:Ep; [|injection H as <- <-; exists []; split; [reflexivity|constructor]].
    destruct (prefix_loop F ts) as [os r'] eqn:El. injection H as <- <-. destruct (IH os r' eq_refl) as (ps & -> & H2).
    assert (exists p, t = P p /\ Spec.prefix_op p = Some o) as (p & -> & Hp).
    { destruct t as [p| | | | | | | | |]; try discriminate. exists p. split; [reflexivity|]. destruct p; cbn in Ep |- *; congruence. }
    exists (p :: ps). split; [reflexivity|]. constructor; assumption.
Qed.
Lemma separator_inv (t : tok) (o : pathop) : separator_of F t = Some o -> exists p, t = P p /\ path_op p = Some o.
Proof using Type.
  destruct t as [p| | | | | | | | |]; try discriminate. intros H. exists p. split; [reflexivity|].
  destruct p; cbn in H |- *; congruence.
Qed.
Lemma separator_none (t : tok) : separator_of F t = None -> path_separators F t = false.
Proof using Type.
  destruct t as [p| | | | | | | | |]; try reflexivity. intros H. destruct p; cbn in H |- *; congruence.
Qed.
Lemma path_sound (ts : list tok) : forall parts r, path_loop F ts = (parts, r) ->
  exists tp q, ts = tp ++ r /\ sp_segments F parts tp q /\ delimited (path_separators F) r /\
    delimited (fun t => q && an_ident F t) r /\ (forall t x, ts = t :: x -> separator_of F t <> None -> tp <> []).
Proof using Type.
  induction ts as [ts IH] using (well_founded_induction (Wf_nat.well_founded_ltof _ (@List.length tok))).
  intros parts r H. destruct ts as [|t x]; cbn [path_loop] in H.
  { injection H as <- <-. exists [], false. repeat split; try constructor. intros; discriminate. }
  destruct (separator_of F t) as [sep|] eqn:Es.
  - destruct (separator_inv _ _ Es) as (p & -> & Hp).
    assert (D : path_loop F x = (parts, r) -> delimited (an_ident F) x ->
      exists tp q, P p :: x = tp ++ r /\ sp_segments F parts tp q /\ delimited (path_separators F) r /\
        delimited (fun t => q && an_ident F t) r /\ (forall t0 x0, P p :: x = t0 :: x0 -> separator_of F t0 <> None -> tp <> [])).
    { intros H' Hx. apply IH in H' as (tp & q & E & Hs & H1 & H2 & _); [|unfold Wf_nat.ltof; cbn; lia].
      exists (P p :: tp), (match tp with [] => true | _ => q end). split; [rewrite E; reflexivity|].
      split; [apply Seg_bare with (o := sep); assumption|]. split; [exact H1|]. split; [|intros; discriminate].
      destruct tp; [|exact H2]. cbn in E. subst x. destruct r; [exact I|exact Hx]. }
    destruct x as [|[|i ws| | | | | | | |] x']; try (apply D; [exact H|first [exact I|reflexivity]]).
    destruct (path_loop F x') as [ps r2] eqn:El. injection H as <- <-.
    apply IH in El as (tp & q & E & Hs & H1 & H2 & _); [|unfold Wf_nat.ltof; cbn; lia].
    exists (P p :: TIdent F i ws :: tp), q. split; [rewrite E; reflexivity|]. split; [apply Seg_named; assumption|].
    repeat split; try assumption. intros; discriminate.
  - injection H as <- <-. exists [], false. split; [reflexivity|]. split; [constructor|].
    split; [apply separator_none, Es|]. split; [reflexivity|]. intros t0 x0 E. injection E as <- <-. congruence.
Qed.
Lemma field_kind_inv (t : tok) (k : propkind) : field_kind F t = Some k -> exists p, t = P p /\ access_op true false p = Some k.
Proof using Type.
  destruct t as [p| | | | | | | | |]; try discriminate. intros H. exists p. split; [reflexivity|].
  destruct p; cbn in H |- *; congruence.
Qed.
Lemma fields_sound (ts : list tok) : forall ds fs s', fields_loop F ts ds = (fs, s') -> diags s' = ds ->
  exists tf, ts = tf ++ toks s' /\ sp_fields F fs tf /\
    delimited (punct_in F [PDot; PCloseColon; PSafeDot; PSafeColon]) (toks s').
Proof using Type.
  induction ts as [ts IH] using (well_founded_induction (Wf_nat.well_founded_ltof _ (@List.length tok))).
  intros ds fs s' H Hd. destruct ts as [|t x]; cbn [fields_loop] in H.
  { injection H as <- <-. exists []. repeat split; constructor. }
  destruct (field_kind F t) as [k|] eqn:Ek.
  - destruct (field_kind_inv _ _ Ek) as (p & -> & Hp).
    assert (Bad : (let '(fs0, s0) := fields_loop F x (ds ++ [DParse]) in ((k, []) :: fs0, s0)) = (fs, s') -> False).
    { intros H'. destruct (fields_loop F x (ds ++ [DParse])) as [fs0 s0] eqn:E0. injection H' as <- <-.
      apply fields_gr in E0 as [c Hc]. rewrite Hd in Hc. rewrite <- app_assoc in Hc.
      apply (f_equal (@List.length diag)) in Hc. rewrite !app_length in Hc. cbn in Hc. lia. }
    destruct x as [|[|i ws| | | | | | | |] x']; try (exfalso; apply Bad; exact H).
    destruct (fields_loop F x' ds) as [fs0 s0] eqn:E0. injection H as <- <-.
    apply IH in E0 as (tf & E & Hs & HD); [|unfold Wf_nat.ltof; cbn; lia|exact Hd].
    exists (P p :: TIdent F i ws :: tf). split; [rewrite E; reflexivity|]. split; [apply Fields_cons; assumption|assumption].
  - injection H as <- <-. exists []. split; [reflexivity|]. split; [constructor|]. cbn [toks Spec.delimited].
    destruct t as [p| | | | | | | | |]; try reflexivity. destruct p; cbn in Ek |- *; congruence.
Qed.

Section WITH.
Variable R : fns F.
Hypothesis HG : grow_all F R.
Hypothesis HH : shrink_all F R.
Hypothesis HS : sound F R.

Ltac acc E lem := let L := fresh "Le" in let N := fresh "Len" in pose proof (lem _ _ _ E) as L; pose proof (le_len _ _ L) as N.
Ltac quiet := cbn [diags toks take with_toks] in *; apply le_eq; [assumption|]; repeat match goal with H : diags _ = diags _ |- _ => apply (f_equal (@List.length diag)) in H end; lia.
(** remember for every call that diagnostics accumulate *)
Ltac note E :=
  match type of E with
  | exact F ?p _ = _ => acc E (exact_gr F p)
  | ident F _ = _ => acc E (ident_gr F)
  | exact_ident F ?w _ = _ => acc E (exact_ident_gr F w)
  | input_type F _ = _ => acc E (input_type_gr F)
  | f_expr F R ?st ?t _ = _ => acc E (g_expr F R HG st t)
  | expression F R _ = _ => acc E (g_expr F R HG None false)
  | f_group F R ?t _ = _ => acc E (g_group F R HG t)
  | f_follows F R ?l ?b ?t _ = _ => acc E (g_follows F R HG l b t)
  | f_term F R _ = _ => acc E (g_term F R HG)
  | f_args F R ?c ?l _ = _ => acc E (g_args F R HG c l)
  | f_pick F R ?c ?l _ = _ => acc E (g_pick F R HG c l)
  | f_vars F R ?c ?l _ = _ => acc E (g_vars F R HG c l)
  | f_interp F R ?l _ = _ => acc E (g_interp F R HG l)
  | arguments F R _ = _ => acc E (arguments_gr F R HG)
  | prefab_ex F R ?ps _ = _ => acc E (prefab_gr F R HG ps)
  | input_specifier F R _ = _ => acc E (spec_gr F R HG)
  | pick_arguments F R _ = _ => acc E (pick_gr F R HG)
  | follow_one F R ?b ?t _ = _ => acc E (follow_gr F R HG b t)
  | list_access F R _ = _ => idtac
  end.
(** one monadic step, keeping the calls *)
Ltac nx H a s E :=
  lazymatch type of H with
  | opt_ _ _ _ = _ => apply opt_inv in H as (a & s & E & H)
  | req_ _ _ _ = _ => apply req_inv in H as (a & s & E & H)
  | lead_ _ _ _ = _ => apply lead_inv in H as [(a & s & E & H)|[H E]]; [|discriminate]
  end;
  note E.
Ltac ret H := injection H as <- <-.

Lemma expression_sound (s : pst) (e : expr) (s' : pst) :
  expression F R s = Ok (Some e) s' -> diags s' = diags s ->
  exists ts A, toks s = ts ++ toks s' /\ sp_expr 14 false e ts A /\ ends_before 14 A (toks s').
Proof using HS. intros H D. exact (s_expr F R HS None false s e s' H D). Qed.

Lemma arguments_sound (s : pst) (es : list expr) (s' : pst) :
  arguments F R s = Ok (Some es) s' -> diags s' = diags s ->
  exists ts, toks s = P PLParen :: ts ++ toks s' /\ sp_args F false es ts.
Proof using HG HS.
  unfold arguments. intros H D. nx H u s1 E1. nx H l s2 E2. ret H.
  apply exact_some in E1 as [T1 D1].
  destruct (s_args F R HS _ _ _ _ _ E2) as (es & ts & Ee & T2 & G); [quiet|].
  exists ts. split; [rewrite T1, T2; reflexivity|]. unfold somes in Ee. rewrite Ee. exact G.
Qed.
Lemma arguments_none (s s' : pst) :
  arguments F R s = Ok None s' -> s' = s /\ delimited (punct_in F [PLParen]) (toks s).
Proof using HH.
  unfold arguments. intros H. apply lead_inv in H as [(u & s1 & E & H)|[H _]].
  - apply req_inv in H as (l & s2 & E2 & H). discriminate.
  - apply exact_none in H as [-> N]. split; [reflexivity|exact N].
Qed.
Lemma optargs_sound (s : pst) (o : option (list expr)) (s' : pst) :
  arguments F R s = Ok o s' -> diags s' = diags s ->
  exists ts, toks s = ts ++ toks s' /\ sp_optargs F o ts /\
    forall A, delimited A (toks s) -> delimited (then_args F o A) (toks s').
Proof using HG HS HH.
  destruct o as [es|]; intros H D.
  - destruct (arguments_sound _ _ _ H D) as (ts & T & G). exists (P PLParen :: ts). split; [exact T|].
    split; [apply Optargs_some, G|]. intros; apply delimited_nothing.
  - apply arguments_none in H as [-> N]. exists []. split; [reflexivity|]. split; [constructor|].
    intros A HA. apply delimited_either; assumption.
Qed.

Lemma prefab_sound (pre : list (pathop * text)) (s : pst) path vars (s' : pst) :
  prefab_ex F R pre s = Ok (Some (path, vars)) s' -> diags s' = diags s ->
  exists ts A, toks s = ts ++ toks s' /\ sp_prefab F pre path vars ts A /\ delimited A (toks s') /\
    (pre = [] -> exists t x, ts = t :: x /\ separator_of F t <> None).
Proof using HG HH HS.
  unfold prefab_ex. intros H D.
  assert (None_case : delimited (path_separators F) (toks s) ->
    match pre with [] => Ok None s | _ => success F (pre, []) s end = Ok (Some (path, vars)) s' ->
    exists ts A, toks s = ts ++ toks s' /\ sp_prefab F pre path vars ts A /\ delimited A (toks s') /\
      (pre = [] -> exists t x, ts = t :: x /\ separator_of F t <> None)).
  { intros N H'. destruct pre as [|a pre]; [discriminate|]. injection H' as <- <- <-.
    exists [], (path_separators F). split; [reflexivity|]. split; [apply Prefab_none; discriminate|].
    split; [exact N|]. discriminate. }
  destruct (toks s) as [|t x] eqn:Et; [apply None_case; [exact I|exact H]|].
  destruct (separator_of F t) as [sep|] eqn:Es; [|apply None_case; [apply separator_none, Es|exact H]].
  destruct (path_loop F (t :: x)) as [more r] eqn:El.
  apply path_sound in El as (tp & q & E & Hs & H1 & H2 & H3).
  assert (Hne : tp <> []) by (eapply H3; [reflexivity|congruence]).
  assert (Hw : nonempty_path (pre ++ more) = whole_path (pre ++ more)) by reflexivity. rewrite Hw in H. clear Hw.
  nx H b s1 E1. destruct b as [u|].
  - apply exact_some in E1 as [T1 D1]. cbn [toks with_toks diags] in *. nx H vs s2 E2.
    destruct vs as [l|].
    + injection H as <- <- <-. destruct (s_vars F R HS _ _ _ _ _ E2) as (es & tv & Ee & T2 & G); [quiet|].
      cbn [somes flat_map app] in Ee. unfold somes in Ee. rewrite Ee.
      exists (tp ++ P PLBrace :: tv), (nothing F).
      split; [rewrite E, T1, T2, <- app_assoc; reflexivity|]. split; [apply Prefab_vars with (q := q); assumption|].
      split; [apply delimited_nothing|]. intros _. destruct tp as [|t0 tp]; [congruence|]. cbn in E. injection E as <- _.
      eexists _, _. split; [reflexivity|]. congruence.
    + exfalso. pose proof (h_vars F R HH _ _ _ _ _ E2) as Hx. destruct Hx as [Hx _]. congruence.
  - apply exact_none in E1 as [-> N1]. cbn [toks with_toks diags] in *. injection H as <- <- <-.
    exists tp, (either F (path_separators F) (either F (punct_in F [PLBrace]) (fun t => q && an_ident F t))).
    split; [exact E|]. split; [apply Prefab_path; assumption|].
    split; [apply delimited_either; [exact H1|apply delimited_either; [exact N1|exact H2]]|].
    intros _. destruct tp as [|t0 tp]; [congruence|]. cbn in E. injection E as <- _.
    eexists _, _. split; [reflexivity|]. congruence.
Qed.

(** close a goal about what was read *)
Ltac toks_eq := repeat match goal with T : toks ?x = _ |- context [toks ?x] => rewrite T; clear T end;
  repeat (rewrite <- app_assoc || cbn [app]); reflexivity.

Lemma new_sound (s : pst) (m : term) (s' : pst) (ws : bool) :
  new_term F R s = Ok (Some m) s' -> diags s' = diags s ->
  exists ts M, toks s = ts ++ toks s' /\ sp_term F m false (TIdent F (lit "new") ws :: ts) M /\ delimited M (toks s').
Proof using HG HH HS.
  unfold new_term. intros H D. nx H d s1 E1. destruct d as [u|].
  - apply exact_some in E1 as [T1 D1]. nx H i s2 E2. destruct i as [i|].
    + apply ident_some in E2 as (ws' & T2 & D2). nx H p s3 E3. nx H a s4 E4. ret H. destruct p as [path vars].
      destruct (prefab_sound _ _ _ _ _ E3) as (tp & A & T3 & G3 & N3 & _); [quiet|].
      destruct (optargs_sound _ _ _ E4) as (ta & T4 & G4 & N4); [quiet|].
      exists (P PDot :: TIdent F i ws' :: tp ++ ta), (then_args F a A).
      split; [toks_eq|]. split; [apply T_new_dot_path; assumption|]. apply N4, N3.
    + apply ident_none in E2 as [-> N2]. nx H a s4 E4. ret H.
      destruct (optargs_sound _ _ _ E4) as (ta & T4 & G4 & N4); [quiet|].
      exists (P PDot :: ta), (then_args F a (an_ident F)).
      split; [toks_eq|]. split; [apply T_new_dot; assumption|]. apply N4, N2.
  - apply exact_none in E1 as [-> N1]. nx H i s2 E2. destruct i as [i|].
    + apply ident_some in E2 as (ws' & T2 & D2). destruct (fields_loop F (toks s2) (diags s2)) as [fs s3] eqn:E3.
      pose proof (fields_gr F _ _ _ _ E3) as Le3. pose proof (le_len _ _ Le3) as Len3.
      nx H a s4 E4. ret H.
      destruct (fields_sound _ _ _ _ E3) as (tf & T3 & G3 & N3); [quiet|].
      destruct (optargs_sound _ _ _ E4) as (ta & T4 & G4 & N4); [quiet|].
      exists (TIdent F i ws' :: tf ++ ta), (then_args F a (punct_in F [PDot; PCloseColon; PSafeDot; PSafeColon])).
      split; [toks_eq|]. split; [apply T_new_mini; assumption|]. apply N4, N3.
    + apply ident_none in E2 as [-> N2]. nx H p s3 E3. destruct p as [[path vars]|].
      * nx H a s4 E4. ret H.
        destruct (prefab_sound _ _ _ _ _ E3) as (tp & A & T3 & G3 & N3 & Hp); [quiet|].
        destruct (optargs_sound _ _ _ E4) as (ta & T4 & G4 & N4); [quiet|].
        destruct (Hp eq_refl) as (t0 & x0 & -> & Hsep).
        destruct (separator_of F t0) as [o|] eqn:Es; [|congruence]. destruct (separator_inv _ _ Es) as (p & -> & Hpo).
        exists (P p :: x0 ++ ta), (then_args F a A).
        split; [toks_eq|]. split; [|apply N4, N3]. apply T_new_path; try assumption.
        rewrite T3 in N1. destruct p; cbn in Hpo, N1 |- *; try discriminate; auto.
      * pose proof (prefab_sh F R HH [] eq_refl _ _ _ E3) as ->.
        nx H a s4 E4. ret H.
        destruct (optargs_sound _ _ _ E4) as (ta & T4 & G4 & N4); [quiet|].
        exists ta, (then_args F a (either F (path_separators F) (an_ident F))).
        split; [exact T4|]. split; [apply T_new; assumption|]. apply N4. apply delimited_either; [|exact N2].
        unfold prefab_ex in E3. destruct (toks s) as [|t0 x0]; [exact I|]. cbn [Spec.delimited].
        apply separator_none. destruct (separator_of F t0) as [o|]; [|reflexivity]. exfalso.
        destruct (path_loop F (t0 :: x0)) as [more r]. apply opt_inv in E3 as (b & s5 & E5 & E3).
        destruct b; [apply opt_inv in E3 as (v & s6 & E6 & E3)|]; discriminate.
Qed.
Lemma call_ext_sound (s : pst) (m : term) (s' : pst) (ws : bool) :
  call_ext_term F R s = Ok (Some m) s' -> diags s' = diags s ->
  exists ts M, toks s = ts ++ toks s' /\ sp_term F m false (TIdent F (lit "call_ext") ws :: ts) M /\ delimited M (toks s').
Proof using HG HH HS.
  unfold call_ext_term. intros H D. nx H u s1 E1. nx H e s2 E2. nx H c s3 E3. apply exact_some in E1 as [T1 D1].
  destruct c as [v|].
  - apply exact_some in E3 as [T3 D3]. nx H f s4 E4. nx H w s5 E5. nx H es s6 E6. ret H. apply exact_some in E5 as [T5 D5].
    destruct (expression_sound _ _ _ E2) as (tl & L & T2 & G2 & _); [quiet|].
    destruct (expression_sound _ _ _ E4) as (tf & A & T4 & G4 & _); [quiet|].
    destruct (arguments_sound _ _ _ E6) as (ta & T6 & G6); [quiet|].
    do 2 eexists. split; [|split; [eapply T_extcall_lib; [exact G2|exact G4|exact G6]|apply delimited_nothing]]. toks_eq.
  - apply exact_none in E3 as [-> N3]. nx H w s5 E5. nx H es s6 E6. ret H. apply exact_some in E5 as [T5 D5].
    destruct (expression_sound _ _ _ E2) as (tf & A & T4 & G4 & _); [quiet|].
    destruct (arguments_sound _ _ _ E6) as (ta & T6 & G6); [quiet|].
    do 2 eexists. split; [|split; [eapply T_extcall; [exact G4|exact G6]|apply delimited_nothing]]. toks_eq.
Qed.
Lemma inlist_sound (s : pst) (il : option expr) (s' : pst) :
  match il with
  | None => exact F PIn s = Ok None s'
  | Some e => exists u s1, exact F PIn s = Ok (Some u) s1 /\ expression F R s1 = Ok (Some e) s'
  end -> diags s' = diags s ->
  exists ti I, toks s = ti ++ toks s' /\ sp_inlist F il ti I /\ delimited I (toks s').
Proof using HG HS.
  destruct il as [e|]; intros H D.
  - destruct H as (u & s1 & E1 & E2). apply exact_some in E1 as [T1 D1].
    destruct (expression_sound _ _ _ E2) as (te & A & T2 & G2 & N2); [congruence|].
    exists (P PIn :: te), (either F (operator F) A). split; [toks_eq|]. split; [apply In_some, G2|].
    apply delimited_either; [|apply N2]. eapply ends_no_operator, N2.
  - apply exact_none in H as [-> N]. exists [], (punct_in F [PIn]). split; [reflexivity|]. split; [constructor|exact N].
Qed.
Lemma input_sound (s : pst) (m : term) (s' : pst) (ws : bool) :
  input_term F R (lit "input") s = Ok (Some m) s' -> diags s' = diags s ->
  exists ts M, toks s = ts ++ toks s' /\ sp_term F m false (TIdent F (lit "input") ws :: ts) M /\ delimited M (toks s').
Proof using HG HH HS.
  unfold input_term. intros H D. nx H a s1 E1. destruct a as [es|].
  2: { apply arguments_none in E1 as [-> N1]. ret H. exists [], (punct_in F [PLParen]). split; [reflexivity|].
       split; [apply T_soft; cbn; tauto|exact N1]. }
  nx H p s2 E2. ret H. rename s2 into s9. unfold input_specifier in E2.
  destruct p as [it il]. cbn [fst snd].
  nx E2 a s3 E3. destruct (arguments_sound _ _ _ E1) as (ta & T1 & G1); [quiet|].
  assert (K : forall (x : option N) (sx : pst), le (diags s1) (diags sx) ->
    opt_ F (exact F PIn sx)
      (fun i s3 => match i with
       | Some _ => req_ F (expression F R s3) (fun e s4 =>
           opt_ F (exact_ident F (lit "as") s4) (fun a2 s5 =>
             match a2 with
             | Some _ => req_ F (input_type F (register F DAsOrder s5)) (fun _ s6 => success F (x, Some e) s6)
             | None => success F (x, Some e) s5
             end))
       | None => success F (x, None) s3
       end) = Ok (Some (it, il)) s9 ->
    x = it /\ le (diags sx) (diags s9) /\
    exists ti I, toks sx = ti ++ toks s9 /\ sp_inlist F il ti I /\ delimited I (toks s9) /\
      (il <> None -> delimited (the_word F (lit "as")) (toks s9)) /\ (il = None -> s9 = sx)).
  { intros x sx Lx Hx. pose proof (le_len _ _ Lx) as Lenx. nx Hx i s4 E4. destruct i as [v|].
    - nx Hx e s5 E5. nx Hx a2 s6 E6. destruct a2 as [w|].
      + exfalso. nx Hx n s7 E7. injection Hx as <- <- <-. cbn [diags register] in *. rewrite app_length in *.
        cbn [List.length] in *. apply (f_equal (@List.length diag)) in D. lia.
      + apply exact_ident_none in E6 as [-> N6]. injection Hx as <- <- <-.
        split; [reflexivity|]. split; [eapply le_trans; eassumption|].
        destruct (inlist_sound sx (Some e) s5) as (ti & I & T & G & N); [eauto| |].
        { assert (L5 : le (diags sx) (diags s5)) by (eapply le_trans; eassumption). quiet. }
        exists ti, I. repeat split; try assumption; [intros _; exact N6|discriminate].
    - injection Hx as <- <- <-. split; [reflexivity|]. split; [assumption|].
      destruct (inlist_sound sx None s4) as (ti & I & T & G & N); [exact E4|quiet|].
      exists ti, I. repeat split; try assumption; [congruence|intros _; apply exact_none in E4; tauto]. }
  destruct a as [u|].
  - apply exact_ident_some in E3 as (ws' & T3 & D3). nx E2 n s4 E4.
    destruct (K (Some n) s4) as (<- & L & ti & I & T5 & G5 & N5 & N6 & N7); [eapply le_trans; eassumption|exact E2|].
    pose proof (le_len _ _ L) as LenK.
    destruct (input_type_sound _ _ _ _ E4) as (tn & A & T4 & G4 & N4); [quiet|].
    do 2 eexists. split; [|split; [eapply T_input_as; [exact G1|exact G4|exact G5]|]].
    + instantiate (1 := ws'). toks_eq.
    + apply delimited_either; [exact N5|]. destruct il as [e|]; [apply N6; discriminate|].
      rewrite (N7 eq_refl). exact N4.
  - apply exact_ident_none in E3 as [-> N3].
    destruct (K None s1) as (<- & L & ti & I & T5 & G5 & N5 & N6 & N7); [apply le_refl|exact E2|].
    do 2 eexists. split; [|split; [eapply T_input; [exact G1|exact G5]|]].
    + toks_eq.
    + apply delimited_either; [exact N5|]. destruct il as [e|]; [apply N6; discriminate|].
      rewrite (N7 eq_refl). exact N3.
Qed.
Lemma locate_sound (s : pst) (m : term) (s' : pst) (ws : bool) :
  locate_term F R (lit "locate") s = Ok (Some m) s' -> diags s' = diags s ->
  exists ts M, toks s = ts ++ toks s' /\ sp_term F m false (TIdent F (lit "locate") ws :: ts) M /\ delimited M (toks s').
Proof using HG HH HS.
  unfold locate_term. intros H D. nx H a s1 E1. destruct a as [es|].
  2: { apply arguments_none in E1 as [-> N1]. ret H. exists [], (punct_in F [PLParen]). split; [reflexivity|].
       split; [apply T_soft; cbn; tauto|exact N1]. }
  set (s2 := match es with Bin BIn _ _ :: _ => register F DLocateIn s1 | _ => s1 end) in *.
  assert (S2 : s2 = s1 /\ match es with Bin BIn _ _ :: _ => False | _ => True end \/
               toks s2 = toks s1 /\ dl s2 = S (dl s1)).
  { subst s2. clear. destruct es as [|[|op ? ?|?|?] ?]; try (left; split; [reflexivity|exact I]).
    destruct op; try (left; split; [reflexivity|exact I]). right. cbn. rewrite app_length. split; [reflexivity|cbn; lia]. }
  clearbody s2. nx H n s3 E3.
  assert (LenF : dl s3 <= dl s').
  { destruct n; [|ret H; lia]. destruct (1 <? Datatypes.length es); nx H e s5 E5; ret H; cbn [diags register] in *;
      rewrite ?app_length in *; lia. }
  apply (f_equal (@List.length diag)) in D.
  destruct S2 as [[-> Hes]|[_ S2]]; [|exfalso; lia].
  destruct (arguments_sound _ _ _ E1) as (ta & T1 & G1); [quiet|].
  destruct n as [u|].
  - destruct (1 <? Datatypes.length es) eqn:El.
    { exfalso. nx H e s5 E5. ret H. cbn [diags register] in *. rewrite app_length in *. cbn in *. lia. }
    apply Nat.ltb_ge in El. nx H e s5 E5. ret H.
    destruct (inlist_sound s1 (Some e) s5) as (ti & I & T & G & N); [eauto| |].
    { assert (L5 : le (diags s1) (diags s5)) by (eapply le_trans; eassumption). quiet. }
    exists (P PLParen :: ta ++ ti), I. split; [toks_eq|]. split; [apply T_locate; assumption|exact N].
  - ret H. destruct (inlist_sound s1 None s3) as (ti & I & T & G & N); [exact E3|quiet|].
    exists (P PLParen :: ta ++ ti), I. split; [toks_eq|].
    split; [apply T_locate; try assumption; constructor|exact N].
Qed.
Lemma as_sound (s : pst) (m : term) (s' : pst) (ws : bool) :
  as_term F s = Ok (Some m) s' -> diags s' = diags s ->
  exists ts M, toks s = ts ++ toks s' /\ sp_term F m false (TIdent F (lit "as") ws :: ts) M /\ delimited M (toks s').
Proof using Type.
  clear R HG HH HS. unfold as_term. intros H D.
  apply req_inv in H as (u & s1 & E1 & H). apply exact_some in E1 as [T1 D1].
  apply opt_inv in H as (t & s2 & E2 & H). apply req_inv in H as (v & s3 & E3 & H). apply exact_some in E3 as [T3 D3].
  ret H. destruct t as [n|].
  - destruct (input_type_sound _ _ _ _ E2) as (tn & A & T2 & G2 & N2); [congruence|].
    do 2 eexists. split; [|split; [eapply T_as_type, G2|apply delimited_nothing]]. toks_eq.
  - apply (input_type_sh F) in E2. subst s2.
    do 2 eexists. split; [|split; [apply T_as|apply delimited_nothing]]. toks_eq.
Qed.
Lemma pick_arguments_sound (s : pst) es (s' : pst) :
  pick_arguments F R s = Ok (Some es) s' -> diags s' = diags s ->
  exists ts, toks s = P PLParen :: ts ++ toks s' /\ sp_pick F false es ts.
Proof using HG HS.
  unfold pick_arguments. intros H D. nx H u s1 E1. nx H l s2 E2. ret H.
  apply exact_some in E1 as [T1 D1].
  destruct (s_pick F R HS _ _ _ _ _ E2) as (es & ts & Ee & T2 & G); [quiet|]. cbn [app] in Ee. subst l.
  exists ts. split; [rewrite T1, T2; reflexivity|]. exact G.
Qed.
Lemma pick_arguments_none (s s' : pst) :
  pick_arguments F R s = Ok None s' -> s' = s /\ delimited (punct_in F [PLParen]) (toks s).
Proof using Type.
  clear HG HH HS. unfold pick_arguments. intros H. apply lead_inv in H as [(u & s1 & E & H)|[H _]].
  - apply req_inv in H as (l & s2 & E2 & H). discriminate.
  - apply exact_none in H as [-> N]. split; [reflexivity|exact N].
Qed.

Lemma dot_sound (s : pst) (m : term) (s' : pst) :
  dot_term F R s = Ok (Some m) s' -> diags s' = diags s ->
  exists ts M, toks s = ts ++ toks s' /\ sp_term F m false (P PDot :: ts) M /\ delimited M (toks s').
Proof using HG HH HS.
  unfold dot_term. intros H D. nx H i s1 E1. destruct i as [i|].
  - apply ident_some in E1 as (ws & T1 & D1). nx H p s2 E2. ret H. destruct p as [path vars]. cbn [fst snd].
    destruct (prefab_sound _ _ _ _ _ E2) as (tp & A & T2 & G2 & N2 & _); [quiet|].
    exists (TIdent F i ws :: tp), A. split; [toks_eq|]. split; [apply T_dot_path, G2|exact N2].
  - apply ident_none in E1 as [-> N1]. nx H a s2 E2. ret H. destruct a as [es|].
    + destruct (arguments_sound _ _ _ E2) as (ta & T2 & G2); [quiet|].
      exists (P PLParen :: ta), (nothing F). split; [exact T2|]. split; [apply T_self, G2|apply delimited_nothing].
    + apply arguments_none in E2 as [-> N2]. exists [], (either F (an_ident F) (punct_in F [PLParen])).
      split; [reflexivity|]. split; [apply T_dot|]. apply delimited_either; assumption.
Qed.
Lemma scope_sound (s : pst) (m : term) (s' : pst) :
  scope_term F R s = Ok (Some m) s' -> diags s' = diags s ->
  exists ts M, toks s = ts ++ toks s' /\ sp_term F m false (P PScope :: ts) M /\ delimited M (toks s').
Proof using HG HH HS.
  unfold scope_term. intros H D. nx H i s1 E1. apply ident_some in E1 as (ws & T1 & D1). nx H a s2 E2. ret H.
  destruct a as [es|].
  - destruct (arguments_sound _ _ _ E2) as (ta & T2 & G2); [quiet|].
    exists (TIdent F i ws :: P PLParen :: ta), (nothing F). split; [toks_eq|].
    split; [apply T_global_call, G2|apply delimited_nothing].
  - apply arguments_none in E2 as [-> N2]. exists [TIdent F i ws], (punct_in F [PLParen]).
    split; [toks_eq|]. split; [apply T_global|exact N2].
Qed.
Lemma paren_sound (s : pst) (m : term) (s' : pst) :
  paren_term F R s = Ok (Some m) s' -> diags s' = diags s ->
  exists ts M, toks s = ts ++ toks s' /\ sp_term F m false (P PLParen :: ts) M /\ delimited M (toks s').
Proof using HG HS.
  unfold paren_term. intros H D. nx H c s1 E1. destruct c as [u|].
  - exfalso. ret H. cbn [diags register] in D. apply (f_equal (@List.length diag)) in D. rewrite app_length in D.
    cbn in D. lia.
  - apply exact_none in E1 as [-> _]. nx H e s2 E2. nx H v s3 E3. ret H. apply exact_some in E3 as [T3 D3].
    destruct (expression_sound _ _ _ E2) as (te & A & T2 & G2 & _); [quiet|].
    exists (te ++ [P PRParen]), (nothing F). split; [toks_eq|]. split; [eapply T_paren, G2|apply delimited_nothing].
Qed.
Lemma list_sound (i : text) (s : pst) (m : term) (s' : pst) (ws : bool) :
  i = lit "list" \/ i = lit "alist" ->
  list_term F R i s = Ok (Some m) s' -> diags s' = diags s ->
  exists ts M, toks s = ts ++ toks s' /\ sp_term F m false (TIdent F i ws :: ts) M /\ delimited M (toks s').
Proof using HG HH HS.
  intros Hi. unfold list_term. intros H D. nx H a s1 E1. ret H. destruct a as [es|].
  - destruct (arguments_sound _ _ _ E1) as (ta & T2 & G2); [quiet|].
    exists (P PLParen :: ta), (nothing F). split; [exact T2|]. split; [apply T_list; assumption|apply delimited_nothing].
  - apply arguments_none in E1 as [-> N1]. exists [], (punct_in F [PLParen]). split; [reflexivity|].
    split; [apply T_soft; cbn; destruct Hi as [->| ->]; auto|exact N1].
Qed.
Lemma plain_inv (x : Model.res F term) (m : term) (b : bool) (s' : pst) :
  req_ F x (fun t s1 => success F (t, false) s1) = Ok (Some (m, b)) s' -> x = Ok (Some m) s' /\ b = false.
Proof using Type. clear. intros H. apply req_inv in H as (t & s1 & E & H). injection H as <- <- <-. auto. Qed.

Lemma ident_term_sound (i : text) (s : pst) (m : term) (b : bool) (s' : pst) (ws : bool) :
  ident_term F R i s = Ok (Some (m, b)) s' -> diags s' = diags s ->
  exists ts M, toks s = ts ++ toks s' /\ sp_term F m b (TIdent F i ws :: ts) M /\ delimited M (toks s').
Proof using HG HH HS.
  unfold ident_term. intros H D.
  destruct (text_eqb_spec i (lit "new")) as [->|X1]; [apply plain_inv in H as [H ->]; apply new_sound; assumption|].
  destruct (text_eqb_spec i (lit "list")) as [->|X2]; cbn [orb] in H;
    [apply plain_inv in H as [H ->]; apply list_sound; auto|].
  destruct (text_eqb_spec i (lit "alist")) as [->|X3]; [apply plain_inv in H as [H ->]; apply list_sound; auto|].
  destruct (text_eqb_spec i (lit "call")) as [->|X4].
  { apply plain_inv in H as [H ->]. nx H es s1 E1. nx H es' s2 E2. ret H.
    destruct (arguments_sound _ _ _ E1) as (ta & T1 & G1); [quiet|].
    destruct (arguments_sound _ _ _ E2) as (ta2 & T2 & G2); [quiet|].
    do 2 eexists. split; [|split; [eapply T_dyncall; [exact G1|exact G2]|apply delimited_nothing]]. toks_eq. }
  destruct (text_eqb_spec i (lit "call_ext")) as [->|X5];
    [apply plain_inv in H as [H ->]; apply call_ext_sound; assumption|].
  destruct (text_eqb_spec i (lit "input")) as [->|X6];
    [apply plain_inv in H as [H ->]; apply input_sound; assumption|].
  destruct (text_eqb_spec i (lit "locate")) as [->|X7];
    [apply plain_inv in H as [H ->]; apply locate_sound; assumption|].
  destruct (text_eqb_spec i (lit "pick")) as [->|X8].
  { apply plain_inv in H as [H ->]. nx H a s1 E1. ret H. destruct a as [es|].
    - destruct (pick_arguments_sound _ _ _ E1) as (ta & T1 & G1); [quiet|].
      exists (P PLParen :: ta), (nothing F). split; [exact T1|]. split; [apply T_pick, G1|apply delimited_nothing].
    - apply pick_arguments_none in E1 as [-> N1]. exists [], (punct_in F [PLParen]). split; [reflexivity|].
      split; [apply T_soft; cbn; tauto|exact N1]. }
  destruct (text_eqb_spec i (lit "null")) as [->|X9].
  { injection H as <- <- <-. exists [], (nothing F). split; [reflexivity|]. split; [constructor|apply delimited_nothing]. }
  destruct (text_eqb_spec i (lit "as")) as [->|X10];
    [apply plain_inv in H as [H ->]; apply as_sound; assumption|].
  destruct (text_eqb_spec i (lit "__PROC__")) as [->|X11].
  { injection H as <- <- <-. exists [], (nothing F). split; [reflexivity|]. split; [constructor|apply delimited_nothing]. }
  destruct (text_eqb_spec i (lit "__TYPE__")) as [->|X12].
  { injection H as <- <- <-. exists [], (nothing F). split; [reflexivity|]. split; [constructor|apply delimited_nothing]. }
  destruct (text_eqb_spec i (lit "__IMPLIED_TYPE__")) as [->|X13].
  { injection H as <- <- <-. exists [], (nothing F). split; [reflexivity|]. split; [constructor|apply delimited_nothing]. }
  assert (Hr : ~ In i reserved).
  { unfold reserved. cbn [In]. intros Hin. repeat destruct Hin as [Hin|Hin]; congruence. }
  nx H a s1 E1. destruct a as [es|].
  - injection H as <- <- <-. destruct (arguments_sound _ _ _ E1) as (ta & T1 & G1); [quiet|].
    exists (P PLParen :: ta), (nothing F). split; [exact T1|]. split; [apply T_call; assumption|apply delimited_nothing].
  - injection H as <- <- <-. apply arguments_none in E1 as [-> N1]. exists [], (punct_in F [PLParen]).
    split; [reflexivity|]. split; [apply T_ident, Hr|exact N1].
Qed.

Lemma term_sound (s : pst) (m : term) (b : bool) (s' : pst) :
  term_body F R s = Ok (Some (m, b)) s' -> diags s' = diags s ->
  exists ts M, toks s = ts ++ toks s' /\ sp_term F m b ts M /\ delimited M (toks s').
Proof using HG HH HS.
  unfold term_body. intros H D. destruct (toks s) as [|t r] eqn:Et; [discriminate|].
  assert (Wrap : (exists ts M, toks (with_toks F r s) = ts ++ toks s' /\ sp_term F m b (t :: ts) M /\ delimited M (toks s')) ->
    exists ts M, t :: r = ts ++ toks s' /\ sp_term F m b ts M /\ delimited M (toks s')).
  { intros (ts & M & T & G & N). cbn [toks with_toks] in T. exists (t :: ts), M. split; [rewrite T; reflexivity|]. split; assumption. }
  assert (Lit : forall x, success F (x, false) (with_toks F r s) = Ok (Some (m, b)) s' -> sp_term F x false [t] (nothing F) ->
    exists ts M, t :: r = ts ++ toks s' /\ sp_term F m b ts M /\ delimited M (toks s')).
  { intros x E G. injection E as <- <- <-. exists [t], (nothing F). split; [reflexivity|]. split; [exact G|apply delimited_nothing]. }
  destruct t as [p|i ws|v|begin|part|part|v|v|v|k d x]; try discriminate.
  - assert (Path : p = PSlash \/ p = PCloseColon ->
      req_ F (req_ F (prefab_ex F R [] s) (fun p s2 => success F (MPrefab (fst p) (snd p)) s2))
        (fun t s1 => success F (t, false) s1) = Ok (Some (m, b)) s' ->
      exists ts M, P p :: r = ts ++ toks s' /\ sp_term F m b ts M /\ delimited M (toks s')).
    { intros Hp H'. apply plain_inv in H' as [H' ->]. nx H' q s2 E2. ret H'. destruct q as [path vars]. cbn [fst snd].
      destruct (prefab_sound _ _ _ _ _ E2) as (tp & A & T2 & G2 & N2 & Hx); [quiet|].
      destruct (Hx eq_refl) as (t0 & x0 & -> & _). rewrite Et in T2. cbn [app] in T2. injection T2 as <- T2.
      exists (P p :: x0), A. split; [rewrite T2; reflexivity|]. split; [apply T_path; assumption|exact N2]. }
    destruct p; try discriminate.
    + apply plain_inv in H as [H ->]. apply Wrap. apply paren_sound; assumption.
    + apply plain_inv in H as [H ->]. apply Wrap. apply dot_sound; assumption.
    + apply plain_inv in H as [H ->]. apply Wrap. nx H es s2 E2. ret H.
      destruct (arguments_sound _ _ _ E2) as (ta & T2 & G2); [quiet|].
      exists (P PLParen :: ta), (nothing F). split; [exact T2|]. split; [apply T_parent, G2|apply delimited_nothing].
    + apply Path; [left; reflexivity|exact H].
    + apply Path; [right; reflexivity|exact H].
    + apply plain_inv in H as [H ->]. apply Wrap. apply scope_sound; assumption.
  - apply Wrap. apply ident_term_sound; assumption.
  - eapply Lit; [exact H|constructor].
  - apply plain_inv in H as [H ->]. apply Wrap. nx H ps s2 E2. ret H.
    destruct (s_interp F R HS _ _ _ _ E2) as (ps' & tp & Ee & T2 & G2); [quiet|]. cbn [app] in Ee. subst ps.
    exists tp, (nothing F). split; [exact T2|]. split; [apply T_interp, G2|apply delimited_nothing].
  - eapply Lit; [exact H|constructor].
  - eapply Lit; [exact H|constructor].
  - eapply Lit; [exact H|constructor].
Qed.

Lemma list_access_sound (s : pst) (f : follow) (s' : pst) (chain t : bool) :
  list_access F R s = Ok (Some f) s' -> diags s' = diags s ->
  exists ts, toks s = ts ++ toks s' /\ sp_follow F chain t f ts (nothing F) /\ keeps_chain F f = false.
Proof using HG HS.
  unfold list_access. intros H D. destruct (at_punct F PLBracket s) eqn:E1; [|destruct (at_punct F PSafeLBracket s) eqn:E2; [|discriminate]].
  - apply at_punct_inv in E1. nx H e s1 E. nx H u s2 E3. ret H. apply exact_some in E3 as [T3 D3].
    destruct (expression_sound _ _ _ E) as (te & A & T2 & G2 & _); [quiet|].
    exists (P PLBracket :: te ++ [P PRBracket]). split; [rewrite E1, T2, T3; cbn [app]; rewrite <- app_assoc; reflexivity|].
    split; [eapply Fo_index, G2|reflexivity].
  - apply at_punct_inv in E2. nx H e s1 E. nx H u s2 E3. ret H. apply exact_some in E3 as [T3 D3].
    destruct (expression_sound _ _ _ E) as (te & A & T2 & G2 & _); [quiet|].
    exists (P PSafeLBracket :: te ++ [P PRBracket]). split; [rewrite E2, T2, T3; cbn [app]; rewrite <- app_assoc; reflexivity|].
    split; [eapply Fo_safe_index, G2|reflexivity].
Qed.
Lemma list_access_none (s s' : pst) :
  list_access F R s = Ok None s' -> s' = s /\ at_punct F PLBracket s = false /\ at_punct F PSafeLBracket s = false.
Proof using Type.
  clear HG HH HS. unfold list_access. destruct (at_punct F PLBracket s) eqn:E1; [|destruct (at_punct F PSafeLBracket s) eqn:E2].
  - intros H. apply req_inv in H as (e & s1 & E & H). apply req_inv in H as (u & s2 & E3 & H). discriminate.
  - intros H. apply req_inv in H as (e & s1 & E & H). apply req_inv in H as (u & s2 & E3 & H). discriminate.
  - intros H; injection H as <-. auto.
Qed.
Lemma list_access_gr (s : pst) o (s' : pst) : list_access F R s = Ok o s' -> le (diags s) (diags s').
Proof using HG.
  unfold list_access. intros H. destruct (at_punct F PLBracket s); [|destruct (at_punct F PSafeLBracket s)];
    [| |injection H as <- <-; apply le_refl].
  - nx H e s1 E. nx H u s2 E3. ret H. eapply le_trans; eassumption.
  - nx H e s1 E. nx H u s2 E3. ret H. eapply le_trans; eassumption.
Qed.

(** the operator of a follow, by the specification *)
Lemma follow_kind_inv (b t : bool) (x : tok) (k : propkind) : follow_kind F b t x = Some k ->
  exists p, x = P p /\ (k = KScope /\ p = PScope \/ k <> KScope /\ access_op b t p = Some k).
Proof using Type.
  clear R HG HH HS. destruct x as [p| | | | | | | | |]; try discriminate. intros H. exists p. split; [reflexivity|].
  destruct p; cbn [follow_kind access_op] in *; try discriminate.
  all: first [ injection H as <-; first [right; split; [discriminate|reflexivity] | left; split; reflexivity]
             | destruct (b || negb t); [|discriminate]; injection H as <-; right; split; [discriminate|reflexivity] ].
Qed.
Lemma follow_sound (b t : bool) (s : pst) (f : follow) (b' : bool) (s' : pst) :
  follow_one F R b t s = Ok (Some (f, b')) s' -> diags s' = diags s ->
  exists ts N, toks s = ts ++ toks s' /\ sp_follow F b t f ts N /\ b' = b && keeps_chain F f /\ delimited N (toks s').
Proof using HG HH HS.
  unfold follow_one. intros H D. apply opt_inv in H as (l & s0 & E0 & H).
  destruct l as [f0|].
  - injection H as <- <- <-. destruct (list_access_sound _ _ _ b t E0 D) as (ts & T & G & Hk).
    exists ts, (nothing F). split; [exact T|]. split; [exact G|]. split; [rewrite Hk, andb_false_r; reflexivity|apply delimited_nothing].
  - apply list_access_none in E0 as [-> _]. destruct (toks s) as [|x r] eqn:Et; [discriminate|].
    destruct (follow_kind F b t x) as [k|] eqn:Ek; [|discriminate].
    destruct (follow_kind_inv _ _ _ _ Ek) as (p & -> & Hp). nx H i s1 E1. destruct i as [i|].
    + apply ident_some in E1 as (ws & T1 & D1). cbn [toks with_toks diags] in *. nx H a s3 E3. destruct a as [es|].
      * injection H as <- <- <-. destruct (arguments_sound _ _ _ E3) as (ta & T3 & G3); [quiet|].
        exists (P p :: TIdent F i ws :: P PLParen :: ta), (nothing F).
        split; [rewrite T1, T3; reflexivity|]. destruct Hp as [[-> ->]|[Hk Hp]].
        -- split; [eapply Fo_procref, G3|]. split; [rewrite andb_false_r; reflexivity|apply delimited_nothing].
        -- assert (Ef : match k with KScope => FProcRef i | _ => FCall k i es end = FCall k i es) by (destruct k; congruence).
           rewrite Ef. split; [eapply Fo_call; assumption|]. split; [rewrite andb_false_r; reflexivity|apply delimited_nothing].
      * injection H as <- <- <-. apply arguments_none in E3 as [-> N3].
        exists [P p; TIdent F i ws], (punct_in F [PLParen]). split; [rewrite T1; reflexivity|].
        destruct Hp as [[-> ->]|[Hk Hp]].
        -- split; [apply Fo_static|]. split; [rewrite andb_true_r; reflexivity|exact N3].
        -- assert (Ef : match k with KScope => FStaticField i | _ => FField k i end = FField (F := F) k i) by (destruct k; congruence).
           rewrite Ef. split; [apply Fo_field, Hp|]. split; [rewrite andb_true_r; reflexivity|exact N3].
    + exfalso. apply ident_none in E1 as [-> _]. nx H a s3 E3. cbn [diags toks with_toks register] in *.
      rewrite app_length in *. cbn [List.length] in *.
      destruct a; injection H as <- <- <-; apply (f_equal (@List.length diag)) in D; lia.
Qed.
Lemma follow_none (b t : bool) (s s' : pst) :
  follow_one F R b t s = Ok None s' ->
  s' = s /\ (at_punct F PPlusPlus s = false -> at_punct F PMinusMinus s = false -> delimited (follow_start F b t) (toks s)).
Proof using HG.
  unfold follow_one. intros H. apply opt_inv in H as (l & s0 & E0 & H). destruct l as [f0|]; [discriminate|].
  apply list_access_none in E0 as (-> & N1 & N2).
  unfold at_punct in *. destruct (toks s) as [|x r] eqn:Et.
  - injection H as <-. split; [reflexivity|]. intros _ _. exact I.
  - destruct (follow_kind F b t x) as [k|] eqn:Ek.
    + apply opt_inv in H as (i & s1 & E1 & H). destruct i; apply opt_inv in H as (a & s3 & E3 & H); destruct a; discriminate.
    + injection H as <-. split; [reflexivity|]. intros N3 N4. cbn [Spec.delimited].
      destruct x as [p| | | | | | | | |]; try reflexivity.
      unfold follow_start, punct_in. destruct p; cbn in Ek, N1, N2, N3, N4 |- *; try discriminate; try reflexivity.
      destruct (b || negb t); [discriminate|reflexivity].
Qed.

Lemma follows_sound acc b t s fs' s' M : follows_body F R acc b t s = Ok (Some fs') s' -> diags s' = diags s ->
  delimited M (toks s) ->
  exists fs ts B, fs' = acc ++ fs /\ toks s = ts ++ toks s' /\ sp_follows F b t M fs ts B /\ delimited B (toks s').
Proof using HG HH HS.
  unfold follows_body. intros H D HM.
  assert (More : forall f b' s1 ts N, toks s = ts ++ toks s1 -> diags s1 = diags s -> sp_follow F b t f ts N -> b' = b && keeps_chain F f ->
    delimited N (toks s1) -> ts <> [] -> f_follows F R (acc ++ [f]) b' t s1 = Ok (Some fs') s' ->
    exists fs ts B, fs' = acc ++ fs /\ toks s = ts ++ toks s' /\ sp_follows F b t M fs ts B /\ delimited B (toks s')).
  { intros f b' s1 ts N T1 D1 G Hb HN Hne H1.
    destruct (s_follows F R HS _ _ _ _ _ _ N H1) as (fs & ts2 & B & Ef & T2 & G2 & N2); [congruence|exact HN|].
    exists (f :: fs), (ts ++ ts2), B. split; [rewrite Ef, <- app_assoc; reflexivity|].
    split; [rewrite T1, T2, app_assoc; reflexivity|]. split; [|exact N2].
    apply Fs_cons with (N := N); [exact G| |subst b'; exact G2].
    rewrite T1 in HM. destruct ts; [congruence|exact HM]. }
  destruct (at_punct F PPlusPlus s) eqn:E1.
  { apply at_punct_inv in E1. eapply More with (ts := [P PPlusPlus]) (N := nothing F); [exact E1|reflexivity|apply Fo_incr| |apply delimited_nothing|discriminate|exact H].
    cbn. rewrite andb_true_r. reflexivity. }
  destruct (at_punct F PMinusMinus s) eqn:E2.
  { apply at_punct_inv in E2. eapply More with (ts := [P PMinusMinus]) (N := nothing F); [exact E2|reflexivity|apply Fo_decr| |apply delimited_nothing|discriminate|exact H].
    cbn. rewrite andb_true_r. reflexivity. }
  nx H f s1 E. destruct f as [[f b']|].
  - note H. destruct (follow_sound _ _ _ _ _ _ E) as (ts & N & T & G & Hb & HN); [quiet|].
    eapply More; try eassumption; [quiet|]. intros ->. inversion G.
  - apply follow_none in E as [-> N]. injection H as <- <-. exists [], [], (either F (follow_start F b t) M).
    split; [rewrite app_nil_r; reflexivity|]. split; [reflexivity|]. split; [constructor|]. apply delimited_either; auto.
Qed.
Lemma group_sound t s e s' : group_body F R t s = Ok (Some e) s' -> diags s' = diags s ->
  exists ts A, toks s = ts ++ toks s' /\ sp_group F t e ts A /\ delimited A (toks s').
Proof using HG HS.
  unfold group_body. intros H D. destruct (prefix_loop F (toks s)) as [us r] eqn:El.
  apply prefix_sound in El as (ps & T0 & Hps).
  assert (H' : exists tb s2 fs, f_term F R (with_toks F r s) = Ok (Some tb) s2 /\
    f_follows F R [] (snd tb) t s2 = Ok (Some fs) s' /\ e = Base (fst tb) (fs ++ map FUnary (rev us))).
  { destruct us as [|u us].
    - apply lead_inv in H as [(tb & s2 & E & H)|[_ Q]]; [|discriminate]. apply req_inv in H as (fs & s3 & E3 & H).
      injection H as <- <-. exists tb, s2, fs. auto.
    - apply req_inv in H as (tb & s2 & E & H). apply req_inv in H as (fs & s3 & E3 & H).
      injection H as <- <-. exists tb, s2, fs. auto. }
  clear H. destruct H' as ([m b] & s2 & fs & E & E3 & ->). cbn [fst snd] in *. note E. note E3.
  destruct (s_term F R HS _ _ _ _ E) as (tm & M & T1 & G1 & N1); [quiet|].
  destruct (s_follows F R HS _ _ _ _ _ _ M E3) as (fs2 & tf & B & Ef & T2 & G2 & N2); [quiet|exact N1|].
  cbn [app] in Ef. subst fs2. cbn [toks with_toks] in T1.
  exists (map (fun p => P p) ps ++ tm ++ tf), B. split; [rewrite T0, T1, T2, <- !app_assoc; reflexivity|].
  split; [eapply G; eassumption|exact N2].
Qed.

Lemma args_sound c l s l' s' : args_body F R c l s = Ok (Some l') s' -> diags s' = diags s ->
  exists es ts, somes l' = somes l ++ es /\ toks s = ts ++ toks s' /\ sp_args F c es ts.
Proof using HG HS.
  unfold args_body, separated_body. intros H D. nx H e s1 E1. destruct e as [u|].
  { ret H. apply exact_some in E1 as [T1 D1]. exists [], [P PRParen]. rewrite app_nil_r. split; [reflexivity|]. split; [exact T1|constructor]. }
  apply exact_none in E1 as [-> _]. nx H e s2 E2. destruct e as [u|].
  - apply exact_some in E2 as [T2 D2]. destruct c.
    + destruct (s_args F R HS _ _ _ _ _ H) as (es & ts & Ee & T3 & G); [congruence|].
      exists es, (P PComma :: ts). split; [exact Ee|]. split; [toks_eq|apply Args_comma, G].
    + destruct (s_args F R HS _ _ _ _ _ H) as (es & ts & Ee & T3 & G); [congruence|].
      exists es, (P PComma :: ts). split; [|split; [toks_eq|apply Args_comma, G]].
      rewrite Ee. unfold somes. rewrite flat_map_app. cbn. rewrite app_nil_r. reflexivity.
  - apply exact_none in E2 as [-> _]. destruct c; [discriminate|].
    apply req_inv in H as (v & s3 & E3 & H). nx E3 e s4 E4. injection E3 as <- <-. note H.
    destruct (expression_sound _ _ _ E4) as (te & A & T4 & G4 & _); [quiet|].
    destruct (s_args F R HS _ _ _ _ _ H) as (es & ts & Ee & T3 & G); [quiet|].
    exists (e :: es), (te ++ ts). split; [rewrite Ee; unfold somes; rewrite flat_map_app, <- app_assoc; reflexivity|].
    split; [rewrite T4, T3, app_assoc; reflexivity|]. eapply Args_item; eassumption.
Qed.
Lemma pick_sound c l s l' s' : pick_body F R c l s = Ok (Some l') s' -> diags s' = diags s ->
  exists es ts, l' = l ++ es /\ toks s = ts ++ toks s' /\ sp_pick F c es ts.
Proof using HG HS.
  unfold pick_body, separated_body. intros H D. nx H e s1 E1. destruct e as [u|].
  { ret H. apply exact_some in E1 as [T1 D1]. exists [], [P PRParen]. rewrite app_nil_r. split; [reflexivity|]. split; [exact T1|constructor]. }
  apply exact_none in E1 as [-> _]. nx H e s2 E2. destruct e as [u|].
  - apply exact_some in E2 as [T2 D2]. destruct c; [|discriminate].
    destruct (s_pick F R HS _ _ _ _ _ H) as (es & ts & Ee & T3 & G); [congruence|].
    exists es, (P PComma :: ts). split; [exact Ee|]. split; [toks_eq|apply Pick_comma, G].
  - apply exact_none in E2 as [-> _]. destruct c; [discriminate|].
    apply req_inv in H as (v & s3 & E3 & H). unfold pick_item in E3. nx E3 e s4 E4. nx E3 o s5 E5. note H. destruct o as [u|].
    + nx E3 x s6 E6. injection E3 as <- <-. apply exact_some in E5 as [T5 D5].
      destruct (expression_sound _ _ _ E4) as (te & A & T4 & G4 & _); [quiet|].
      destruct (expression_sound _ _ _ E6) as (tx & X & T6 & G6 & _); [quiet|].
      destruct (s_pick F R HS _ _ _ _ _ H) as (es & ts & Ee & T3 & G); [quiet|].
      exists ((Some e, x) :: es), (te ++ P PSemicolon :: tx ++ ts).
      split; [rewrite Ee, <- app_assoc; reflexivity|]. split; [toks_eq|]. eapply Pick_weighted; eassumption.
    + injection E3 as <- <-. apply exact_none in E5 as [-> _].
      destruct (expression_sound _ _ _ E4) as (te & A & T4 & G4 & _); [quiet|].
      destruct (s_pick F R HS _ _ _ _ _ H) as (es & ts & Ee & T3 & G); [quiet|].
      exists ((None, e) :: es), (te ++ ts).
      split; [rewrite Ee, <- app_assoc; reflexivity|]. split; [toks_eq|]. eapply Pick_plain; eassumption.
Qed.
Lemma vars_sound c l s l' s' : vars_body F R c l s = Ok (Some l') s' -> diags s' = diags s ->
  exists es ts, somes l' = somes l ++ es /\ toks s = ts ++ toks s' /\ sp_vars F c es ts.
Proof using HG HS.
  unfold vars_body, separated_body. intros H D. nx H e s1 E1. destruct e as [u|].
  { ret H. apply exact_some in E1 as [T1 D1]. exists [], [P PRBrace]. rewrite app_nil_r. split; [reflexivity|]. split; [exact T1|constructor]. }
  apply exact_none in E1 as [-> _]. nx H e s2 E2. destruct e as [u|].
  - apply exact_some in E2 as [T2 D2]. destruct c.
    + destruct (s_vars F R HS _ _ _ _ _ H) as (es & ts & Ee & T3 & G); [congruence|].
      exists es, (P PSemicolon :: ts). split; [exact Ee|]. split; [toks_eq|apply Vars_semicolon, G].
    + destruct (s_vars F R HS _ _ _ _ _ H) as (es & ts & Ee & T3 & G); [congruence|].
      exists es, (P PSemicolon :: ts). split; [|split; [toks_eq|apply Vars_semicolon, G]].
      rewrite Ee. unfold somes. rewrite flat_map_app. cbn. rewrite app_nil_r. reflexivity.
  - apply exact_none in E2 as [-> _]. destruct c; [discriminate|].
    apply req_inv in H as (v & s3 & E3 & H). unfold var_item in E3. nx E3 k s4 E4. nx E3 o s5 E5. nx E3 e s6 E6. injection E3 as <- <-. note H.
    apply ident_some in E4 as (ws & T4 & D4). apply exact_some in E5 as [T5 D5].
    destruct (expression_sound _ _ _ E6) as (te & A & T6 & G6 & _); [quiet|].
    destruct (s_vars F R HS _ _ _ _ _ H) as (es & ts & Ee & T3 & G); [quiet|].
    exists ((k, e) :: es), (TIdent F k ws :: P PAssign :: te ++ ts).
    split; [rewrite Ee; unfold somes; rewrite flat_map_app, <- app_assoc; reflexivity|].
    split; [toks_eq|]. eapply Vars_item; eassumption.
Qed.
Lemma interp_sound l s l' s' : interp_body F R l s = Ok (Some l') s' -> diags s' = diags s ->
  exists ps ts, l' = l ++ ps /\ toks s = ts ++ toks s' /\ sp_interp F ps ts.
Proof using HG HS HH.
  unfold interp_body. intros H D. nx H e s1 E. destruct (toks s1) as [|[| | | |part|part| | | |] r] eqn:Et; try discriminate.
  - note H. destruct (s_interp F R HS _ _ _ _ H) as (ps & ts & Ee & T3 & G); [quiet|]. cbn [toks with_toks] in T3.
    destruct e as [e|].
    + destruct (expression_sound _ _ _ E) as (te & A & T4 & G4 & _); [quiet|].
      exists ((Some e, part) :: ps), (te ++ TInterpPart F part :: ts).
      split; [rewrite Ee, <- app_assoc; reflexivity|]. split; [rewrite T4, Et, T3, <- app_assoc; reflexivity|].
      eapply Interp_part_expr; eassumption.
    + apply (h_expr F R HH) in E. subst s1. exists ((None, part) :: ps), (TInterpPart F part :: ts).
      split; [rewrite Ee, <- app_assoc; reflexivity|]. split; [rewrite Et, T3; reflexivity|]. apply Interp_part, G.
  - injection H as <- <-. cbn [toks with_toks]. destruct e as [e|].
    + destruct (expression_sound _ _ _ E) as (te & A & T4 & G4 & _); [quiet|].
      exists [(Some e, part)], (te ++ [TInterpEnd F part]).
      split; [reflexivity|]. split; [rewrite T4, Et, <- app_assoc; reflexivity|]. eapply Interp_end_expr; eassumption.
    + apply (h_expr F R HH) in E. subst s1. exists [(None, part)], [TInterpEnd F part].
      split; [reflexivity|]. split; [exact Et|]. constructor.
Qed.

Lemma step_sound : sound F (step F R).
Proof using HG HH HS.
  constructor; cbn [step f_expr f_expr_loop f_part f_part_loop f_group f_follows f_term f_args f_pick f_vars f_interp]; intros.
  - apply (expr_sound F R HG HS); assumption.
  - eapply (expr_loop_sound F R HG HS); eassumption.
  - eapply (part_sound F R HG HS); eassumption.
  - eapply (part_loop_sound F R HG HS); eassumption.
  - apply group_sound; assumption.
  - eapply follows_sound; eassumption.
  - apply term_sound; assumption.
  - apply args_sound; assumption.
  - apply pick_sound; assumption.
  - apply vars_sound; assumption.
  - apply interp_sound; assumption.
Qed.
End WITH.

Theorem run_sound (n : nat) : sound F (run F n).
Proof using Type.
  induction n as [|n IH]; [constructor; intros; discriminate|].
  cbn [run]. apply step_sound; [apply run_grows|apply run_shrinks|exact IH].
Qed.
End SOUND.
