(** Macro expansion in the preprocessor follows the rewriting of Pp.Spec. *)
From Coq Require Import List ZArith NArith Bool Lia Arith String.
From Verif Require Import Common.Text Loc.Model Lexer.Punct.
From Verif Require Lexer.Model.
From Verif Require Import Pp.Model Pp.Spec Pp.Flat.
Import ListNotations.
Open Scope nat_scope.

Section WALK.
Context {F P : Type}.
Notation token := (Lexer.Model.token F).
Notation ltok := (loc * token)%type.
Notation TPunct := (Lexer.Model.TPunct F).
Notation TIdent := (Lexer.Model.TIdent F).
Notation TString := (Lexer.Model.TString F).
Notation TInt := (Lexer.Model.TInt F).
Notation define := (@define F).
Notation define_map := (@define_map F).
Notation state := (@state F P).
Notation include := (@include F P).
Variable W : @world F P.

(** what expansion leaves alone *)
Definition same (s s' : state) : Prop :=
  env_file s' = env_file s /\ include_locations s' = include_locations s /\ multiple_locations s' = multiple_locations s /\
  ifdef_stack s' = ifdef_stack s /\ history s' = history s /\ defines s' = defines s /\ docs_in s' = docs_in s /\
  maps s' = maps s /\ skins s' = skins s /\ scripts s' = scripts s.
Lemma same_refl : forall s, same s s.
Proof using Type. intro s. repeat split. Qed.
Lemma same_trans : forall a b c, same a b -> same b c -> same a c.
Proof using Type. unfold same. intros a b c H1 H2. decompose [and] H1. decompose [and] H2. repeat split; congruence. Qed.

(** one token read and processed: whatever [evaluate] does, the result is [s2] *)
Definition steps (c : bool) (s s2 : state) : Prop :=
  exists l t st', inner_next s = (Some (l, t), set_stack st' s) /\ (c = true -> t <> TPunct PNewline) /\
    forall ev sx, real_next W ev t c (set_loc l (set_stack st' s)) = Ok sx -> sx = s2.
(** several tokens; outside of conditions the output is taken away after each *)
Inductive chain (c : bool) : state -> list ltok -> state -> Prop :=
  | chain_nil : forall s, chain c s [] s
  | chain_step : forall s s2 o out s3, steps c s s2 -> output s2 = output s ++ o ->
      chain c (if c then s2 else set_output [] s2) out s3 -> chain c s (o ++ out) s3.
Lemma chain_app : forall c s o1 s1 o2 s2, chain c s o1 s1 -> chain c s1 o2 s2 -> chain c s (o1 ++ o2) s2.
Proof using Type.
  intros c s o1 s1 o2 s2 H. revert o2 s2. induction H as [s|s s2 o out s3 H1 H2 H3 IH]; intros o2 s4 H4; [exact H4|].
  rewrite <- app_assoc. eapply chain_step; [exact H1 | exact H2 | apply IH, H4].
Qed.

Definition lift (p : P) (input : list (nat * ltok)) : list ((nat * option P) * ltok) := map (fun x => ((fst x, Some p), snd x)) input.
Lemma flat_push_expansion : forall l body (st : list include), flat (IExpansion l body :: st) = map (fun t => ((S (List.length st), top_file st), (l, t))) body ++ flat st.
Proof using Type. intros l body st. cbn [flat own top_file List.length]. rewrite map_map. reflexivity. Qed.
Lemma flat_push_file : forall p ts (st : list include), flat (IFile p ts :: st) = map (pair (S (List.length st), Some p)) ts ++ flat st.
Proof using Type. reflexivity. Qed.
Lemma lift_deeper : forall p d l (body : list token), lift p (deeper d l body) = map (fun t => ((S d, Some p), (l, t))) body.
Proof using Type. intros. unfold lift, deeper. rewrite map_map. reflexivity. Qed.
Lemma lift_app : forall p a b, lift p (a ++ b) = lift p a ++ lift p b.
Proof using Type. intros. unfold lift. apply map_app. Qed.

Lemma flush_none : forall s : state, docs_in s = [] -> flush_docs s = s.
Proof using Type. intros s H. unfold flush_docs. rewrite H. reflexivity. Qed.
Lemma emit_none : forall t (s : state), docs_in s = [] -> emit t s = push_output t s.
Proof using Type. intros t s H. unfold emit. destruct (tok_whitespace t); [reflexivity|]. rewrite flush_none by exact H. reflexivity. Qed.
Lemma after_defined_spec : forall out : list ltok, after_defined out = true <-> ends_defined out.
Proof using Type.
  intro out. unfold after_defined, ends_defined. split.
  - intro H. destruct (rev out) as [|[l1 t1] [|[l2 t2] r]] eqn:E; [discriminate| destruct t1 as [p| | | | | | | | |]; try discriminate; destruct p; discriminate|].
    destruct t1 as [p| | | | | | | | |]; try discriminate. destruct p; try discriminate. destruct t2 as [|i ws| | | | | | | |]; try discriminate.
    apply text_eqb_eq in H. subst i. exists (rev r), l2, l1, ws. rewrite <- (rev_involutive out), E. cbn [rev]. rewrite <- app_assoc. reflexivity.
  - intros (o & l1 & l2 & ws & ->). rewrite rev_app_distr. cbn [rev app]. apply text_eqb_refl.
Qed.
Lemma not_special : forall i, ~ special i -> text_eqb i (lit "__FILE__") = false /\ text_eqb i (lit "__LINE__") = false.
Proof using Type.
  intros i H. split.
  - destruct (text_eqb_spec i (lit "__FILE__")); [elim H; left; assumption | reflexivity].
  - destruct (text_eqb_spec i (lit "__LINE__")); [elim H; right; assumption | reflexivity].
Qed.

(** *** Single tokens *)
Definition ready (c : bool) (s : state) : Prop := docs_in s = [] /\ (c = false -> is_disabled s = false /\ output s = []).
Lemma ready_disabled : forall c s l st, ready c s -> negb c && is_disabled (set_loc l (set_stack st s)) = false.
Proof using Type. intros c s l st [_ H]. destruct c; [reflexivity|]. destruct (H eq_refl) as [H1 _]. exact H1. Qed.

Lemma same_ready : forall c s s', same s s' -> (c = false -> output s' = []) -> ready c s -> ready c s'.
Proof using Type.
  unfold same, ready. intros c s s' H Ho [H1 H2]. decompose [and] H. split; [congruence|]. intro Hc. destruct (H2 Hc) as [H21 H22]. split; [|apply Ho, Hc].
  unfold is_disabled in *. congruence.
Qed.

Lemma step_plain : forall c s v l t r, ready c s -> flat (stack s) = (v, (l, t)) :: r ->
  (forall i ws, t <> TIdent i ws) -> t <> TPunct PHash -> (forall k x y, t <> Lexer.Model.TDoc F k x y) -> (c = true -> t <> TPunct PNewline) ->
  exists st' s2, flat st' = r /\ steps c s s2 /\ stack s2 = st' /\ output s2 = output s ++ [(l, t)] /\ same s s2.
Proof using Type.
  intros c s v l t r Hr Hf N1 N2 N3 N4. destruct (inner_next_flat _ _ _ _ Hf) as (st' & En & Hf' & Hv).
  pose proof (ready_disabled c s l st' Hr) as Hd. destruct Hr as [Hdoc _].
  set (s1 := set_loc l (set_stack st' s)) in *.
  assert (G : forall ev sx, real_next W ev t c s1 = Ok sx -> exists s0, count_interp t s1 = Ok s0 /\ sx = push_output t s0).
  { intros ev sx H. unfold real_next in H. rewrite Hd in H.
    assert (G : (do s0 <- count_interp t s1; Ok (emit t s0)) = Ok sx -> exists s0, count_interp t s1 = Ok s0 /\ sx = push_output t s0).
    { intro G. destruct (count_interp t s1) as [s0| |] eqn:E; try discriminate. cbn [bind] in G. exists s0. split; [reflexivity|].
      assert (docs_in s0 = []) as D by (unfold count_interp in E; destruct t; try (destruct (in_interp s1 =? 0)%N; try discriminate); inversion E; exact Hdoc).
      rewrite emit_none in G by exact D. congruence. }
    destruct t; try (apply G; exact H).
    - destruct p; try (apply G; exact H). congruence.
    - elim (N1 i ws). reflexivity.
    - elim (N3 k t s0). reflexivity. }
  destruct (count_interp t s1) as [s0| |] eqn:E.
  - exists st', (push_output t s0).
    assert (Hs0 : stack s0 = st' /\ output s0 = output s /\ last_input_loc s0 = l /\ same s s0).
    { unfold count_interp in E. destruct t; try (destruct (in_interp s1 =? 0)%N; try discriminate); inversion E; repeat split. }
    destruct Hs0 as (A & B & C & D). split; [exact Hf'|]. split; [|split; [exact A|split; [|exact D]]].
    + exists l, t, st'. split; [exact En|]. split; [exact N4|]. intros ev sx H. destruct (G ev sx H) as (s0' & E' & ->). inversion E'. reflexivity.
    + cbn [push_output output set_output]. rewrite B, C. reflexivity.
  - exists st', (push_output t s1). split; [exact Hf'|]. split; [|split; [reflexivity|split; [reflexivity|repeat split]]].
    exists l, t, st'. split; [exact En|]. split; [exact N4|]. intros ev sx H. destruct (G ev sx H) as (s0' & E' & _). discriminate.
  - exists st', (push_output t s1). split; [exact Hf'|]. split; [|split; [reflexivity|split; [reflexivity|repeat split]]].
    exists l, t, st'. split; [exact En|]. split; [exact N4|]. intros ev sx H. destruct (G ev sx H) as (s0' & E' & _). discriminate.
Qed.

(** an identifier: the step is [do_ident] *)
Lemma step_ident : forall c s v l i ws r, ready c s -> flat (stack s) = (v, (l, TIdent i ws)) :: r ->
  exists st', flat st' = r /\ v = (List.length st', top_file st') /\
    forall s2, (forall sx, do_ident W i ws (set_loc l (set_stack st' s)) = Ok sx -> sx = s2) -> steps c s s2.
Proof using Type.
  intros c s v l i ws r Hr Hf. destruct (inner_next_flat _ _ _ _ Hf) as (st' & En & Hf' & Hv). exists st'. split; [exact Hf'|]. split; [exact Hv|].
  intros s2 H. exists l, (TIdent i ws), st'. split; [exact En|]. split; [discriminate|]. intros ev sx Hx. unfold real_next in Hx. rewrite (ready_disabled c s l st' Hr) in Hx. apply H, Hx.
Qed.

Lemma chain_one : forall c s s2 o out s3, steps c s s2 -> output s2 = output s ++ o -> chain c (if c then s2 else set_output [] s2) out s3 -> chain c s (o ++ out) s3.
Proof using Type. intros. eapply chain_step; eassumption. Qed.

(** *** Expansion *)
Theorem expands_chain : forall c file m b input out, expands W c file m b input out -> forall p s rest,
  flat (stack s) = lift p input ++ rest -> ready c s -> defines s = m -> w_display_path W p = file -> (c = true -> output s = b) ->
  exists s1, chain c s out s1 /\ flat (stack s1) = rest /\ same s s1 /\ (c = true -> output s1 = b ++ out) /\ (c = false -> output s1 = []).
Proof using Type.
  intros c file m b input out H.
  assert (DONE : forall (s s2 : state) o b r out p rest, steps c s s2 -> output s2 = output s ++ o -> same s s2 -> flat (stack s2) = lift p r ++ rest ->
     ready c s -> defines s = m -> w_display_path W p = file -> (c = true -> output s = b) ->
     (forall p s rest, flat (stack s) = lift p r ++ rest -> ready c s -> defines s = m -> w_display_path W p = file -> (c = true -> output s = b ++ o) ->
        exists s1, chain c s out s1 /\ flat (stack s1) = rest /\ same s s1 /\ (c = true -> output s1 = (b ++ o) ++ out) /\ (c = false -> output s1 = [])) ->
     exists s1, chain c s (o ++ out) s1 /\ flat (stack s1) = rest /\ same s s1 /\ (c = true -> output s1 = b ++ o ++ out) /\ (c = false -> output s1 = [])).
  { clear. intros s s2 o b r out p rest Hs Ho Hm Hf Hr Hdef Hp Hb IH.
    destruct (IH p (if c then s2 else set_output [] s2) rest) as (s1 & C1 & C2 & C3 & C4 & C5).
    - destruct c; exact Hf.
    - apply (same_ready c s); [destruct c; exact Hm | intros ->; reflexivity | exact Hr].
    - destruct c; cbn [defines set_output]; unfold same in Hm; intuition congruence.
    - exact Hp.
    - intros ->. rewrite Ho, (Hb eq_refl). reflexivity.
    - exists s1. split; [eapply chain_step; eassumption|]. split; [exact C2|]. split; [|split; [|exact C5]].
      + apply same_trans with (2 := C3). destruct c; exact Hm.
      + intro Hc. rewrite (C4 Hc), app_assoc. reflexivity. }
  induction H; intros p s rest Hf Hr Hdef Hp Hb; cbn [lift map app fst snd] in Hf.
  - exists s. split; [constructor|]. split; [exact Hf|]. split; [apply same_refl|]. split; [intro Hc; rewrite app_nil_r; apply Hb, Hc | apply Hr].
  - (* plain *)
    destruct (step_plain c s _ _ _ _ Hr Hf) as (st' & s2 & Hf' & Hs & Hst & Ho & Hm); try assumption.
    apply (DONE s s2 [(l, t)] b r out p rest); try assumption. rewrite Hst. exact Hf'.
  - (* __FILE__ *)
    destruct (step_ident c s _ _ _ _ _ Hr Hf) as (st' & Hf' & Hv & Hs). inversion Hv as [[Hv1 Hv2]].
    set (s1 := set_loc l (set_stack st' s)) in *.
    apply (DONE s (push_output (TString file) s1) [(l, TString file)] b r out p rest); try assumption; try reflexivity; [|repeat split].
    apply Hs. intros sx Hx. unfold do_ident in Hx. rewrite flush_none in Hx by apply Hr. rewrite text_eqb_refl in Hx. subst s1. cbn [stack set_loc set_stack] in Hx. rewrite <- Hv2, Hp in Hx. congruence.
  - (* __LINE__ *)
    destruct (step_ident c s _ _ _ _ _ Hr Hf) as (st' & Hf' & Hv & Hs). inversion Hv as [[Hv1 Hv2]].
    set (s1 := set_loc l (set_stack st' s)) in *.
    apply (DONE s (push_output (TInt (as_i32 (lline l))) s1) [(l, TInt (as_i32 (lline l)))] b r out p rest); try assumption; try reflexivity; [|repeat split].
    apply Hs. intros sx Hx. unfold do_ident in Hx. rewrite flush_none in Hx by apply Hr.
    change (text_eqb (lit "__LINE__") (lit "__FILE__")) with false in Hx. rewrite text_eqb_refl in Hx. inversion Hx. reflexivity.
  - (* defined(x) *)
    destruct (step_ident c s _ _ _ _ _ Hr Hf) as (st' & Hf' & Hv & Hs).
    set (s1 := set_loc l (set_stack st' s)) in *.
    apply (DONE s (push_output (TIdent i ws) s1) [(l, TIdent i ws)] b r out p rest); try assumption; try reflexivity; [|repeat split].
    apply Hs. intros sx Hx. unfold do_ident in Hx. rewrite flush_none in Hx by apply Hr. destruct (not_special i H) as [E1 E2]. rewrite E1, E2 in Hx.
    assert (A : after_defined (output s1) = true) by (apply after_defined_spec; change (output s1) with (output s); rewrite (Hb H0); assumption). rewrite A in Hx. congruence.
  - (* no macro *)
    destruct (step_ident c s _ _ _ _ _ Hr Hf) as (st' & Hf' & Hv & Hs).
    set (s1 := set_loc l (set_stack st' s)) in *.
    apply (DONE s (push_output (TIdent i ws) s1) [(l, TIdent i ws)] b r out p rest); try assumption; try reflexivity; [|repeat split].
    apply Hs. intros sx Hx. unfold do_ident in Hx. rewrite flush_none in Hx by apply Hr. destruct (not_special i H) as [E1 E2]. rewrite E1, E2 in Hx.
    destruct (after_defined (output s1)); [congruence|]. change (defines s1) with (defines s) in Hx. rewrite Hdef, H0 in Hx. rewrite emit_none in Hx by apply Hr. congruence.
  - (* too deep *)
    destruct (step_ident c s _ _ _ _ _ Hr Hf) as (st' & Hf' & Hv & Hs). inversion Hv as [[Hv1 Hv2]].
    set (s1 := set_loc l (set_stack st' s)) in *.
    assert (Hnd : after_defined (output s1) = false).
    { destruct (after_defined (output s1)) eqn:E; [|reflexivity]. apply after_defined_spec in E. change (output s1) with (output s) in E. elim H0. destruct c; [split; [reflexivity|]; rewrite <- (Hb eq_refl); exact E|].
      destruct Hr as [_ Hr]. destruct (Hr eq_refl) as [_ Ho]. rewrite Ho in E. destruct E as (o & l1 & l2 & ws' & E). destruct o; discriminate E. }
    apply (DONE s (push_output (TIdent i ws) (register ERecursion s1)) [(l, TIdent i ws)] b r out p rest); try assumption; try reflexivity; [|repeat split].
    apply Hs. intros sx Hx. unfold do_ident in Hx. rewrite flush_none in Hx by apply Hr. destruct (not_special i H) as [E1 E2]. rewrite E1, E2, Hnd in Hx.
    change (defines s1) with (defines s) in Hx. rewrite Hdef, H1 in Hx. destruct x as [l0 d0]. change (stack s1) with st' in Hx. rewrite <- Hv1 in Hx.
    destruct (Nat.ltb_spec MAX_RECURSION_DEPTH d); [|lia]. rewrite emit_none in Hx by apply Hr. congruence.
  - (* constant *)
    destruct (step_ident c s _ _ _ _ _ Hr Hf) as (st' & Hf' & Hv & Hs). inversion Hv as [[Hv1 Hv2]].
    set (s1 := set_loc l (set_stack st' s)) in *.
    assert (Hnd : after_defined (output s1) = false).
    { destruct (after_defined (output s1)) eqn:E; [|reflexivity]. apply after_defined_spec in E. change (output s1) with (output s) in E. elim H0. destruct c; [split; [reflexivity|]; rewrite <- (Hb eq_refl); exact E|].
      destruct Hr as [_ Hr]. destruct (Hr eq_refl) as [_ Ho]. rewrite Ho in E. destruct E as (o & l1 & l2 & ws' & E). destruct o; discriminate E. }
    apply (DONE s (set_stack (IExpansion l body :: st') s1) [] b (deeper d l body ++ r) out p rest); try assumption; try reflexivity.
    + apply Hs. intros sx Hx. unfold do_ident in Hx. rewrite flush_none in Hx by apply Hr. destruct (not_special i H) as [E1 E2]. rewrite E1, E2, Hnd in Hx.
      change (defines s1) with (defines s) in Hx. rewrite Hdef, H1 in Hx. change (stack s1) with st' in Hx. rewrite <- Hv1 in Hx.
      destruct (Nat.ltb_spec MAX_RECURSION_DEPTH d); [lia|]. change (last_input_loc s1) with l in Hx. congruence.
    + cbn [output set_stack set_loc]. rewrite app_nil_r. reflexivity.
    + repeat split.
    + cbn [stack set_stack]. rewrite flat_push_expansion, lift_app, lift_deeper, <- Hv1, <- Hv2, Hf', <- app_assoc. reflexivity.
    + rewrite app_nil_r. exact IHexpands.
  - (* call *)
    destruct (step_ident c s _ _ _ _ _ Hr Hf) as (st' & Hf' & Hv & Hs). inversion Hv as [[Hv1 Hv2]].
    set (s1 := set_loc l (set_stack st' s)) in *.
    assert (Hnd : after_defined (output s1) = false).
    { destruct (after_defined (output s1)) eqn:E; [|reflexivity]. apply after_defined_spec in E. change (output s1) with (output s) in E. elim H0. destruct c; [split; [reflexivity|]; rewrite <- (Hb eq_refl); exact E|].
      destruct Hr as [_ Hr]. destruct (Hr eq_refl) as [_ Ho]. rewrite Ho in E. destruct E as (o & l3 & l4 & ws' & E). destruct o; discriminate E. }
    subst r. cbn [map app fst snd] in Hf'. rewrite map_app in Hf'. cbn [map fst snd] in Hf'.
    destruct (inner_next_flat s1 _ _ _ Hf') as (st2 & En2 & Hf2 & _).
    rewrite <- app_assoc in Hf2. cbn [app] in Hf2.
    destruct (read_args_commas args H6 H5 (map (fun x => ((fst x, Some p), snd x)) written) (S (List.length (lift p r2 ++ rest))) (lift p r2 ++ rest) [] (d2, Some p) l2 (set_stack st2 s1)) as (st3 & E3 & Hf3 & Hv3).
    { rewrite map_map. cbn [snd]. exact H4. }
    { exact Hf2. }
    inversion Hv3 as [[Hv31 Hv32]].
    destruct (bound_fit _ _ _ _ H7) as [Efit Elen].
    pose proof (filled_paste W params values body [] expansion Elen H8) as Epaste.
    apply (DONE s (set_stack (IExpansion l expansion :: st3) s1) [] b (deeper d2 l expansion ++ r2) out p rest); try assumption; try reflexivity.
    + apply Hs. intros sx Hx. unfold do_ident in Hx. rewrite flush_none in Hx by apply Hr. destruct (not_special i H) as [E1 E2]. rewrite E1, E2, Hnd in Hx.
      change (defines s1) with (defines s) in Hx. rewrite Hdef, H1 in Hx. change (stack s1) with st' in Hx. rewrite <- Hv1 in Hx.
      destruct (Nat.ltb_spec MAX_RECURSION_DEPTH d); [lia|].
      unfold call_macro, next in Hx. rewrite En2 in Hx.
      replace (S (available (set_stack st2 s1))) with (List.length (map (fun x => ((fst x, Some p), snd x)) written) + S (S (List.length (lift p r2 ++ rest)))) in Hx
        by (rewrite available_flat; cbn [stack set_stack]; rewrite Hf2; unfold lift; rewrite ?app_length; cbn [List.length]; rewrite ?app_length, ?map_length; lia).
      rewrite E3 in Hx. cbn [app] in Hx. rewrite Efit, Elen, Nat.eqb_refl, Epaste in Hx. cbn [last_input_loc set_stack stack] in Hx. change (last_input_loc s1) with l in Hx. rewrite !set_stack_twice in Hx. congruence.
    + cbn [output set_stack set_loc]. rewrite app_nil_r. reflexivity.
    + repeat split.
    + cbn [stack set_stack]. rewrite flat_push_expansion, lift_app, lift_deeper, <- Hv31, <- Hv32, Hf3, <- app_assoc. reflexivity.
    + rewrite app_nil_r. exact IHexpands.
  - (* a function-like name without parenthesis *)
    destruct (step_ident c s _ _ _ _ _ Hr Hf) as (st' & Hf' & Hv & Hs). inversion Hv as [[Hv1 Hv2]].
    set (s1 := set_loc l (set_stack st' s)) in *.
    assert (Hnd : after_defined (output s1) = false).
    { destruct (after_defined (output s1)) eqn:E; [|reflexivity]. apply after_defined_spec in E. change (output s1) with (output s) in E. elim H0. destruct c; [split; [reflexivity|]; rewrite <- (Hb eq_refl); exact E|].
      destruct Hr as [_ Hr]. destruct (Hr eq_refl) as [_ Ho]. rewrite Ho in E. destruct E as (o & l3 & l4 & ws' & E). destruct o; discriminate E. }
    destruct (inner_next_flat s1 _ _ _ Hf') as (st2 & En2 & Hf2 & _).
    set (s2 := push_output (TIdent i false) (set_stack st2 s1)) in *.
    assert (G : forall sx, do_ident W i ws s1 = Ok sx -> exists s3, count_interp t s2 = Ok s3 /\ sx = push_output t s3).
    { intros sx Hx. unfold do_ident in Hx. rewrite flush_none in Hx by apply Hr. destruct (not_special i H) as [E1 E2]. rewrite E1, E2, Hnd in Hx.
      change (defines s1) with (defines s) in Hx. rewrite Hdef, H1 in Hx. change (stack s1) with st' in Hx. rewrite <- Hv1 in Hx.
      destruct (Nat.ltb_spec MAX_RECURSION_DEPTH d); [lia|]. unfold call_macro, next in Hx. rewrite En2 in Hx.
      assert (Hx' : (do s3 <- count_interp t s2; Ok (push_output t s3)) = Ok sx) by (destruct t; try exact Hx; destruct p0; try exact Hx; congruence).
      destruct (count_interp t s2) as [s3| |]; try discriminate. exists s3. split; [reflexivity|]. cbn [bind] in Hx'. congruence. }
    assert (D : exists s3, steps c s s3 /\ stack s3 = st2 /\ output s3 = output s ++ [(l, TIdent i false); (l, t)] /\ same s s3).
    { destruct (count_interp t s2) as [s3| |] eqn:E.
      - exists (push_output t s3).
        assert (Hs3 : stack s3 = st2 /\ output s3 = output s ++ [(l, TIdent i false)] /\ last_input_loc s3 = l /\ same s s3).
        { unfold count_interp in E. destruct t; try (destruct (in_interp s2 =? 0)%N; try discriminate); inversion E; repeat split. }
        destruct Hs3 as (A & B & C & D). split; [|split; [exact A|split; [|exact D]]].
        + apply Hs. intros sx Hx. destruct (G sx Hx) as (s4 & E4 & ->). congruence.
        + cbn [push_output output set_output]. rewrite B, C, <- app_assoc. reflexivity.
      - exists (push_output t s2). split; [|split; [reflexivity|split; [cbn; rewrite <- app_assoc; reflexivity|repeat split]]].
        apply Hs. intros sx Hx. destruct (G sx Hx) as (s4 & E4 & _). discriminate.
      - exists (push_output t s2). split; [|split; [reflexivity|split; [cbn; rewrite <- app_assoc; reflexivity|repeat split]]].
        apply Hs. intros sx Hx. destruct (G sx Hx) as (s4 & E4 & _). discriminate. }
    destruct D as (s3 & D1 & D2 & D3 & D4).
    apply (DONE s s3 [(l, TIdent i false); (l, t)] b r2 out p rest); try assumption. rewrite D2. exact Hf2.
Qed.
End WALK.
