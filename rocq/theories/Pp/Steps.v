(** Every call of the preprocessor is a sequence of elementary changes of its state. *)
From Coq Require Import List ZArith NArith Bool Lia Arith String.
From Verif Require Import Common.Text Common.Order Loc.Model Lexer.Punct.
From Verif Require Lexer.Model.
From Verif Require Import Pp.Model.
Import ListNotations.
Open Scope nat_scope.

Section STEPS.
Context {F P : Type}.
Variable W : @world F P.
Notation token := (Lexer.Model.token F).
Notation ltok := (loc * token)%type.
Notation state := (@state F P).
Notation define := (@define F).

(** what a change does *)
Inductive label : Type :=
  | LNone
  | LRead (t : ltok)
  | LDefine (l : loc) (n : text) (d : define)
  | LUndef (l : loc) (n : text)
  | LEnter (p : P) (toks : list ltok)
  | LExpand (toks : list token)
  | LMultiple (id : Z).

Inductive prim : state -> label -> state -> Prop :=
  | p_end : forall s, stack_next (stack s) = (None, []) -> prim s LNone (set_stack [] s)
  | p_read : forall s t st, stack_next (stack s) = (Some t, st) -> prim s (LRead t) (set_stack st s)
  | p_loc : forall s l, prim s LNone (set_loc l s)
  | p_output : forall s o, prim s LNone (set_output o s)
  | p_docs : forall s d, prim s LNone (set_docs d s)
  | p_err : forall s e, prim s LNone (register e s)
  | p_interp : forall s n, prim s LNone (set_interp n s)
  | p_ifdefs : forall s i h, prim s LNone (set_ifdefs i h s)
  | p_resources : forall s a b c, prim s LNone (set_resources a b c s)
  | p_define : forall s l n d, prim s (LDefine l n d) (set_defines (dm_insert (defines s) n (l, d)) (history s) s)
  | p_undef : forall s n l d m, dm_remove (defines s) n = (Some (l, d), m) ->
      prim s (LUndef (last_input_loc s) n) (set_defines m (((l, last_input_loc s), (n, d)) :: history s) s)
  | p_undef_none : forall s n m, dm_remove (defines s) n = (None, m) -> prim s (LUndef (last_input_loc s) n) (set_defines m (history s) s)
  | p_multiple : forall s id, prim s (LMultiple id) (set_multiple (id :: multiple_locations s) s)
  | p_enter_first : forall s p toks, stack s <> [] -> w_open W p = Some toks -> loc_of (include_locations s) (w_file_id W p) = None ->
      prim s (LEnter p toks) (set_stack (IFile p toks :: stack s) (set_include_locations ((w_file_id W p, last_input_loc s) :: include_locations s) s))
  | p_enter_again : forall s p toks, stack s <> [] -> w_open W p = Some toks -> loc_of (include_locations s) (w_file_id W p) <> None ->
      In (w_file_id W p) (multiple_locations s) ->
      prim s (LEnter p toks) (set_stack (IFile p toks :: stack s) s)
  | p_expand : forall s l toks, stack s <> [] -> List.length (stack s) <= MAX_RECURSION_DEPTH ->
      prim s (LExpand toks) (set_stack (IExpansion l toks :: stack s) s).

(** a sequence of changes *)
Inductive prims : state -> list label -> state -> Prop :=
  | ps_nil : forall s, prims s [] s
  | ps_cons : forall s1 a s2 ls s3, prim s1 a s2 -> prims s2 ls s3 -> prims s1 (a :: ls) s3.

Lemma prims_app : forall s1 l1 s2 l2 s3, prims s1 l1 s2 -> prims s2 l2 s3 -> prims s1 (l1 ++ l2) s3.
Proof using Type. intros s1 l1 s2 l2 s3 H. induction H; intro H2; [exact H2|]. cbn [app]. econstructor; eauto. Qed.
Definition reach (s s' : state) : Prop := exists ls, prims s ls s'.
Lemma reach_refl : forall s, reach s s.
Proof using Type. intro s. exists []. constructor. Qed.
Lemma reach_trans : forall a b c, reach a b -> reach b c -> reach a c.
Proof using Type. intros a b c [l1 H1] [l2 H2]. exists (l1 ++ l2). eapply prims_app; eassumption. Qed.
Lemma reach_prim : forall a l b, prim a l b -> reach a b.
Proof using Type. intros a l b H. exists [l]. econstructor; [exact H | constructor]. Qed.
Lemma reach_then : forall a l b c, prim a l b -> reach b c -> reach a c.
Proof using Type. intros. eapply reach_trans; [eapply reach_prim; eassumption | assumption]. Qed.
Lemma reach_snoc : forall a l b c, reach a b -> prim b l c -> reach a c.
Proof using Type. intros. eapply reach_trans; [eassumption | eapply reach_prim; eassumption]. Qed.

Lemma stack_next_none : forall st st' : list (@include F P), stack_next st = (None, st') -> st' = [].
Proof using Type.
  induction st as [|i st IH]; intros st' H; [inversion H; reflexivity|]. destruct i as [p [|t ts]|l [|t ts]]; cbn [stack_next] in H; try discriminate; apply IH, H.
Qed.
Lemma inner_next_reach : forall s t s', inner_next s = (t, s') -> reach s s'.
Proof using Type.
  intros s t s' H. unfold inner_next in H. destruct (stack_next (stack s)) as [o st] eqn:E. inversion H; subst. destruct t as [t|].
  - eapply reach_prim. eapply p_read. exact E.
  - pose proof (stack_next_none _ _ E). subst st. eapply reach_prim. apply p_end, E.
Qed.
Lemma stack_next_some : forall (st : list (@include F P)) t st', stack_next st = (Some t, st') -> st' <> [].
Proof using Type.
  induction st as [|i st IH]; intros t st' H; [discriminate|]. destruct i as [p [|t' ts]|l [|t' ts]]; cbn [stack_next] in H; try (eapply IH; exact H); inversion H; subst; discriminate.
Qed.
Lemma inner_next_some : forall (s : state) t s', inner_next s = (Some t, s') -> stack s' <> [].
Proof using Type. intros s t s' H. unfold inner_next in H. destruct (stack_next (stack s)) as [o st] eqn:E. inversion H; subst. cbn [stack set_stack]. eapply stack_next_some; exact E. Qed.
Lemma next_reach : forall s k s', next s k = Ok s' -> (forall l t s1, stack s1 <> [] -> k l t s1 = Ok s' -> reach s1 s') -> reach s s'.
Proof using Type.
  intros s k s' H Hk. unfold next in H. destruct (inner_next s) as [[[l t]|] s1] eqn:E; pose proof E as E0; apply inner_next_reach in E.
  - eapply reach_trans; [exact E | eapply Hk; [eapply inner_next_some; exact E0 | exact H]].
  - inversion H; subst. eapply reach_snoc; [exact E | apply p_err].
Qed.
Lemma fail_reach : forall e s s', fail e s = Ok s' -> reach s s'.
Proof using Type. intros e s s' H. inversion H; subst. eapply reach_prim, p_err. Qed.
Lemma yield_reach : forall s s', yield_newline s = Ok s' -> reach s s'.
Proof using Type. intros s s' H. inversion H; subst. eapply reach_prim, p_output. Qed.
Lemma register_reach : forall e s, reach s (register e s).
Proof using Type. intros. eapply reach_prim, p_err. Qed.
Lemma push_output_reach : forall t s, reach s (push_output t s).
Proof using Type. intros. eapply reach_prim, p_output. Qed.
Lemma flush_reach : forall s, reach s (flush_docs s).
Proof using Type. intro s. unfold flush_docs. destruct (docs_in s); [apply reach_refl|]. eapply reach_then; [apply p_output | eapply reach_prim, p_docs]. Qed.
Lemma emit_reach : forall t s, reach s (emit t s).
Proof using Type. intros t s. unfold emit. destruct (tok_whitespace t); [apply push_output_reach|]. eapply reach_trans; [apply flush_reach | apply push_output_reach]. Qed.
Lemma count_reach : forall t s s', count_interp t s = Ok s' -> reach s s'.
Proof using Type.
  intros t s s' H. unfold count_interp in H. destruct t; try (inversion H; subst; apply reach_refl).
  - inversion H; subst. eapply reach_prim, p_interp.
  - destruct (in_interp s =? 0)%N; [discriminate|]. inversion H; subst. eapply reach_prim, p_interp.
Qed.
Lemma pop_reach : forall s o s', pop_ifdef s = (o, s') -> reach s s'.
Proof using Type. intros s o s' H. unfold pop_ifdef in H. destruct (ifdef_stack s); inversion H; subst; [apply reach_refl | eapply reach_prim, p_ifdefs]. Qed.

Lemma read_params_reach : forall fuel ps v s, match read_params fuel ps v s with PDone _ _ s' => reach s s' | PFail _ s' => reach s s' | PStuck => True end.
Proof using Type.
  induction fuel as [|fuel IH]; intros ps v s; [exact I|]. cbn [read_params]. destruct v; [apply reach_refl|].
  destruct (inner_next s) as [[[l t]|] s1] eqn:E1; apply inner_next_reach in E1; [|exact E1].
  assert (G : forall ps' v', match (match inner_next s1 with
              | (None, s2) => PFail EUnexpectedEof s2
              | (Some (_, t2), s2) =>
                  match t2 with
                  | Lexer.Model.TPunct _ PComma => read_params fuel ps' v' s2
                  | Lexer.Model.TPunct _ PRParen => PDone ps' v' s2
                  | Lexer.Model.TPunct _ PEllipsis =>
                      match inner_next s2 with
                      | (None, s3) => PFail EUnexpectedEof s3
                      | (Some (_, Lexer.Model.TPunct _ PRParen), s3) => PDone ps' true s3
                      | (Some _, s3) => PFail EVariadicNotLast s3
                      end
                  | _ => PFail EParamComma s2
                  end
              end) with PDone _ _ s' => reach s s' | PFail _ s' => reach s s' | PStuck => True end).
  { intros ps' v'. destruct (inner_next s1) as [[[l2 t2]|] s2] eqn:E2; apply inner_next_reach in E2;
      pose proof (reach_trans _ _ _ E1 E2) as E12; [|exact E12].
    destruct t2; try exact E12. destruct p; try exact E12.
    - specialize (IH ps' v' s2). destruct (read_params fuel ps' v' s2); try exact I; eapply reach_trans; eassumption.
    - destruct (inner_next s2) as [[[l3 t3]|] s3] eqn:E3; apply inner_next_reach in E3; pose proof (reach_trans _ _ _ E12 E3); [|assumption].
      destruct t3; try assumption. destruct p; assumption. }
  destruct t; try exact E1; [destruct p; try exact E1|]; apply G.
Qed.
Lemma define_doc_reach : forall d s, reach s (define_doc d s).
Proof using Type. intros d s. unfold define_doc. destruct (snd (fst d)); [apply register_reach|apply reach_refl]. Qed.
Lemma read_subst_reach : forall fuel sb ds s r s', read_subst fuel sb ds s = Some (r, s') -> reach s s'.
Proof using Type.
  induction fuel as [|fuel IH]; intros sb ds s r s' H; [discriminate|]. cbn [read_subst] in H.
  destruct (inner_next s) as [[[l t]|] s1] eqn:E1; apply inner_next_reach in E1.
  - destruct t; try (apply IH in H; eapply reach_trans; eassumption).
    + destruct p; try (apply IH in H; eapply reach_trans; eassumption). inversion H; subst. exact E1.
    + apply IH in H. eapply reach_trans; [exact E1|]. eapply reach_trans; [apply define_doc_reach | exact H].
  - inversion H; subst. eapply reach_trans; [exact E1 | apply register_reach].
Qed.
Lemma add_define_reach : forall n l d s, reach s (add_define W n l d s).
Proof using Type.
  intros n l d s. unfold add_define. destruct (negb (text_eqb n (lit "DEBUG")) || in_environment W s); [|apply reach_refl].
  destruct (dm_get (defines s) n); [destruct (text_eqb n (lit "FILE_DIR"))|]; try (eapply reach_prim, p_define).
  eapply reach_then; [apply p_define | apply register_reach].
Qed.
Lemma finish_define_reach : forall n l ps v r s', finish_define W n l ps v r = Ok s' ->
  exists x s, r = Some (x, s) /\ reach s s'.
Proof using Type.
  intros n l ps v r s' H. unfold finish_define in H. destruct r as [[[[sb ds]|] s]|]; [| |discriminate].
  - exists (Some (sb, ds)), s. split; [reflexivity|]. apply yield_reach in H. eapply reach_trans; [apply add_define_reach | exact H].
  - inversion H; subst. exists None, s'. split; [reflexivity | apply reach_refl].
Qed.
Lemma do_define_reach : forall s s', do_define W s = Ok s' -> reach s s'.
Proof using Type.
  intros s s' H. unfold do_define in H. eapply reach_then; [apply (p_docs s [])|]. eapply next_reach; [exact H|]. clear H.
  intros l t s1 Hne H. destruct t; try (eapply fail_reach; exact H). eapply next_reach; [exact H|]. clear H.
  intros l2 t2 s2 Hne2 H.
  assert (G : forall nm sb ds s0, finish_define W nm l [] false (read_subst (S (available s0)) sb ds s0) = Ok s' -> reach s0 s').
  { intros nm sb ds s0 H0. apply finish_define_reach in H0. destruct H0 as (x & s4 & E & R). apply read_subst_reach in E. eapply reach_trans; eassumption. }
  destruct t2; try (eapply G; exact H).
  - destruct p; try (eapply G; exact H).
    + apply finish_define_reach in H. destruct H as (x & s4 & E & R). inversion E; subst. exact R.
    + destruct ws; [eapply G; exact H|].
      pose proof (read_params_reach (S (available s2)) [] false s2) as RP. destruct (read_params (S (available s2)) [] false s2) as [ps v s4|e s4|]; [| |discriminate].
      * apply finish_define_reach in H. destruct H as (x & s5 & E & R). apply read_subst_reach in E. eapply reach_trans; [exact RP|]. eapply reach_trans; eassumption.
      * apply fail_reach in H. eapply reach_trans; eassumption.
  - apply finish_define_reach in H. destruct H as (x & s4 & E & R). apply read_subst_reach in E. eapply reach_trans; [apply define_doc_reach|]. eapply reach_trans; eassumption.
Qed.
Lemma skip_line_reach : forall fuel s b s', skip_line fuel s = Some (b, s') -> reach s s'.
Proof using Type.
  induction fuel as [|fuel IH]; intros s b s' H; [discriminate|]. cbn [skip_line] in H.
  destruct (inner_next s) as [[[l t]|] s1] eqn:E1; apply inner_next_reach in E1.
  - assert (G : skip_line fuel s1 = Some (b, s') -> reach s s') by (intro G; apply IH in G; eapply reach_trans; eassumption).
    destruct t; try exact (G H). destruct p; try exact (G H). inversion H; subst. exact E1.
  - inversion H; subst. eapply reach_trans; [exact E1 | apply register_reach].
Qed.
Lemma do_undef_reach : forall s s', do_undef s = Ok s' -> reach s s'.
Proof using Type.
  intros s s' H. unfold do_undef in H. eapply next_reach; [exact H|]. clear H. intros l t s1 Hne H. destruct t; try (eapply fail_reach; exact H).
  eapply next_reach; [exact H|]. clear H. intros l2 t2 s2 Hne2 H. destruct t2; try (eapply fail_reach; exact H). destruct p; try (eapply fail_reach; exact H).
  destruct (dm_remove (defines s2) _) as [[[l0 d]|] m] eqn:E; apply yield_reach in H.
  - eapply reach_then; [eapply p_undef; exact E | exact H].
  - eapply reach_then; [eapply p_undef_none; exact E|]. eapply reach_trans; [apply register_reach | exact H].
Qed.
Lemma existsb_In : forall id l, existsb (Z.eqb id) l = true -> In id l.
Proof using Type. intros id l H. apply existsb_exists in H. destruct H as (x & Hx & E). apply Z.eqb_eq in E. subst. exact Hx. Qed.
Lemma include_file_reach : forall p s, stack s <> [] -> reach s (include_file W p s).
Proof using Type.
  intros p s Hst. unfold include_file. destruct (w_open W p) as [toks|] eqn:E; [|apply register_reach].
  destruct (loc_of (include_locations s) (w_file_id W p)) as [l|] eqn:El.
  - destruct (existsb (Z.eqb (w_file_id W p)) (multiple_locations s)) eqn:Em; [|apply register_reach].
    eapply reach_trans; [apply push_output_reach|]. eapply reach_prim. eapply (p_enter_again (push_output _ s)); [exact Hst | exact E | cbn; rewrite El; discriminate | cbn; apply existsb_In, Em].
  - eapply reach_then; [apply (p_output s)|]. eapply reach_prim.
    apply (p_enter_first (push_output (Lexer.Model.TPunct F PNewline) s)); [exact Hst | exact E | exact El].
Qed.
Lemma include_candidate_reach : forall p s, stack s <> [] -> reach s (include_candidate W p s).
Proof using Type.
  intros p s Hst. unfold include_candidate. destruct (w_type W p); try apply register_reach; try (apply include_file_reach; exact Hst); eapply reach_prim, p_resources.
Qed.
Lemma do_include_reach : forall s s', do_include W s = Ok s' -> reach s s'.
Proof using Type.
  intros s s' H. unfold do_include in H. eapply next_reach; [exact H|]. clear H. intros l t s1 Hne H. destruct t; try (eapply fail_reach; exact H).
  eapply next_reach; [exact H|]. clear H. intros l2 t2 s2 Hne2 H. destruct t2; try (eapply fail_reach; exact H). destruct p; try (eapply fail_reach; exact H).
  destruct (w_join W (top_file_path W s2) _) as [c1|]; [|discriminate]. destruct (w_join W (env_file s2) _) as [c2|]; [|discriminate].
  destruct (w_exists W c1); [|destruct (w_exists W c2)]; inversion H; subst; [apply include_candidate_reach, Hne2 | apply include_candidate_reach, Hne2 | apply register_reach].
Qed.
Lemma do_ifdef_reach : forall b s s', do_ifdef W b s = Ok s' -> reach s s'.
Proof using Type.
  intros b s s' H. unfold do_ifdef in H. eapply next_reach; [exact H|]. clear H. intros l t s1 Hne H. destruct t; try (eapply fail_reach; exact H).
  eapply next_reach; [exact H|]. clear H. intros l2 t2 s2 Hne2 H. destruct t2; try (eapply fail_reach; exact H). destruct p; try (eapply fail_reach; exact H).
  apply yield_reach in H. eapply reach_then; [apply p_ifdefs | exact H].
Qed.
Lemma do_message_reach : forall e s s', do_message e s = Ok s' -> reach s s'.
Proof using Type.
  intros e s s' H. unfold do_message in H. eapply next_reach; [exact H|]. clear H. intros l t s1 Hne H. destruct t; try (eapply fail_reach; exact H).
  apply yield_reach in H. eapply reach_then; [apply p_err | exact H].
Qed.
Lemma do_pragma_reach : forall s s', do_pragma s = Ok s' -> reach s s'.
Proof using Type.
  intros s s' H. unfold do_pragma in H. eapply next_reach; [exact H|]. clear H. intros l t s1 Hne H. destruct t; try (eapply fail_reach; exact H).
  destruct (text_eqb _ _); apply yield_reach in H; [|exact H]. eapply reach_then; [apply p_multiple | exact H].
Qed.
Lemma do_directive_reach : forall ev dis s s', (forall a b a', ev a = Ok (b, a') -> reach a a') -> do_directive W ev dis s = Ok s' -> reach s s'.
Proof using Type.
  intros ev dis s s' Hev H. unfold do_directive in H. eapply next_reach; [exact H|]. clear H. intros l t s1 Hne H. destruct t; try (eapply fail_reach; exact H).
  destruct (directive _).
  - destruct (pop_ifdef s1) as [[ifd|] s2] eqn:E; apply pop_reach in E; [apply yield_reach in H | apply fail_reach in H]; eapply reach_trans; eassumption.
  - destruct (pop_ifdef s1) as [[ifd|] s2] eqn:E; apply pop_reach in E; [apply yield_reach in H | apply fail_reach in H]; eapply reach_trans; try eassumption. eapply reach_then; [apply p_ifdefs | exact H].
  - apply do_ifdef_reach in H. exact H.
  - apply do_ifdef_reach in H. exact H.
  - destruct (ev s1) as [[b s2]| |] eqn:E; try discriminate. apply Hev in E. cbn [bind] in H. apply yield_reach in H. eapply reach_trans; [exact E|]. eapply reach_then; [apply p_ifdefs | exact H].
  - destruct (pop_ifdef s1) as [[ifd|] s2] eqn:E; apply pop_reach in E; [|apply fail_reach in H; eapply reach_trans; eassumption].
    destruct (ev s2) as [[b s3]| |] eqn:E3; try discriminate. apply Hev in E3. cbn [bind] in H. apply yield_reach in H. eapply reach_trans; [exact E|]. eapply reach_trans; [exact E3|]. eapply reach_then; [apply p_ifdefs | exact H].
  - destruct dis; [apply yield_reach in H; exact H | apply do_include_reach, H].
  - destruct dis; [|apply do_define_reach, H]. destruct (skip_line (S (available s1)) s1) as [[[|] s2]|] eqn:E; try discriminate; apply skip_line_reach in E.
    + apply yield_reach in H. eapply reach_trans; eassumption.
    + inversion H; subst. exact E.
  - destruct dis; [apply yield_reach in H; exact H | apply do_undef_reach, H].
  - destruct dis; [apply yield_reach in H; exact H | eapply do_message_reach, H].
  - destruct dis; [apply yield_reach in H; exact H | eapply do_message_reach, H].
  - destruct dis; [apply yield_reach in H; exact H | eapply do_pragma_reach, H].
  - eapply fail_reach, H.
Qed.
Lemma read_args_reach : forall fuel args this p s r s', read_args fuel args this p s = Some (r, s') -> reach s s'.
Proof using Type.
  induction fuel as [|fuel IH]; intros args this p s r s' H; [discriminate|]. cbn [read_args] in H.
  destruct (inner_next s) as [[[l t]|] s1] eqn:E1; apply inner_next_reach in E1.
  - destruct t; try (apply IH in H; eapply reach_trans; eassumption).
    destruct p0; try (apply IH in H; eapply reach_trans; eassumption).
    + destruct p; [inversion H; subst; exact E1 | apply IH in H; eapply reach_trans; eassumption].
    + destruct p; apply IH in H; eapply reach_trans; eassumption.
  - inversion H; subst. eapply reach_trans; [exact E1 | apply register_reach].
Qed.

Lemma stack_next_length : forall st t st' , @stack_next F P st = (t, st') -> List.length st' <= List.length st.
Proof using Type.
  induction st as [|i st IH]; intros t st' H; [inversion H; auto|]. destruct i as [p [|t' ts]|l [|t' ts]]; cbn [stack_next] in H; try (apply IH in H; cbn [List.length]; lia); inversion H; subst; cbn [List.length]; lia.
Qed.
Lemma inner_next_length : forall (s : state) t s', inner_next s = (t, s') -> List.length (stack s') <= List.length (stack s).
Proof using Type. intros s t s' H. unfold inner_next in H. destruct (stack_next (stack s)) as [o st] eqn:E. inversion H; subst. cbn. eapply stack_next_length; exact E. Qed.
Lemma read_args_length : forall fuel args this p (s : state) r s', read_args fuel args this p s = Some (r, s') -> List.length (stack s') <= List.length (stack s).
Proof using Type.
  induction fuel as [|fuel IH]; intros args this p s r s' H; [discriminate|]. cbn [read_args] in H.
  destruct (inner_next s) as [[[l t]|] s1] eqn:E1; apply inner_next_length in E1.
  - destruct t; try (apply IH in H; lia).
    destruct p0; try (apply IH in H; lia).
    + destruct p; [inversion H; subst; exact E1 | apply IH in H; lia].
    + destruct p; apply IH in H; lia.
  - inversion H; subst. exact E1.
Qed.
Lemma read_args_some : forall fuel args this p (s : state) r s', read_args fuel args this p s = Some (Some r, s') -> stack s' <> [].
Proof using Type.
  induction fuel as [|fuel IH]; intros args this p s r s' H; [discriminate|]. cbn [read_args] in H.
  destruct (inner_next s) as [[[l t]|] s1] eqn:E1; [|discriminate]. apply inner_next_some in E1.
  destruct t; try (eapply IH; exact H). destruct p0; try (eapply IH; exact H).
  - destruct p; [inversion H; subst; exact E1 | eapply IH; exact H].
  - destruct p; eapply IH; exact H.
Qed.
Lemma call_macro_reach : forall i ps sb v s s', List.length (stack s) <= MAX_RECURSION_DEPTH -> call_macro W i ps sb v s = Ok s' -> reach s s'.
Proof using Type.
  intros i ps sb v s s' Hd H. unfold call_macro, next in H. destruct (inner_next s) as [[[l t]|] s1] eqn:E1; pose proof (inner_next_length _ _ _ E1) as L1; apply inner_next_reach in E1;
    [|inversion H; subst; eapply reach_trans; [exact E1 | apply register_reach]].
  eapply reach_trans; [exact E1|].
  assert (G : forall t, (do s2 <- count_interp t (push_output (Lexer.Model.TIdent F i false) s1); Ok (push_output t s2)) = Ok s' -> reach s1 s').
  { intros t0 G. destruct (count_interp t0 _) as [s2| |] eqn:E; try discriminate. apply count_reach in E. cbn [bind] in G. inversion G; subst.
    eapply reach_trans; [apply push_output_reach|]. eapply reach_trans; [exact E | apply push_output_reach]. }
  destruct t; try (eapply G; exact H). destruct p; try (eapply G; exact H).
  destruct (read_args (S (available s1)) [] [] 0 s1) as [[[args|] s2]|] eqn:E2; try discriminate; pose proof (read_args_length _ _ _ _ _ _ _ E2) as L2; pose proof E2 as E2'; apply read_args_reach in E2; [|inversion H; subst; exact E2].
  eapply reach_trans; [exact E2|]. destruct (_ =? _); [|eapply fail_reach; exact H]. destruct (paste W _ _ _ _); [|eapply fail_reach; exact H].
  inversion H; subst. eapply reach_prim, p_expand; [eapply read_args_some; exact E2' | lia].
Qed.
Lemma flush_stack : forall s : state, stack (flush_docs s) = stack s.
Proof using Type. intro s. unfold flush_docs. destruct (docs_in s); reflexivity. Qed.
Lemma do_ident_reach : forall i ws s s', stack s <> [] -> do_ident W i ws s = Ok s' -> reach s s'.
Proof using Type.
  intros i ws s s' Hst H. unfold do_ident in H. eapply reach_trans; [apply flush_reach|].
  destruct (text_eqb i _); [inversion H; subst; apply push_output_reach|].
  destruct (text_eqb i _); [inversion H; subst; apply push_output_reach|].
  destruct (after_defined _); [inversion H; subst; apply push_output_reach|].
  destruct (dm_get _ i) as [[l d]|]; [|inversion H; subst; apply emit_reach].
  destruct (Nat.ltb_spec MAX_RECURSION_DEPTH (List.length (stack (flush_docs s)))) as [Hd|Hd].
  - inversion H; subst. eapply reach_trans; [apply register_reach | apply emit_reach].
  - destruct d as [sb ds|ps sb v ds]; [inversion H; subst; eapply reach_prim, p_expand; [rewrite flush_stack; exact Hst | exact Hd] | eapply call_macro_reach; eassumption].
Qed.
Lemma real_next_reach : forall ev t c s s', stack s <> [] -> (forall a b a', ev a = Ok (b, a') -> reach a a') -> real_next W ev t c s = Ok s' -> reach s s'.
Proof using Type.
  intros ev t c s s' Hst Hev H. unfold real_next in H.
  assert (G : forall t, (do s1 <- count_interp t s; Ok (emit t s1)) = Ok s' -> reach s s').
  { intros t0 G. destruct (count_interp t0 s) as [s1| |] eqn:E; try discriminate. apply count_reach in E. cbn [bind] in G. inversion G; subst. eapply reach_trans; [exact E | apply emit_reach]. }
  destruct t; try (destruct (negb c && is_disabled s); [inversion H; subst; apply reach_refl|]; try (eapply G; exact H)).
  - destruct p; try (destruct (negb c && is_disabled s); [inversion H; subst; apply reach_refl | eapply G; exact H]). eapply do_directive_reach; eassumption.
  - eapply do_ident_reach; [exact Hst | exact H].
  - destruct t; [|eapply G; exact H]. inversion H; subst. eapply reach_prim, p_docs.
Qed.
Lemma evaluate_reach : forall pm s b s', (forall a a', pm a = Ok a' -> reach a a') -> evaluate W pm s = Ok (b, s') -> reach s s'.
Proof using Type.
  intros pm s b s' Hp H. unfold evaluate in H. destruct (pm s) as [s1| |] eqn:E; try discriminate. apply Hp in E. cbn [bind] in H. eapply reach_trans; [exact E|].
  destruct (is_disabled s1); [inversion H; subst; eapply reach_prim, p_output|]. destruct (w_evaluate W _ _); inversion H; subst; [eapply reach_prim, p_output|].
  eapply reach_then; [apply p_output | apply register_reach].
Qed.
Lemma pump_reach : forall fuel s s', pump W fuel s = Ok s' -> reach s s'.
Proof using Type.
  induction fuel as [|fuel IH]; intros s s' H; [discriminate|]. cbn [pump] in H.
  destruct (inner_next s) as [[[l t]|] s1] eqn:E1; pose proof E1 as E0; apply inner_next_reach in E1; [|inversion H; subst; exact E1].
  apply inner_next_some in E0. eapply reach_trans; [exact E1|]. eapply reach_then; [apply (p_loc s1 l)|].
  assert (G : (do s3 <- real_next W (evaluate W (pump W fuel)) t true (set_loc l s1); pump W fuel s3) = Ok s' -> reach (set_loc l s1) s').
  { intro G. destruct (real_next W _ t true _) as [s3| |] eqn:E; try discriminate. cbn [bind] in G. apply real_next_reach in E; [|exact E0|intros a b a' Ha; eapply evaluate_reach; [exact IH | exact Ha]].
    eapply reach_trans; [exact E | apply IH, G]. }
  destruct t; try exact (G H). destruct p; try exact (G H). inversion H; subst. apply reach_refl.
Qed.
Lemma close_reach : forall n s, reach s (close_ifdefs n s).
Proof using Type.
  induction n as [|n IH]; intro s; [apply reach_refl|]. cbn [close_ifdefs]. destruct (pop_ifdef s) as [[i|] s1] eqn:E; apply pop_reach in E; [|exact E].
  eapply reach_trans; [exact E|]. eapply reach_then; [apply p_err | apply IH].
Qed.
Lemma run_reach : forall fuel s ts s', run W fuel s = Ok (ts, s') -> reach s s'.
Proof using Type.
  induction fuel as [|fuel IH]; intros s ts s' H; [discriminate|]. cbn [run] in H. destruct (output s) as [|t out].
  - destruct (inner_next s) as [[[l t]|] s1] eqn:E1; pose proof E1 as E0; apply inner_next_reach in E1.
    + apply inner_next_some in E0. eapply reach_trans; [exact E1|]. eapply reach_then; [apply (p_loc s1 l)|]. destruct (real_next W _ t false _) as [s2| |] eqn:E; try discriminate.
      cbn [bind] in H. apply real_next_reach in E; [|exact E0|intros a b a' Ha; eapply evaluate_reach; [apply pump_reach | exact Ha]]. eapply reach_trans; [exact E | eapply IH, H].
    + inversion H; subst. eapply reach_trans; [exact E1 | apply close_reach].
  - destruct (run W fuel (set_output out s)) as [[ts' s2]| |] eqn:E; try discriminate. cbn [bind] in H. inversion H; subst. eapply reach_then; [apply p_output | eapply IH, E].
Qed.
End STEPS.
