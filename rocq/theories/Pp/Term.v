(** C41: preprocessing ends. *)
From Coq Require Import List ZArith NArith Bool Lia Arith String.
From Verif Require Import Common.Text Common.Order Loc.Model Lexer.Punct.
From Verif Require Lexer.Model.
From Verif Require Import Pp.Model Pp.Steps Pp.Flat.
Import ListNotations.
Open Scope nat_scope.

(** *** The order *)
Definition below (xs ys : list nat) : Prop := exists p x y a b, xs = p ++ x :: a /\ ys = p ++ y :: b /\ x < y.
Definition below_in (d : nat) (xs ys : list nat) : Prop := below xs ys /\ List.length xs <= d.
Lemma below_inv : forall xs y ys, below xs (y :: ys) -> exists x xs', xs = x :: xs' /\ (x < y \/ x = y /\ below xs' ys).
Proof.
  intros xs y ys (p & x & y' & a & b & -> & E & L). destruct p as [|p0 p].
  - cbn [app] in *. injection E as <- <-. exists x, a. split; [reflexivity | left; exact L].
  - cbn [app] in *. injection E as <- ->. exists y, (p ++ x :: a). split; [reflexivity|]. right. split; [reflexivity|]. exists p, x, y', a, b. auto.
Qed.
Lemma below_wf : forall d xs, List.length xs <= d -> Acc (below_in d) xs.
Proof.
  assert (NIL : forall d, Acc (below_in d) []) by (intro d; constructor; intros ys [(p & x & y & a & b & _ & E & _) _]; destruct p; discriminate E).
  induction d as [|d IH]; intros xs L; [destruct xs; [apply NIL | cbn [List.length] in L; lia]|].
  destruct xs as [|x xs]; [apply NIL|]. cbn [List.length] in L.
  revert xs L. induction x as [x IHx] using lt_wf_ind. intros xs L. assert (L' : List.length xs <= d) by lia. clear L. pose proof (IH xs L') as A. induction A as [xs _ IHA].
  constructor. intros ys [Hb Hl]. apply below_inv in Hb. destruct Hb as (y & ys' & -> & [Hlt|[-> Hb]]); cbn [List.length] in Hl.
  - apply IHx; [exact Hlt | lia].
  - apply IHA; [split; [exact Hb | lia] | lia].
Qed.
Lemma below_trans : forall a b c, below a b -> below b c -> below a c.
Proof.
  intros xs ys zs. revert xs zs. induction ys as [|y ys IH]; intros xs zs H1 H2.
  - destruct H1 as (p & x & y & a & b & _ & E & _). destruct p; discriminate E.
  - apply below_inv in H1. destruct H1 as (x & xs' & -> & H1). destruct zs as [|z zs]; [destruct H2 as (p & ? & ? & ? & ? & _ & E & _); destruct p; discriminate E|].
    apply below_inv in H2. destruct H2 as (y' & ys' & E & H2). injection E as <- <-.
    destruct H1 as [L1|[-> H1]], H2 as [L2|[-> H2]].
    + exists [], x, z, xs', zs. repeat split. lia.
    + exists [], x, z, xs', zs. repeat split. exact L1.
    + exists [], y, z, xs', zs. repeat split. exact L2.
    + destruct (IH _ _ H1 H2) as (p & u & v & a & b & -> & -> & L). exists (z :: p), u, v, a, b. repeat split. exact L.
Qed.
Lemma below_more : forall a b e, below a b -> below (a ++ e) b.
Proof. intros xs ys e (p & x & y & a & b & -> & -> & L). exists p, x, y, (a ++ e), b. rewrite <- app_assoc. auto. Qed.
Lemma below_ext : forall a b e, below a (b ++ e) -> below a b \/ exists e', a = b ++ e'.
Proof.
  intros xs ys e. revert xs. induction ys as [|y ys IH]; intros xs H; [right; exists xs; reflexivity|].
  cbn [app] in H. apply below_inv in H. destruct H as (x & xs' & -> & [L|[-> H]]); [left; exists [], x, y, xs', ys; auto|].
  destruct (IH _ H) as [(p & u & v & a & b & -> & -> & L)|(e' & ->)]; [left; exists (y :: p), u, v, a, b; auto | right; exists e'; reflexivity].
Qed.

Section TERM.
Context {F P : Type}.
Notation token := (Lexer.Model.token F).
Notation ltok := (loc * token)%type.
Notation TPunct := (Lexer.Model.TPunct F).
Notation TIdent := (Lexer.Model.TIdent F).
Notation state := (@state F P).
Notation include := (@include F P).
Variable W : @world F P.

(** how many tokens each part of the stack still has, from the bottom *)
Definition counts (st : list include) : list nat := rev (map (fun i => List.length (own i)) st).
Lemma counts_next : forall (st st' : list include) t, stack_next st = (Some t, st') -> below (counts st') (counts st).
Proof using Type.
  induction st as [|i st IH]; intros st' t H; [discriminate|]. unfold counts. cbn [map rev].
  assert (EMPTY : List.length (own i) = 0 -> stack_next st = (Some t, st') -> below (counts st') (counts st ++ [List.length (own i)])).
  { intros _ H0. destruct (IH _ _ H0) as (p & x & y & a & b & -> & -> & L). exists p, x, y, a, (b ++ [List.length (own i)]). rewrite <- app_assoc. auto. }
  destruct i as [p [|x ts]|l [|x ts]]; cbn [stack_next] in H; try (apply EMPTY; [reflexivity | exact H]); inversion H; subst; cbn [map rev own List.length];
    exists (counts st), (List.length ts), (S (List.length ts)), [], []; rewrite ?map_length; auto.
Qed.
Lemma counts_push : forall i (st : list include), counts (i :: st) = counts st ++ [List.length (own i)].
Proof using Type. reflexivity. Qed.

(** the stack later is empty, or below the stack before, or on top of it *)
Definition later (st' st : list include) : Prop := st' = [] \/ below (counts st') (counts st) \/ exists e, counts st' = counts st ++ e.
Lemma later_refl : forall st, later st st.
Proof using Type. intro st. right. right. exists []. symmetry. apply app_nil_r. Qed.
Lemma later_prim : forall s a s' st, prim W s a s' -> later (stack s) st -> later (stack s') st.
Proof using Type.
  intros s a s' st H L. inversion H; subst; cbn [stack set_stack set_loc set_output set_docs register set_interp set_ifdefs set_resources set_defines set_multiple set_include_locations]; try exact L.
  - left. reflexivity.
  - pose proof (counts_next _ _ _ H0) as B. destruct L as [E|[L|(e & E)]].
    + rewrite E in H0. discriminate.
    + right. left. eapply below_trans; eassumption.
    + rewrite E in B. apply below_ext in B. destruct B as [B|(e' & B)]; [right; left; exact B | right; right; exists e'; exact B].
  - destruct L as [E|[L|(e & E)]]; [congruence | right; left | right; right]; rewrite counts_push; [apply below_more, L | rewrite E, <- app_assoc; eexists; reflexivity].
  - destruct L as [E|[L|(e & E)]]; [congruence | right; left | right; right]; rewrite counts_push; [apply below_more, L | rewrite E, <- app_assoc; eexists; reflexivity].
  - destruct L as [E|[L|(e & E)]]; [congruence | right; left | right; right]; rewrite counts_push; [apply below_more, L | rewrite E, <- app_assoc; eexists; reflexivity].
Qed.
Lemma later_prims : forall s ls s', prims W s ls s' -> forall st, later (stack s) st -> later (stack s') st.
Proof using Type. intros s ls s' H. induction H; intros st L; [exact L|]. apply IHprims. eapply later_prim; eassumption. Qed.
(** after a token was read *)
Lemma reach_below : forall s t s1 s', inner_next s = (Some t, s1) -> reach W s1 s' -> stack s' = [] \/ below (counts (stack s')) (counts (stack s)).
Proof using Type.
  intros s t s1 s' H [ls R]. unfold inner_next in H. destruct (stack_next (stack s)) as [o st] eqn:E. inversion H; subst. pose proof (counts_next _ _ _ E) as B.
  destruct (later_prims _ _ _ R _ (later_refl _)) as [L|[L|(e & L)]]; cbn [stack set_stack] in L; [left; exact L | right; eapply below_trans; eassumption | right; rewrite L; apply below_more, B].
Qed.

(** *** The depth of the stack is bounded *)
Variable files : list Z.
Hypothesis files_all : forall p toks, w_open W p = Some toks -> In (w_file_id W p) files.
Definition nfiles (st : list include) : nat := List.length (filter (fun i => match i with IFile _ _ => true | _ => false end) st).
Fixpoint deep (st : list include) : Prop :=
  match st with [] => True | i :: r => deep r /\ List.length st <= S MAX_RECURSION_DEPTH + nfiles st end.
Record okay (s : state) : Prop := {
  k_deep : deep (stack s);
  k_files : nfiles (stack s) <= 1 + List.length (include_locations s);
  k_once : NoDup (map fst (include_locations s));
  k_in : incl (map fst (include_locations s)) files
}.
Definition limit : nat := S MAX_RECURSION_DEPTH + 1 + List.length files.
Lemma okay_limit : forall s, okay s -> List.length (counts (stack s)) <= limit.
Proof using Type.
  intros s [D Fi N I]. unfold counts. rewrite rev_length, map_length. pose proof (NoDup_incl_length N I) as L. rewrite map_length in L. unfold limit.
  destruct (stack s) as [|i st]; [cbn; lia|]. cbn [deep] in D. destruct D as [_ D]. lia.
Qed.
Lemma deep_next : forall (st st' : list include) o, stack_next st = (o, st') -> deep st -> deep st' /\ nfiles st' <= nfiles st.
Proof using Type.
  induction st as [|i st IH]; intros st' o H D; [inversion H; subst; split; [exact D | lia]|].
  assert (POP : stack_next st = (o, st') -> deep st' /\ nfiles st' <= nfiles (i :: st)).
  { intro H0. destruct (IH _ _ H0 (proj1 D)) as [A B]. split; [exact A|]. unfold nfiles in *. cbn [filter]. destruct i; cbn [List.length]; lia. }
  destruct i as [p [|x ts]|l [|x ts]]; cbn [stack_next] in H; try (apply POP; exact H); inversion H; subst; (split; [exact D | apply le_n]).
Qed.
Lemma okay_prim : forall s a s', prim W s a s' -> multiple_locations s' = [] -> okay s -> okay s'.
Proof using files_all.
  intros s a s' H M K. destruct K as [D Fi N I]. inversion H; subst; constructor; cbn [stack include_locations set_stack set_loc set_output set_docs register set_interp set_ifdefs set_resources set_defines set_multiple set_include_locations]; try assumption;
    try (cbn; exact Logic.I); try (cbn; lia).
  - apply (proj1 (deep_next _ _ _ H0 D)).
  - pose proof (proj2 (deep_next _ _ _ H0 D)). lia.
  - cbn [deep]. split; [exact D|]. unfold nfiles in *. cbn [filter List.length]. destruct (stack s) as [|i st]; [cbn; lia|]. cbn [deep] in D. unfold nfiles in D. lia.
  - unfold nfiles in *. cbn [filter List.length]. lia.
  - cbn [map fst]. constructor; [|exact N]. intro C. clear -C H2. revert C H2. generalize (include_locations s). induction l as [|[k v] l IH]; [intros []|]. cbn [map fst loc_of]. intros C E.
    destruct (Z.eqb_spec k (w_file_id W p)) as [|Hne]; [discriminate|]. destruct C as [C|C]; [exact (Hne C) | exact (IH C E)].
  - cbn [map fst]. intros x [<-|Hx]; [eapply files_all; eassumption | apply I, Hx].
  - cbn [multiple_locations set_stack] in M. rewrite M in H3. destruct H3.
  - cbn [multiple_locations set_stack] in M. rewrite M in H3. destruct H3.
  - cbn [deep]. split; [exact D|]. cbn [List.length]. unfold MAX_RECURSION_DEPTH in *. lia.
Qed.
Lemma multiple_prims : forall s ls s', prims W s ls s' -> multiple_locations s' = [] -> multiple_locations s = [].
Proof using Type.
  intros s ls s' H. induction H as [s|s1 a s2 ls s3 H Hs IH]; intro M; [exact M|]. specialize (IH M). inversion H; subst; cbn in IH; try exact IH. discriminate.
Qed.
Lemma okay_prims : forall s ls s', prims W s ls s' -> multiple_locations s' = [] -> okay s -> okay s'.
Proof using files_all.
  intros s ls s' H. induction H as [s|s1 a s2 ls s3 H Hs IH]; intros M K; [exact K|]. apply IH; [exact M|]. eapply okay_prim; [exact H | eapply multiple_prims; eassumption | exact K].
Qed.
Lemma okay_reach : forall s s', reach W s s' -> multiple_locations s' = [] -> okay s -> okay s'.
Proof using files_all. intros s s' [ls H] M K. eapply okay_prims; eassumption. Qed.

(** *** The inner loops have fuel enough *)
Lemma available_next : forall (s : state) t s', inner_next s = (Some t, s') -> available s = S (available s').
Proof using Type.
  intros s t s' H. unfold inner_next in H. destruct (stack_next (stack s)) as [o st] eqn:E. inversion H; subst. rewrite !available_flat. cbn [stack set_stack].
  rewrite (flat_some _ _ _ E). reflexivity.
Qed.
Lemma read_args_enough : forall fuel args this p (s : state), available s < fuel -> read_args fuel args this p s <> None.
Proof using Type.
  induction fuel as [|fuel IH]; intros args this p s L; [lia|]. cbn [read_args]. destruct (inner_next s) as [[[l t]|] s1] eqn:E; [|discriminate]. apply available_next in E.
  destruct t; try (apply IH; lia). destruct p0; try (apply IH; lia); destruct p; try (apply IH; lia). discriminate.
Qed.
Lemma available_doc : forall d (s : state), available (define_doc d s) = available s.
Proof using Type. intros d s. unfold define_doc. destruct (snd (fst d)); reflexivity. Qed.
Lemma read_subst_enough : forall fuel sb ds (s : state), available s < fuel -> read_subst fuel sb ds s <> None.
Proof using Type.
  induction fuel as [|fuel IH]; intros sb ds s L; [lia|]. cbn [read_subst]. destruct (inner_next s) as [[[l t]|] s1] eqn:E; [|discriminate]. apply available_next in E.
  destruct t; try (apply IH; lia); [destruct p; try (apply IH; lia); discriminate|]. apply IH. rewrite available_doc. lia.
Qed.
Lemma skip_line_enough : forall fuel (s : state), available s < fuel -> skip_line fuel s <> None.
Proof using Type.
  induction fuel as [|fuel IH]; intros s L; [lia|]. cbn [skip_line]. destruct (inner_next s) as [[[l t]|] s1] eqn:E; [|discriminate]. apply available_next in E.
  destruct t; try (apply IH; lia). destruct p; try (apply IH; lia). discriminate.
Qed.
Lemma read_params_enough : forall fuel ps v (s : state), available s < fuel -> read_params fuel ps v s <> PStuck.
Proof using Type.
  induction fuel as [|fuel IH]; intros ps v s L; [lia|]. cbn [read_params]. destruct v; [discriminate|]. destruct (inner_next s) as [[[l t]|] s1] eqn:E; [|discriminate]. apply available_next in E.
  assert (G : forall ps' v', (match inner_next s1 with
              | (None, s2) => PFail EUnexpectedEof s2
              | (Some (_, t2), s2) =>
                  match t2 with
                  | Lexer.Model.TPunct _ PComma => read_params fuel ps' v' s2
                  | Lexer.Model.TPunct _ PRParen => PDone ps' v' s2
                  | Lexer.Model.TPunct _ PEllipsis =>
                      match inner_next s2 with
                      | (None, s3) => PFail EUnexpectedEof s3
                      | (Some (_, Lexer.Model.TPunct _ PRParen), s3) => PDone ps' true s3
                      | (Some _, s3) => PFail EVariadicNotLast s3
                      end
                  | _ => PFail EParamComma s2
                  end
              end) <> PStuck).
  { intros ps' v'. destruct (inner_next s1) as [[[l2 t2]|] s2] eqn:E2; [|discriminate]. apply available_next in E2. destruct t2; try discriminate. destruct p; try discriminate; [apply IH; lia|].
    destruct (inner_next s2) as [[[l3 t3]|] s3]; [|discriminate]. destruct t3; try discriminate. destruct p; discriminate. }
  destruct t; try discriminate; [destruct p; try discriminate|]; apply G.
Qed.
Lemma finish_define_enough : forall n l ps v r, r <> None -> finish_define (P := P) W n l ps v r <> Stuck.
Proof using Type. intros n l ps v r H. unfold finish_define. destruct r as [[[[sb ds]|] s]|]; [discriminate | discriminate | elim H; reflexivity]. Qed.
Lemma next_stuck : forall (s : state) (k : loc -> token -> state -> res state), next s k = Stuck -> exists l t s1, inner_next s = (Some (l, t), s1) /\ k l t s1 = Stuck.
Proof using Type. intros s k H. unfold next in H. destruct (inner_next s) as [[[l t]|] s1] eqn:E; [|discriminate]. exists l, t, s1. split; [reflexivity | exact H]. Qed.
Ltac nx H := apply next_stuck in H; let l := fresh "l" in let t := fresh "t" in let s1 := fresh "s1" in destruct H as (l & t & s1 & _ & H).
Lemma do_define_enough : forall s : state, do_define W s <> Stuck.
Proof using Type.
  intros s H. unfold do_define in H. nx H. destruct t; try discriminate H. nx H.
  assert (G : forall n' l' ps v sb ds s0, finish_define W n' l' ps v (read_subst (S (available s0)) sb ds s0) <> Stuck) by (intros; apply finish_define_enough, read_subst_enough; lia).
  destruct t; try (eapply G; exact H).
  - destruct p; try (eapply G; exact H).
    + eapply finish_define_enough; [|exact H]. discriminate.
    + destruct ws; [eapply G; exact H|]. match type of H with context [read_params _ _ _ ?x] => pose proof (read_params_enough (S (available x)) [] false x ltac:(lia)); destruct (read_params (S (available x)) [] false x) end; [eapply G; exact H | discriminate | congruence].
  - eapply finish_define_enough; [|exact H]. apply read_subst_enough. rewrite ?available_doc. lia.
Qed.

(** the state in which the condition of an #if or #elif is evaluated, from the state after the # *)
Definition condition_of (s a : state) : Prop :=
  exists l n ws s1, inner_next s = (Some (l, TIdent n ws), s1) /\
    (directive n = DIf /\ a = s1 \/ directive n = DElif /\ exists i, pop_ifdef s1 = (Some i, a)).
Lemma directive_stuck : forall ev dis (s : state), do_directive W ev dis s = Stuck -> exists a, condition_of s a /\ ev a = Stuck.
Proof using Type.
  intros ev dis s H. unfold do_directive in H. apply next_stuck in H. destruct H as (l & t & s1 & E & H). destruct t; try discriminate H. destruct (directive _) eqn:Ed.
  - destruct (pop_ifdef s1) as [[ifd|] s2]; discriminate.
  - destruct (pop_ifdef s1) as [[ifd|] s2]; discriminate.
  - unfold do_ifdef in H. nx H. destruct t; try discriminate H. nx H. destruct t; try discriminate H. destruct p; discriminate H.
  - unfold do_ifdef in H. nx H. destruct t; try discriminate H. nx H. destruct t; try discriminate H. destruct p; discriminate H.
  - exists s1. split; [exists l, i, ws, s1; auto|]. destruct (ev s1) as [[b s2]| |]; try discriminate. reflexivity.
  - destruct (pop_ifdef s1) as [[ifd|] s2] eqn:Ep; [|discriminate]. exists s2. split; [exists l, i, ws, s1; split; [exact E|]; right; split; [exact Ed | exists ifd; exact Ep]|]. destruct (ev s2) as [[b s3]| |]; try discriminate. reflexivity.
  - destruct dis; [discriminate|]. unfold do_include in H. nx H. destruct t; try discriminate H. nx H. destruct t; try discriminate H. destruct p; try discriminate H.
    destruct (w_join W _ _); [|discriminate]. destruct (w_join W _ _); [|discriminate]. destruct (w_exists W _); [discriminate|]. destruct (w_exists W _); discriminate.
  - destruct dis; [|elim (do_define_enough _ H)]. pose proof (skip_line_enough (S (available s1)) s1 ltac:(lia)). destruct (skip_line (S (available s1)) s1) as [[[|] s2]|]; try discriminate. congruence.
  - destruct dis; [discriminate|]. unfold do_undef in H. nx H. destruct t; try discriminate H. nx H. destruct t; try discriminate H. destruct p; try discriminate H. destruct (dm_remove _ _) as [[[? ?]|] ?]; discriminate.
  - destruct dis; [discriminate|]. unfold do_message in H. nx H. destruct t; discriminate H.
  - destruct dis; [discriminate|]. unfold do_message in H. nx H. destruct t; discriminate H.
  - destruct dis; [discriminate|]. unfold do_pragma in H. nx H. destruct t; discriminate H.
  - discriminate.
Qed.
Lemma count_stuck : forall t (s : state), count_interp t s <> Stuck.
Proof using Type. intros t s. unfold count_interp. destruct t; try discriminate. destruct (_ =? _)%N; discriminate. Qed.
Lemma real_next_stuck : forall ev t c (s : state), real_next W ev t c s = Stuck -> t = TPunct PHash /\ exists a, condition_of s a /\ ev a = Stuck.
Proof using Type.
  intros ev t c s H. unfold real_next in H.
  assert (G : forall t, (do s1 <- count_interp t s; Ok (emit t s1)) <> Stuck).
  { intros t0 G. pose proof (count_stuck t0 s). destruct (count_interp t0 s); try discriminate. congruence. }
  destruct t; try (destruct (negb c && is_disabled s); [discriminate | try (elim (G _ H))]).
  - destruct p; try (destruct (negb c && is_disabled s); [discriminate | elim (G _ H)]). split; [reflexivity|]. eapply directive_stuck, H.
  - unfold do_ident in H. destruct (text_eqb _ _); [discriminate|]. destruct (text_eqb _ _); [discriminate|]. destruct (after_defined _); [discriminate|].
    destruct (dm_get _ _) as [[l d]|]; [|discriminate]. destruct (_ <? _); [discriminate|]. destruct d; [discriminate|]. unfold call_macro in H. nx H.
    assert (G2 : forall t s1, (do s2 <- count_interp t (push_output (TIdent i false) s1); Ok (push_output t s2)) <> (Stuck : res state)).
    { intros t0 s2 G2. pose proof (count_stuck t0 (push_output (TIdent i false) s2)). destruct (count_interp t0 _); try discriminate. congruence. }
    destruct t; try (elim (G2 _ _ H)). destruct p; try (elim (G2 _ _ H)).
    pose proof (read_args_enough (S (available s1)) [] [] 0 s1 ltac:(lia)). destruct (read_args _ _ _ _ _) as [[[args|] s3]|]; [|discriminate|congruence].
    destruct (_ =? _); [|discriminate]. destruct (paste W _ _ _ _); discriminate.
  - destruct t; [discriminate | elim (G _ H)].
Qed.

(** *** More fuel gives the same *)
Definition less_stuck {A B : Type} (f g : A -> res B) : Prop := forall a, f a <> Stuck -> g a = f a.
Lemma directive_mono : forall ev ev' dis (s : state), less_stuck ev ev' -> do_directive W ev dis s <> Stuck -> do_directive W ev' dis s = do_directive W ev dis s.
Proof using Type.
  intros ev ev' dis s L H. unfold do_directive, next in *. destruct (inner_next s) as [[[l t]|] s1]; [|reflexivity]. destruct t; try reflexivity. destruct (directive _); try reflexivity.
  - rewrite L; [reflexivity|]. intro C. rewrite C in H. apply H. reflexivity.
  - destruct (pop_ifdef s1) as [[ifd|] s2]; [|reflexivity]. rewrite L; [reflexivity|]. intro C. rewrite C in H. apply H. reflexivity.
Qed.
Lemma real_next_mono : forall ev ev' t c (s : state), less_stuck ev ev' -> real_next W ev t c s <> Stuck -> real_next W ev' t c s = real_next W ev t c s.
Proof using Type.
  intros ev ev' t c s L H. unfold real_next in *. destruct t; try reflexivity. destruct p; try reflexivity. apply directive_mono; assumption.
Qed.
Lemma evaluate_mono : forall pm pm', less_stuck pm pm' -> less_stuck (evaluate W pm) (evaluate W pm').
Proof using Type.
  intros pm pm' L s H. unfold evaluate in *. rewrite L; [reflexivity|]. intro C. rewrite C in H. apply H. reflexivity.
Qed.
Lemma pump_mono : forall f f', f <= f' -> less_stuck (pump W f) (pump W f').
Proof using Type.
  induction f as [|f IH]; intros f' L s H; [elim H; reflexivity|]. destruct f' as [|f']; [lia|]. cbn [pump] in *. destruct (inner_next s) as [[[l t]|] s1]; [|reflexivity].
  assert (M : less_stuck (pump W f) (pump W f')) by (apply IH; lia).
  assert (G : (do s3 <- real_next W (evaluate W (pump W f)) t true (set_loc l s1); pump W f s3) <> Stuck ->
    (do s3 <- real_next W (evaluate W (pump W f')) t true (set_loc l s1); pump W f' s3) = (do s3 <- real_next W (evaluate W (pump W f)) t true (set_loc l s1); pump W f s3)).
  { intro G. rewrite (real_next_mono (evaluate W (pump W f)) (evaluate W (pump W f'))); [|apply evaluate_mono, M | intro C; rewrite C in G; apply G; reflexivity].
    destruct (real_next W (evaluate W (pump W f)) t true (set_loc l s1)) as [s3| |]; try reflexivity. cbn [bind] in *. apply M, G. }
  destruct t; try exact (G H). destruct p; try exact (G H). reflexivity.
Qed.
Lemma run_mono : forall f f', f <= f' -> less_stuck (run W f) (run W f').
Proof using Type.
  induction f as [|f IH]; intros f' L s H; [elim H; reflexivity|]. destruct f' as [|f']; [lia|]. cbn [run] in *.
  assert (M : less_stuck (run W f) (run W f')) by (apply IH; lia). assert (MP : less_stuck (pump W f) (pump W f')) by (apply pump_mono; lia).
  destruct (output s) as [|t out].
  - destruct (inner_next s) as [[[l t]|] s1]; [|reflexivity]. rewrite (real_next_mono (evaluate W (pump W f)) (evaluate W (pump W f'))); [|apply evaluate_mono, MP | intro C; rewrite C in H; apply H; reflexivity].
    destruct (real_next W (evaluate W (pump W f)) t false (set_loc l s1)) as [s3| |]; try reflexivity. cbn [bind] in *. apply M, H.
  - rewrite M; [reflexivity|]. intro C. rewrite C in H. apply H. reflexivity.
Qed.

(** *** The states that a run passes through; [cond] = inside a condition *)
Inductive visits : bool -> state -> state -> Prop :=
  | v_here : forall c s, visits c s s
  | v_next : forall c s l t s1 fuel s2 s', inner_next s = (Some (l, t), s1) -> (c = true -> t <> TPunct PNewline) ->
      real_next W (evaluate W (pump W fuel)) t c (set_loc l s1) = Ok s2 ->
      visits c (if c then s2 else set_output [] s2) s' -> visits c s s'
  | v_condition : forall c s l s1 a s', inner_next s = (Some (l, TPunct PHash), s1) -> condition_of (set_loc l s1) a ->
      visits true a s' -> visits c s s'.

Lemma condition_reach : forall s a, condition_of s a -> reach W s a.
Proof using Type.
  intros s a (l & n & ws & s1 & E & [[_ ->]|(_ & i & Ep)]); apply inner_next_reach with (W := W) in E; [exact E|]. apply pop_reach with (W := W) in Ep. eapply reach_trans; eassumption.
Qed.
Lemma evaluate_stuck : forall pm (s : state), evaluate W pm s = Stuck -> pm s = Stuck.
Proof using Type. intros pm s H. unfold evaluate in H. destruct (pm s) as [s1| |]; try discriminate; [|reflexivity]. cbn [bind] in H. destruct (is_disabled s1); [discriminate|]. destruct (w_evaluate W _ _); discriminate. Qed.

(** one step: the token [t] was read; conditions that are evaluated in states with a smaller stack end *)
Lemma step_ends : forall c s l t s1, inner_next s = (Some (l, t), s1) ->
  (forall a, condition_of (set_loc l s1) a -> t = TPunct PHash -> exists fuel, pump W fuel a <> Stuck) ->
  exists fuel, real_next W (evaluate W (pump W fuel)) t c (set_loc l s1) <> Stuck.
Proof using Type.
  intros c s l t s1 En H.
  destruct (real_next W (fun _ => Stuck) t c (set_loc l s1)) as [x| |] eqn:E.
  - exists 0. rewrite (real_next_mono (fun _ => Stuck)); [rewrite E; discriminate | intros a C; elim C; reflexivity | rewrite E; discriminate].
  - exists 0. rewrite (real_next_mono (fun _ => Stuck)); [rewrite E; discriminate | intros a C; elim C; reflexivity | rewrite E; discriminate].
  - destruct (real_next_stuck _ _ _ _ E) as (-> & a & Ha & _). destruct (H a Ha eq_refl) as [fuel Hf]. exists fuel. intro C.
    destruct (real_next_stuck _ _ _ _ C) as (_ & a' & Ha' & Ev). apply evaluate_stuck in Ev.
    assert (a' = a); [|congruence]. destruct Ha as (l1 & n1 & w1 & x1 & E1 & D1), Ha' as (l2 & n2 & w2 & x2 & E2 & D2). rewrite E1 in E2. injection E2 as <- <- <- <-.
    destruct D1 as [[D1 ->]|(D1 & i1 & P1)], D2 as [[D2 ->]|(D2 & i2 & P2)]; congruence.
Qed.
Lemma empty_pump : forall s, stack s = [] -> pump W 1 s <> Stuck.
Proof using Type. intros s E. cbn [pump]. unfold inner_next. rewrite E. cbn [stack_next]. discriminate. Qed.
Lemma real_next_reach' : forall fuel t c s s', stack s <> [] -> real_next W (evaluate W (pump W fuel)) t c s = Ok s' -> reach W s s'.
Proof using Type. intros fuel t c s s' Hs H. eapply real_next_reach; [exact Hs | | exact H]. intros a b a' Ha. eapply evaluate_reach; [intros; eapply pump_reach; eassumption | exact Ha]. Qed.
Lemma set_loc_reach : forall l (s : state), reach W s (set_loc l s).
Proof using Type. intros. eapply reach_prim, p_loc. Qed.

Lemma pump_ends : forall s, okay s -> (forall s', visits true s s' -> multiple_locations s' = []) -> exists fuel, pump W fuel s <> Stuck.
Proof using files_all.
  intros s K. remember (counts (stack s)) as cs eqn:Ecs. assert (A : Acc (below_in limit) cs) by (apply below_wf; subst cs; apply okay_limit, K).
  revert s K Ecs. induction A as [cs _ IH]. intros s K -> V.
  destruct (inner_next s) as [[[l t]|] s1] eqn:En; [|exists 1; cbn [pump]; rewrite En; discriminate].
  pose proof (inner_next_some _ _ _ En) as Hne. pose proof (inner_next_reach W _ _ _ En) as R1. pose proof (reach_trans W _ _ _ R1 (set_loc_reach l s1)) as R2.
  assert (NEXT : forall s', reach W (set_loc l s1) s' -> multiple_locations s' = [] -> (forall s2, visits true s' s2 -> multiple_locations s2 = []) -> exists fuel, pump W fuel s' <> Stuck).
  { intros s' R M V'. pose proof (okay_reach _ _ (reach_trans W _ _ _ R2 R) M K) as K'.
    destruct (reach_below _ _ _ _ En (reach_trans W _ _ _ (set_loc_reach l s1) R)) as [E|B]; [exists 1; apply empty_pump, E|].
    eapply IH; [split; [exact B | apply okay_limit, K'] | exact K' | reflexivity | exact V']. }
  assert (HALT : t = TPunct PNewline \/ t <> TPunct PNewline) by (destruct t; try (right; discriminate); destruct p; try (right; discriminate); left; reflexivity).
  destruct HALT as [->|HN]; [exists 1; cbn [pump]; rewrite En; discriminate|].
  destruct (step_ends true s l t s1 En) as [f1 H1].
  { intros a Ha ->. pose proof (fun s' => v_condition true s l s1 a s' En Ha) as VC. apply NEXT; [apply condition_reach, Ha | apply V, VC, v_here | intros s2 H2; apply V, VC, H2]. }
  assert (STEP : forall fuel, pump W (S fuel) s = do s3 <- real_next W (evaluate W (pump W fuel)) t true (set_loc l s1); pump W fuel s3).
  { intro fuel. cbn [pump]. rewrite En. destruct t; try reflexivity. destruct p; try reflexivity. elim HN. reflexivity. }
  destruct (real_next W (evaluate W (pump W f1)) t true (set_loc l s1)) as [s3| |] eqn:E3; [| |congruence].
  - pose proof (fun s' => v_next true s l t s1 f1 s3 s' En (fun _ => HN) E3) as VN.
    destruct (NEXT s3) as [f2 H2]; [eapply real_next_reach'; [|exact E3]; exact Hne | apply V, VN, v_here | intros s2 H2; apply V, VN, H2|].
    exists (S (f1 + f2)). rewrite STEP, (real_next_mono (evaluate W (pump W f1))); [|apply evaluate_mono, pump_mono; lia | rewrite E3; discriminate]. rewrite E3. cbn [bind].
    rewrite (pump_mono f2 (f1 + f2)); [exact H2 | lia | exact H2].
  - exists (S f1). rewrite STEP, E3. discriminate.
Qed.
Lemma run_drain : forall n s, List.length (output s) = n -> (exists fuel, run W fuel (set_output [] s) <> Stuck) -> exists fuel, run W fuel s <> Stuck.
Proof using Type.
  induction n as [|n IH]; intros s En [fuel H].
  - destruct s. cbn in En. destruct output; [|discriminate]. exists fuel. exact H.
  - destruct (output s) as [|t out] eqn:Eo; [discriminate|]. injection En as En. destruct (IH (set_output out s) En) as [f Hf]; [exists fuel; exact H|].
    exists (S f). cbn [run]. rewrite Eo. destruct (run W f (set_output out s)) as [[ts s']| |]; [discriminate | discriminate | congruence].
Qed.
Lemma run_ends : forall s, okay s -> output s = [] -> (forall s', visits false s s' -> multiple_locations s' = []) -> exists fuel, run W fuel s <> Stuck.
Proof using files_all.
  intros s K. remember (counts (stack s)) as cs eqn:Ecs. assert (A : Acc (below_in limit) cs) by (apply below_wf; subst cs; apply okay_limit, K).
  revert s K Ecs. induction A as [cs _ IH]. intros s K -> Ho V.
  destruct (inner_next s) as [[[l t]|] s1] eqn:En; [|exists 1; cbn [run]; rewrite Ho, En; discriminate].
  pose proof (inner_next_some _ _ _ En) as Hne. pose proof (inner_next_reach W _ _ _ En) as R1. pose proof (reach_trans W _ _ _ R1 (set_loc_reach l s1)) as R2.
  destruct (step_ends false s l t s1 En) as [f1 H1].
  { intros a Ha ->. pose proof (fun s' => v_condition false s l s1 a s' En Ha) as VC. apply pump_ends; [|intros s2 H2; apply V, VC, H2].
    eapply okay_reach; [eapply reach_trans; [exact R2 | apply condition_reach, Ha] | apply V, VC, v_here | exact K]. }
  destruct (real_next W (evaluate W (pump W f1)) t false (set_loc l s1)) as [s3| |] eqn:E3; [| |congruence].
  - pose proof (fun s' => v_next false s l t s1 f1 s3 s' En ltac:(discriminate) E3) as VN. cbn [negb] in VN.
    assert (R3 : reach W (set_loc l s1) (set_output [] s3)) by (eapply reach_snoc; [eapply real_next_reach'; [|exact E3]; exact Hne | apply p_output]).
    assert (K3 : okay (set_output [] s3)) by (eapply okay_reach; [eapply reach_trans; [exact R2 | exact R3] | apply V, VN, v_here | exact K]).
    destruct (run_drain _ s3 eq_refl) as [f2 H2].
    { destruct (reach_below _ _ _ _ En (reach_trans W _ _ _ (set_loc_reach l s1) R3)) as [E|B].
      - exists 1. cbn [run]. unfold inner_next. cbn [output set_output]. rewrite E. discriminate.
      - eapply IH; [split; [exact B | apply okay_limit, K3] | exact K3 | reflexivity | reflexivity | intros s2 H2; apply V, VN, H2]. }
    exists (S (f1 + f2)). cbn [run]. rewrite Ho, En, (real_next_mono (evaluate W (pump W f1))); [|apply evaluate_mono, pump_mono; lia | rewrite E3; discriminate]. rewrite E3. cbn [bind].
    rewrite (run_mono f2 (f1 + f2)); [exact H2 | lia | exact H2].
  - exists (S f1). cbn [run]. rewrite Ho, En, E3. discriminate.
Qed.
End TERM.
