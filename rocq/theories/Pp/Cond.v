(** Conditional compilation: the preprocessor follows the meaning of Pp.Spec. *)
From Coq Require Import List ZArith NArith Bool Lia Arith String.
From Verif Require Import Common.Text Loc.Model Lexer.Punct.
From Verif Require Lexer.Model.
From Verif Require Import Pp.Model Pp.Spec Pp.Flat Pp.Walk.
Import ListNotations.
Open Scope nat_scope.

Section COND.
Context {F P : Type}.
Notation token := (Lexer.Model.token F).
Notation ltok := (loc * token)%type.
Notation TPunct := (Lexer.Model.TPunct F).
Notation TIdent := (Lexer.Model.TIdent F).
Notation TString := (Lexer.Model.TString F).
Notation TInt := (Lexer.Model.TInt F).
Notation define := (@define F).
Notation define_map := (@define_map F).
Notation state := (@state F P).
Notation include := (@include F P).
Notation items := (@items F).
Notation alts := (@alts F).
Variable W : @world F P.

(** *** Runs *)
Inductive trace : state -> list ltok -> state -> Prop :=
  | tr_end : forall s s1, inner_next s = (None, s1) -> trace s [] (close_ifdefs (List.length (ifdef_stack s1)) s1)
  | tr_tok : forall s l t s1 fuel s2 ts s', inner_next s = (Some (l, t), s1) ->
      real_next W (evaluate W (pump W fuel)) t false (set_loc l s1) = Ok s2 ->
      trace (set_output [] s2) ts s' -> trace s (output s2 ++ ts) s'.
Lemma run_trace : forall fuel s ts s', run W fuel s = Ok (ts, s') -> exists ts', ts = output s ++ ts' /\ trace (set_output [] s) ts' s'.
Proof using Type.
  induction fuel as [|fuel IH]; intros s ts s' H; [discriminate|]. cbn [run] in H. destruct (output s) as [|t out] eqn:Eo.
  - assert (Es : set_output [] s = s) by (destruct s; cbn in *; subst; reflexivity).
    exists ts. split; [reflexivity|]. rewrite Es. destruct (inner_next s) as [[[l t]|] s1] eqn:En.
    + destruct (real_next W (evaluate W (pump W fuel)) t false (set_loc l s1)) as [s2| |] eqn:E2; try discriminate. cbn [bind] in H.
      destruct (IH _ _ _ H) as (ts' & -> & Ht). eapply tr_tok; eassumption.
    + inversion H; subst. apply tr_end, En.
  - destruct (run W fuel (set_output out s)) as [[ts1 s1]| |] eqn:E; try discriminate. cbn [bind] in H. inversion H; subst.
    destruct (IH _ _ _ E) as (ts' & -> & Ht). exists ts'. cbn [output set_output]. split; [reflexivity | exact Ht].
Qed.

Definition leads (s : state) (Q : list ltok -> state -> Prop) : Prop :=
  forall ts sN, trace s ts sN -> exists out s1 ts2, ts = out ++ ts2 /\ trace s1 ts2 sN /\ Q out s1.
Lemma leads_ret : forall s (Q : list ltok -> state -> Prop), Q [] s -> leads s Q.
Proof using Type. intros s Q H ts sN Ht. exists [], s, ts. split; [reflexivity|]. split; assumption. Qed.
Lemma leads_bind : forall s Q (R : list ltok -> state -> Prop), leads s Q -> (forall o s1, Q o s1 -> leads s1 (fun o2 s2 => R (o ++ o2) s2)) -> leads s R.
Proof using Type.
  intros s Q R H1 H2 ts sN Ht. destruct (H1 ts sN Ht) as (o & s1 & ts2 & -> & Ht2 & HQ). destruct (H2 o s1 HQ ts2 sN Ht2) as (o2 & s2 & ts3 & -> & Ht3 & HR).
  exists (o ++ o2), s2, ts3. rewrite app_assoc. split; [reflexivity|]. split; assumption.
Qed.
Lemma leads_weaken : forall s (Q R : list ltok -> state -> Prop), leads s Q -> (forall o s1, Q o s1 -> R o s1) -> leads s R.
Proof using Type. intros s Q R H HR ts sN Ht. destruct (H ts sN Ht) as (o & s1 & ts2 & E & Ht2 & HQ). exists o, s1, ts2. auto. Qed.
Lemma leads_tok : forall s v l t r (Q : list ltok -> state -> Prop), flat (stack s) = (v, (l, t)) :: r ->
  (forall st' fuel s2, flat st' = r -> v = (List.length st', top_file st') -> real_next W (evaluate W (pump W fuel)) t false (set_loc l (set_stack st' s)) = Ok s2 -> Q (output s2) (set_output [] s2)) ->
  leads s Q.
Proof using Type.
  intros s v l t r Q Hf H ts sN Ht. destruct (inner_next_flat _ _ _ _ Hf) as (st' & En & Hf' & Hv). inversion Ht as [s0 s1 En'|s0 l' t' s1 fuel s2 ts2 s' En' Hr Ht']; subst; [congruence|].
  rewrite En in En'. inversion En'; subst. exists (output s2), (set_output [] s2), ts2. split; [reflexivity|]. split; [exact Ht'|]. eapply H; [reflexivity | reflexivity | exact Hr].
Qed.
Lemma chain_leads : forall s out s1, chain W false s out s1 -> output s = [] -> leads s (fun o s2 => o = out /\ s2 = s1).
Proof using Type.
  intros s out s1 H. induction H as [s|s s2 o out s3 Hs Ho Hc IH]; intro Hs0; [apply leads_ret; split; reflexivity|].
  intros ts sN Ht. destruct Hs as (l & t & st' & En & _ & Hx). inversion Ht as [s0 s1 En'|s0 l' t' s1 fuel s2' ts2 s' En' Hr Ht']; subst; [congruence|].
  rewrite En in En'. inversion En'; subst. apply Hx in Hr. subst s2'. destruct (IH eq_refl ts2 sN Ht') as (o1 & s4 & ts3 & -> & Ht3 & -> & ->).
  exists (output s2 ++ out), s3, ts3. rewrite app_assoc. split; [reflexivity|]. split; [exact Ht3|]. split; [|reflexivity]. rewrite Ho, Hs0. reflexivity.
Qed.
Lemma chain_pump : forall s out s1, chain W true s out s1 -> forall fuel sN, pump W fuel s = Ok sN -> exists fuel', pump W fuel' s1 = Ok sN.
Proof using Type.
  intros s out s1 H. induction H as [s|s s2 o out s3 Hs Ho Hc IH]; intros fuel sN Hp; [exists fuel; exact Hp|].
  destruct Hs as (l & t & st' & En & Hn & Hx). destruct fuel as [|fuel]; [discriminate|]. cbn [pump] in Hp. rewrite En in Hp.
  assert (Hp' : (do s3 <- real_next W (evaluate W (pump W fuel)) t true (set_loc l (set_stack st' s)); pump W fuel s3) = Ok sN).
  { destruct t; try exact Hp. destruct p; try exact Hp. elim (Hn eq_refl). reflexivity. }
  destruct (real_next W (evaluate W (pump W fuel)) t true (set_loc l (set_stack st' s))) as [s4| |] eqn:E; try discriminate. cbn [bind] in Hp'. apply Hx in E. subst s4. eapply IH, Hp'.
Qed.

(** *** Conditions *)
Lemma is_disabled_same : forall s s' : state, same s s' -> is_disabled s' = is_disabled s.
Proof using Type. intros s s' H. unfold is_disabled. unfold same in H. decompose [and] H. congruence. Qed.
Lemma eval_cond : forall (s : state) p d c o v l2 rest fuel b s',
  flat (stack s) = lift p (map (pair d) c) ++ (v, (l2, TPunct PNewline)) :: rest -> docs_in s = [] -> output s = [] ->
  expands W true (w_display_path W p) (defines s) [] (map (pair d) c) o ->
  evaluate W (pump W fuel) s = Ok (b, s') ->
  flat (stack s') = rest /\ same s s' /\ output s' = [] /\ v = (List.length (stack s'), top_file (stack s')) /\
  b = if is_disabled s then false else match w_evaluate W o (defines s) with Some b => b | None => false end.
Proof using Type.
  intros s p d c o v l2 rest fuel b s' Hf Hd Ho He Hev.
  destruct (expands_chain W true _ _ _ _ _ He p s _ Hf) as (s1 & Hc & Hf1 & Hm & Ho1 & _).
  { split; [exact Hd | discriminate]. } { reflexivity. } { reflexivity. } { intros _. exact Ho. }
  unfold evaluate in Hev. destruct (pump W fuel s) as [s2| |] eqn:Ep; try discriminate. cbn [bind] in Hev.
  destruct (chain_pump _ _ _ Hc _ _ Ep) as (fuel' & Ep'). destruct fuel' as [|fuel']; [discriminate|]. cbn [pump] in Ep'.
  destruct (inner_next_flat _ _ _ _ Hf1) as (st' & En & Hf' & Hv). rewrite En in Ep'. inversion Ep'; subst s2.
  rewrite (is_disabled_same s s1 Hm : is_disabled (set_loc l2 (set_stack st' s1)) = is_disabled s) in Hev.
  change (defines (set_loc l2 (set_stack st' s1))) with (defines s1) in Hev. change (output (set_loc l2 (set_stack st' s1))) with (output s1) in Hev.
  rewrite (Ho1 eq_refl) in Hev. cbn [app] in Hev. assert (Ed : defines s1 = defines s) by (unfold same in Hm; tauto). rewrite Ed in Hev.
  destruct (is_disabled s).
  - inversion Hev; subst. split; [reflexivity|]. split; [exact Hm|]. split; [reflexivity|]. split; reflexivity.
  - destruct (w_evaluate W o (defines s)); inversion Hev; subst; (split; [reflexivity|]; split; [exact Hm|]; split; [reflexivity|]; split; reflexivity).
Qed.

(** *** Lines of the output *)
Lemma split_app : forall (a : list ltok) this l b, split_lines this (a ++ (l, TPunct PNewline) :: b) = split_lines this (a ++ [(l, TPunct PNewline)]) ++ split_lines [] b.
Proof using Type.
  induction a as [|[l0 t] a IH]; intros this l b.
  - cbn [app split_lines]. destruct this; cbn [app]; reflexivity.
  - cbn [app split_lines]. destruct t; try apply IH. destruct p; try apply IH. destruct this; cbn [app]; rewrite (IH [] l b); reflexivity.
Qed.
Definition whole (o : list ltok) : Prop := o = [] \/ exists a l, o = a ++ [(l, TPunct PNewline)].
Lemma whole_app : forall a b, whole a -> whole b -> whole (a ++ b).
Proof using Type.
  intros a b Ha [->|(x & l & ->)]; [rewrite app_nil_r; exact Ha|]. right. exists (a ++ x), l. rewrite app_assoc. reflexivity.
Qed.
Lemma lines_app : forall a b, whole a -> lines_of (a ++ b) = lines_of a ++ lines_of b.
Proof using Type.
  intros a b [->|(x & l & ->)]; [reflexivity|]. unfold lines_of. rewrite <- app_assoc. cbn [app]. apply split_app.
Qed.
Lemma whole_nl : forall l, whole [(l, TPunct PNewline)].
Proof using Type. intro l. right. exists [], l. reflexivity. Qed.
(** an expansion of a line ends with its newline *)
Lemma expands_ends : forall c file m b input out, expands W c file m b input out -> forall pre d l, input = pre ++ [(d, (l, TPunct PNewline))] ->
  exists a l', out = a ++ [(l', TPunct PNewline)].
Proof using Type.
  intros c file m b input out H.
  assert (TAIL : forall (x : nat * ltok) (r : list (nat * ltok)) pre d l (o1 out : list ltok), x :: r = pre ++ [(d, (l, TPunct PNewline))] ->
     (forall pre d l, r = pre ++ [(d, (l, TPunct PNewline))] -> exists a l', out = a ++ [(l', TPunct PNewline)]) -> (r = [] -> exists a l', o1 ++ out = a ++ [(l', TPunct PNewline)]) ->
     exists a l', o1 ++ out = a ++ [(l', TPunct PNewline)]).
  { clear. intros x r pre d l o1 out E IH H0. destruct pre as [|y pre].
    - cbn [app] in E. injection E as _ E. apply H0, E.
    - cbn [app] in E. injection E as _ E. destruct (IH pre d l E) as (a & l' & ->). exists (o1 ++ a), l'. rewrite app_assoc. reflexivity. }
  induction H; intros pre d0 l' E.
  - destruct pre; discriminate.
  - eapply (TAIL _ _ _ _ _ [(l, t)] out E IHexpands). intros ->. destruct pre as [|y [|z pre]]; try discriminate. injection E as _ _ ->. inversion H3; subst. exists [], l. reflexivity.
  - eapply (TAIL _ _ _ _ _ [_] out E IHexpands). intros ->. destruct pre as [|y [|z pre]]; discriminate.
  - eapply (TAIL _ _ _ _ _ [_] out E IHexpands). intros ->. destruct pre as [|y [|z pre]]; discriminate.
  - eapply (TAIL _ _ _ _ _ [_] out E IHexpands). intros ->. destruct pre as [|y [|z pre]]; discriminate.
  - eapply (TAIL _ _ _ _ _ [_] out E IHexpands). intros ->. destruct pre as [|y [|z pre]]; discriminate.
  - eapply (TAIL _ _ _ _ _ [_] out E IHexpands). intros ->. destruct pre as [|y [|z pre]]; discriminate.
  - destruct pre as [|y pre]; [discriminate|]. injection E as _ ->. eapply (IHexpands (deeper d l body ++ pre)). rewrite app_assoc. reflexivity.
  - destruct pre as [|y pre]; [discriminate|]. cbn [app] in E. injection E as _ E. rewrite H3 in E.
    destruct r2 as [|x2 r2] using rev_ind.
    + exfalso. assert (E2 : last ((d1, (l1, TPunct PLParen)) :: written ++ [(d2, (l2, TPunct PRParen))]) (d2, (l2, TPunct PRParen)) = last (pre ++ [(d0, (l', TPunct PNewline))]) (d2, (l2, TPunct PRParen))) by (rewrite E; reflexivity).
      rewrite app_comm_cons, !last_last in E2. discriminate.
    + clear IHr2. rewrite app_comm_cons, app_comm_cons, app_assoc in E. apply app_inj_tail in E. destruct E as [_ ->].
      eapply (IHexpands (deeper d2 l expansion ++ r2)). rewrite app_assoc. reflexivity.
  - destruct pre as [|y pre]; [discriminate|]. cbn [app] in E. injection E as _ E.
    eapply (TAIL _ _ _ _ _ [(l, TIdent i false); (l, t)] out E IHexpands). intros ->. destruct pre as [|y2 [|z pre]]; try discriminate. injection E as _ _ ->. inversion H4; subst. exists [(l, TIdent i false)], l. reflexivity.
Qed.
End COND.
