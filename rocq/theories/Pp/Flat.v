(** The stack of files and expansions seen as one list of tokens; reading the parts of a line. *)
From Coq Require Import List ZArith NArith Bool Lia Arith String.
From Verif Require Import Common.Text Loc.Model Lexer.Punct.
From Verif Require Lexer.Model.
From Verif Require Import Pp.Model Pp.Spec.
Import ListNotations.
Open Scope nat_scope.

Section FLAT.
Context {F P : Type}.
Notation token := (Lexer.Model.token F).
Notation ltok := (loc * token)%type.
Notation TPunct := (Lexer.Model.TPunct F).
Notation TIdent := (Lexer.Model.TIdent F).
Notation TString := (Lexer.Model.TString F).
Notation TInt := (Lexer.Model.TInt F).
Notation define := (@define F).
Notation define_map := (@define_map F).
Notation state := (@state F P).
Notation include := (@include F P).
Variable W : @world F P.
Notation lvl := (nat * option P)%type.
Notation ftok := ((nat * option P) * ltok)%type.

Definition own (i : include) : list ltok := match i with IFile _ ts => ts | IExpansion l ts => map (pair l) ts end.
Fixpoint flat (st : list include) : list ftok :=
  match st with [] => [] | i :: rest => map (pair (List.length st, top_file st)) (own i) ++ flat rest end.

Lemma flat_none : forall st st' : list include, stack_next st = (None, st') -> flat st = [].
Proof using Type.
  induction st as [|i st IH]; intros st' H; [reflexivity|]. destruct i as [p [|t ts]|l [|t ts]]; cbn [stack_next] in H; try discriminate; cbn [flat own map app]; eapply IH, H.
Qed.
Lemma flat_some : forall (st st' : list include) t, stack_next st = (Some t, st') -> flat st = ((List.length st', top_file st'), t) :: flat st'.
Proof using Type.
  induction st as [|i st IH]; intros st' t H; [discriminate|]. destruct i as [p [|x ts]|l [|x ts]]; cbn [stack_next] in H.
  - rewrite <- (IH _ _ H). reflexivity.
  - inversion H; subst. reflexivity.
  - rewrite <- (IH _ _ H). reflexivity.
  - inversion H; subst. reflexivity.
Qed.
(** reading is taking the head *)
Lemma next_flat : forall (st : list include) v t r, flat st = (v, t) :: r -> exists st', stack_next st = (Some t, st') /\ flat st' = r /\ v = (List.length st', top_file st').
Proof using Type.
  intros st v t r H. destruct (stack_next st) as [[t'|] st'] eqn:E.
  - pose proof (flat_some _ _ _ E) as E2. rewrite H in E2. inversion E2; subst. exists st'. split; [reflexivity|]. split; reflexivity.
  - rewrite (flat_none _ _ E) in H. discriminate.
Qed.
Lemma next_flat_nil : forall (st : list include), flat st = [] -> stack_next st = (None, []).
Proof using Type.
  induction st as [|i st IH]; intro H; [reflexivity|]. cbn [flat] in H. apply app_eq_nil in H. destruct H as [H1 H2]. apply map_eq_nil in H1.
  destruct i as [p [|t ts]|l [|t ts]]; try discriminate; cbn [stack_next]; apply IH, H2.
Qed.
Lemma available_flat : forall s : state, available s = List.length (flat (stack s)).
Proof using Type.
  intro s. unfold available. induction (stack s) as [|i st IH]; [reflexivity|]. cbn [fold_right flat]. rewrite app_length, map_length, IH. destruct i; cbn [weight own]; rewrite ?map_length; reflexivity.
Qed.
Lemma inner_next_flat : forall (s : state) v t r, flat (stack s) = (v, t) :: r ->
  exists st', inner_next s = (Some t, set_stack st' s) /\ flat st' = r /\ v = (List.length st', top_file st').
Proof using Type.
  intros s v t r H. destruct (next_flat _ _ _ _ H) as (st' & E & H1 & H2). exists st'. unfold inner_next. rewrite E. split; [reflexivity|]. split; assumption.
Qed.

(** *** Setters *)
Lemma set_stack_twice : forall a b (s : state), set_stack a (set_stack b s) = set_stack a s.
Proof using Type. reflexivity. Qed.
Lemma set_stack_stack : forall a (s : state), stack (set_stack a s) = a.
Proof using Type. reflexivity. Qed.
Lemma set_stack_self : forall (s : state), set_stack (stack s) s = s.
Proof using Type. intros []. reflexivity. Qed.

(** *** The arguments of a call *)
Lemma read_args_balanced : forall a, balanced a -> forall (written : list ftok) k rest args this p (s : state),
  map (fun x => snd (snd x)) written = a -> flat (stack s) = written ++ rest ->
  exists st', read_args (List.length written + k) args this (S p) s = read_args k args (this ++ a) (S p) (set_stack st' s) /\ flat st' = rest.
Proof using Type.
  intros a H. induction H as [|t r N1 N2 H IH|a r Ha IHa Hr IHr]; intros written k rest args this p s Hw Hf.
  - destruct written; [|discriminate]. exists (stack s). cbn [List.length Nat.add]. rewrite app_nil_r, set_stack_self. split; [reflexivity | exact Hf].
  - destruct written as [|[v [l t']] w]; [discriminate|]. cbn [map snd] in Hw. inversion Hw as [[E1 E2]]; subst t' r. cbn [app] in Hf.
    destruct (inner_next_flat _ _ _ _ Hf) as (st1 & En & Hf1 & _).
    destruct (IH w k rest args (this ++ [t]) p (set_stack st1 s) eq_refl Hf1) as (st' & E & Hf'). exists st'. split; [|exact Hf'].
    cbn [List.length Nat.add read_args]. rewrite En.
    replace (this ++ t :: map (fun x => snd (snd x)) w) with ((this ++ [t]) ++ map (fun x : ftok => snd (snd x)) w) by (rewrite <- app_assoc; reflexivity).
    rewrite set_stack_twice in E. rewrite <- E. destruct t; try reflexivity. destruct p0; try reflexivity; congruence.
  - destruct written as [|[v [l t']] w]; [discriminate|]. cbn [map snd] in Hw. inversion Hw as [[E1 E2]]. subst t'. cbn [app] in Hf.
    destruct (inner_next_flat _ _ _ _ Hf) as (st1 & En & Hf1 & _).
    apply map_eq_app in E2 as (wa & wr & -> & Ea & Er).
    destruct wr as [|[v2 [l2 t2]] wr]; [discriminate|]. cbn [map snd] in Er. inversion Er as [[E3 E4]]. subst t2. clear Er.
    rewrite <- app_assoc in Hf1. cbn [app] in Hf1.
    cbn [List.length Nat.add read_args]. rewrite En. rewrite app_length. cbn [List.length].
    replace (List.length wa + S (List.length wr) + k) with (List.length wa + (S (List.length wr) + k)) by lia.
    destruct (IHa wa (S (List.length wr) + k) _ args (this ++ [TPunct PLParen]) (S p) (set_stack st1 s) Ea Hf1) as (st2 & E & Hf2). rewrite E. rewrite set_stack_twice.
    cbn [Nat.add read_args].
    destruct (inner_next_flat (set_stack st2 s) _ _ _ Hf2) as (st3 & En3 & Hf3 & _). rewrite En3, set_stack_twice.
    destruct (IHr wr k rest args ((this ++ [TPunct PLParen]) ++ a ++ [TPunct PRParen]) p (set_stack st3 s) E4 Hf3) as (st' & E' & Hf').
    exists st'. split; [|exact Hf']. rewrite set_stack_twice in E'. rewrite app_assoc in E'.
    rewrite E'. f_equal. rewrite map_app, Ea. cbn [map snd]. rewrite E4, <- !app_assoc. reflexivity.
Qed.
Lemma read_args_argument : forall a, argument a -> forall (written : list ftok) k rest args this (s : state),
  map (fun x => snd (snd x)) written = a -> flat (stack s) = written ++ rest ->
  exists st', read_args (List.length written + k) args this 0 s = read_args k args (this ++ a) 0 (set_stack st' s) /\ flat st' = rest.
Proof using Type.
  intros a H. induction H as [|t r N1 N2 N3 H IH|a r Ha Hr IHr]; intros written k rest args this s Hw Hf.
  - destruct written; [|discriminate]. exists (stack s). cbn [List.length Nat.add]. rewrite app_nil_r, set_stack_self. split; [reflexivity | exact Hf].
  - destruct written as [|[v [l t']] w]; [discriminate|]. cbn [map snd] in Hw. inversion Hw as [[E1 E2]]; subst t' r. cbn [app] in Hf.
    destruct (inner_next_flat _ _ _ _ Hf) as (st1 & En & Hf1 & _).
    destruct (IH w k rest args (this ++ [t]) (set_stack st1 s) eq_refl Hf1) as (st' & E & Hf'). exists st'. split; [|exact Hf'].
    cbn [List.length Nat.add read_args]. rewrite En.
    replace (this ++ t :: map (fun x => snd (snd x)) w) with ((this ++ [t]) ++ map (fun x : ftok => snd (snd x)) w) by (rewrite <- app_assoc; reflexivity).
    rewrite set_stack_twice in E. rewrite <- E. destruct t; try reflexivity. destruct p; try reflexivity; congruence.
  - destruct written as [|[v [l t']] w]; [discriminate|]. cbn [map snd] in Hw. inversion Hw as [[E1 E2]]. subst t'. cbn [app] in Hf.
    destruct (inner_next_flat _ _ _ _ Hf) as (st1 & En & Hf1 & _).
    apply map_eq_app in E2 as (wa & wr & -> & Ea & Er).
    destruct wr as [|[v2 [l2 t2]] wr]; [discriminate|]. cbn [map snd] in Er. inversion Er as [[E3 E4]]. subst t2. clear Er.
    rewrite <- app_assoc in Hf1. cbn [app] in Hf1.
    cbn [List.length Nat.add read_args]. rewrite En. rewrite app_length. cbn [List.length].
    replace (List.length wa + S (List.length wr) + k) with (List.length wa + (S (List.length wr) + k)) by lia.
    destruct (read_args_balanced a Ha wa (S (List.length wr) + k) _ args (this ++ [TPunct PLParen]) 0 (set_stack st1 s) Ea Hf1) as (st2 & E & Hf2). rewrite E. rewrite set_stack_twice.
    cbn [Nat.add read_args].
    destruct (inner_next_flat (set_stack st2 s) _ _ _ Hf2) as (st3 & En3 & Hf3 & _). rewrite En3, set_stack_twice.
    destruct (IHr wr k rest args ((this ++ [TPunct PLParen]) ++ a ++ [TPunct PRParen]) (set_stack st3 s) E4 Hf3) as (st' & E' & Hf').
    exists st'. split; [|exact Hf']. rewrite set_stack_twice in E'. rewrite app_assoc in E'.
    rewrite E'. f_equal. rewrite map_app, Ea. cbn [map snd]. rewrite E4, <- !app_assoc. reflexivity.
Qed.
Lemma read_args_commas : forall args2, Forall argument args2 -> args2 <> [] -> forall (written : list ftok) k rest args v l (s : state),
  map (fun x => snd (snd x)) written = commas args2 -> flat (stack s) = written ++ (v, (l, TPunct PRParen)) :: rest ->
  exists st', read_args (List.length written + S k) args [] 0 s = Some (Some (args ++ args2), set_stack st' s) /\ flat st' = rest /\ v = (List.length st', top_file st').
Proof using Type.
  induction args2 as [|a args2 IH]; intros HF Hne written k rest args v l s Hw Hf; [congruence|]. inversion HF as [|? ? Ha HF']; subst.
  destruct args2 as [|a2 args2].
  - cbn [commas] in Hw. destruct (read_args_argument a Ha written (S k) _ args [] s Hw Hf) as (st1 & E & Hf1). rewrite E. cbn [read_args].
    destruct (inner_next_flat (set_stack st1 s) _ _ _ Hf1) as (st2 & En & Hf2 & Hv). rewrite En. exists st2. split; [reflexivity|]. split; assumption.
  - change (commas (a :: a2 :: args2)) with (a ++ TPunct PComma :: commas (a2 :: args2)) in Hw.
    apply map_eq_app in Hw as (wa & wr & -> & Ea & Er). destruct wr as [|[v2 [l2 t2]] wr]; [discriminate|]. cbn [map snd] in Er. inversion Er as [[E3 E4]]. subst t2. clear Er.
    rewrite <- app_assoc in Hf. cbn [app] in Hf. rewrite app_length. cbn [List.length].
    replace (List.length wa + S (List.length wr) + S k) with (List.length wa + S (List.length wr + S k)) by lia.
    destruct (read_args_argument a Ha wa (S (List.length wr + S k)) _ args [] s Ea Hf) as (st1 & E & Hf1). rewrite E. cbn [read_args].
    destruct (inner_next_flat (set_stack st1 s) _ _ _ Hf1) as (st2 & En & Hf2 & _). rewrite En, set_stack_twice.
    destruct (IH HF' ltac:(discriminate) wr k rest (args ++ [a]) v l (set_stack st2 s) E4 Hf2) as (st3 & E' & Hf3 & Hv). exists st3. cbn [app]. rewrite E', <- app_assoc. split; [reflexivity|]. split; assumption.
Qed.

(** *** Binding and filling in *)
Lemma bound_fit : forall n v (args values : list (list token)), bound n v args values -> fit_args n v args = values /\ List.length values = n.
Proof using Type.
  intros n v args values H. destruct H as [args H|fixed rest H].
  - split; [reflexivity | exact H].
  - split; [|rewrite app_length; cbn [List.length]; lia]. unfold fit_args. rewrite app_length.
    destruct (Nat.ltb_spec n (List.length fixed + List.length rest)) as [Hl|Hl].
    + replace (n - 1) with (List.length fixed) by lia. rewrite firstn_app, firstn_all, Nat.sub_diag, skipn_app, skipn_all, Nat.sub_diag. cbn [firstn skipn app]. rewrite app_nil_r.
      reflexivity.
    + destruct rest as [|r1 [|r2 rest]]; cbn [List.length] in *.
      * rewrite (proj2 (Nat.eqb_eq _ _)) by lia. rewrite app_nil_r. reflexivity.
      * destruct (Nat.eqb_spec (List.length fixed + 1 + 1) n); [lia|]. reflexivity.
      * lia.
Qed.
Lemma lookup_param : forall params (values : list (list token)) i, List.length values = List.length params -> param_arg params values i = lookup params values i.
Proof using Type.
  unfold param_arg. induction params as [|p ps IH]; intros [|v vs] i H; try discriminate; [reflexivity|]. cbn [position lookup]. destruct (text_eqb p i); [reflexivity|].
  injection H as H. specialize (IH vs i H). destruct (position ps i); cbn [option_map nth] in *; exact IH.
Qed.
Lemma stringify_spaced : forall arg acc, stringify W acc arg = fold_left (fun acc t => match acc with [] => w_display W t | _ => acc ++ [32%N] ++ w_display W t end) arg acc.
Proof using Type.
  induction arg as [|t arg IH]; intro acc; [reflexivity|]. cbn [stringify fold_left]. rewrite IH. f_equal. destruct acc; [reflexivity|]. rewrite <- app_assoc. reflexivity.
Qed.
Lemma pop_back_snoc : forall (b : list token) t, pop_back (b ++ [t]) = Some (t, b).
Proof using Type. intros b t. unfold pop_back. rewrite rev_unit, rev_involutive. reflexivity. Qed.
Lemma pop_back_spec : forall (b : list token), pop_back b = None /\ b = [] \/ exists b' t, b = b' ++ [t] /\ pop_back b = Some (t, b').
Proof using Type.
  intro b. destruct b as [|t b] using rev_ind; [left; split; reflexivity|]. right. exists b, t. split; [reflexivity | apply pop_back_snoc].
Qed.
Lemma filled_paste : forall params values body b out, List.length values = List.length params -> filled W params values body b out ->
  paste W params values body b = Some out.
Proof using Type.
  intros params values body b out Hl H. pose proof (fun i => lookup_param params values i Hl) as Hp. induction H; cbn [paste]; rewrite ?Hp.
  - reflexivity.
  - rewrite H. exact IHfilled.
  - rewrite H. exact IHfilled.
  - rewrite H, stringify_spaced. exact IHfilled.
  - assert (E : forall i ws, t <> TIdent i ws) by assumption. destruct t; try exact IHfilled; [|elim (E i ws); reflexivity]. destruct p; try exact IHfilled; congruence.
  - replace (do_paste params values (b ++ [TIdent a ws]) (Some (TIdent i ws'))) with (b ++ glued a ws ws' v); [exact IHfilled|].
    unfold do_paste. rewrite pop_back_snoc, Hp, H. unfold glued. destruct v as [|[] v]; reflexivity.
  - replace (do_paste params values (b ++ [TIdent a ws]) (Some (TIdent i ws'))) with (b ++ [TIdent (a ++ i) ws']); [exact IHfilled|].
    unfold do_paste. rewrite pop_back_snoc, Hp, H. reflexivity.
  - replace (do_paste params values b (Some t)) with (b ++ [t]); [exact IHfilled|]. unfold do_paste.
    destruct (pop_back b) as [[x b']|]; [destruct x|]; destruct t; try reflexivity; exfalso; eapply H; reflexivity.
  - replace (do_paste params values b (Some (TIdent i ws))) with (b ++ match lookup params values i with Some v => v | None => [TIdent i ws] end); [exact IHfilled|].
    unfold do_paste. rewrite Hp. destruct (pop_back_spec b) as [[-> E]|(b' & t & E & ->)]; [reflexivity|]. destruct t; try reflexivity. elim (H b' i0 ws0). exact E.
  - unfold do_paste. destruct (pop_back b) as [[x b']|]; [destruct x|]; reflexivity.
Qed.
End FLAT.
