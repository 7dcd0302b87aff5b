(** The parser of statements against the grammar: termination and soundness of the mutually recursive functions. *)
From Coq Require Import List NArith ZArith Bool String Lia.
From Verif Require Import Common.Text Lexer.Punct Lexer.Model Parse.Ast Parse.Model Parse.Spec Parse.Grow Stmt.Ast Stmt.Model Stmt.Spec
  Stmt.Sound.
Import ListNotations.
Open Scope nat_scope.

Section SOUND2.
Variable F : Type.
Notation tok := (token F).
Notation expr := (expr F).
Notation stmt := (stmt F).
Notation block := (block F).
Notation pst := (pst F).
Notation res := (res F).
Notation P p := (TPunct F p).
Notation W w ws := (TIdent F (lit w) ws).
Notation len s := (List.length (toks s)).
Notation spec := (spec F). Notation strictly := (strictly F). Notation present := (present F). Notation present_lt := (present_lt F).

Ltac norm :=
  repeat match goal with
         | H : Sound.strictly _ _ (Some _) _ |- _ => cbn [Sound.strictly] in H
         | H : Sound.strictly _ _ None _ |- _ => cbn [Sound.strictly] in H; subst
         | H : Sound.present_lt _ _ _ _ |- _ => destruct H as [_ H]
         end.
Ltac bind L :=
  match goal with
  | |- Sound.spec _ _ (req_ _ _ _) _ _ => eapply spec_req; [L|]
  | |- Sound.spec _ _ (opt_ _ _ _) _ _ => eapply spec_opt; [L|]
  | |- Sound.spec _ _ (lead_ _ _ _) _ _ => eapply spec_lead; [L| | |]
  end.
Ltac leave := apply spec_ret; [try discriminate|].

(** What follows an item of a list in parentheses. *)
Definition after_item {X : Type} (item : X -> list tok -> list tok -> Prop) (comma : bool) (x : list X) (ts r : list tok) : Prop :=
  if comma then (x = [] /\ ts = P PRParen :: r) \/ (exists mid, ts = P PComma :: mid /\ items_at F item x mid r)
  else items_at F item x ts r.
Definition appended {X : Type} (l : list X) (Q : list X -> list tok -> Prop) (o : option (list X)) (r : list tok) : Prop :=
  match o with Some y => exists x, y = l ++ x /\ Q x r | None => True end.
Definition arms_result (l : list (expr * block)) (ts : list tok) (o : option (list (expr * block) * option block)) (r : list tok) : Prop :=
  match o with Some (y, e) => exists x, y = l ++ x /\ arms_at F x e ts r | None => True end.
Definition cases_result (l : list (list (case F) * block)) (ts : list tok) (o : option (list (list (case F) * block) * option block)) (r : list tok) : Prop :=
  match o with Some (y, e) => exists x, y = l ++ x /\ (forall rest, r = P PRBrace :: rest -> cases_at F x e ts rest) | None => True end.

Record good (n : nat) (R : sfns F) : Prop := {
  gd_suffix : forall sz s, 2 * len s + 1 <= n -> spec s (r_suffix F R sz s) present (appended sz (fun x r => sizes_at F x (toks s) r));
  gd_decls : forall b ds s, 2 * len s + 1 <= n -> spec s (r_decls F R b ds s) (present_lt s)
     (appended ds (fun x r => if b then exists d, x = [d] /\ decl_at F d (toks s) r else locals_at F x (toks s) r));
  gd_caselist : forall c l s, 2 * len s + 1 <= n -> spec s (r_caselist F R c l s) present (appended l (fun x r => after_item (case_at F) c x (toks s) r));
  gd_params : forall c l s, 2 * len s + 1 <= n -> spec s (r_params F R c l s) present (appended l (fun x r => after_item (path_at F) c x (toks s) r));
  gd_semis : forall s, 2 * len s + 1 <= n -> spec s (r_semis F R s) present (fun _ r => semicolons F (toks s) r);
  gd_block : forall s, 2 * len s + 2 <= n -> spec s (r_block F R s) present (fun o r => match o with Some b => block_at F b (toks s) r | None => True end);
  gd_stmts : forall l s, 2 * len s + 2 <= n -> spec s (r_stmts F R l s) present (appended l (fun x r => stmts_at F x (toks s) r));
  gd_stmt : forall s, 2 * len s + 1 <= n -> spec s (r_stmt F R s) (strictly s) (fun o r => match o with Some x => stmt_at F x (toks s) r | None => True end);
  gd_arms : forall l s, 2 * len s + 2 <= n -> spec s (r_arms F R l s) present (arms_result l (toks s));
  gd_cases : forall l s, 2 * len s + 1 <= n -> spec s (r_cases F R l s) present (cases_result l (toks s)) }.

Lemma separated_spec {X : Type} (item : pst -> res X) (item_at : X -> list tok -> list tok -> Prop)
  (again : bool -> list X -> pst -> res (list X)) c l s :
  (forall s1, spec s1 (item s1) (strictly s1) (fun o r => match o with Some x => item_at x (toks s1) r | None => True end)) ->
  (forall c' l' s1, len s1 < len s -> spec s1 (again c' l' s1) present (appended l' (fun x r => after_item item_at c' x (toks s1) r))) ->
  spec s (separated_body F PComma PRParen None item again c l s) present (appended l (fun x r => after_item item_at c x (toks s) r)).
Proof using Type.
  intros HI HA. unfold separated_body, success. bind ltac:(apply exact_spec). intros [u|] s1 L1 U1; norm.
  - leave. intros T. exists []. split; [rewrite app_nil_r; reflexivity|]. unfold after_item. rewrite T. destruct c; [left; auto|constructor].
  - bind ltac:(apply exact_spec). intros [u|] s2 L2 U2; norm.
    + destruct c; [|exact I]. eapply spec_weaken; [apply HA; exact U2|auto|]. intros [y|] t; [|intros; exact I].
      intros (x & -> & H) T N. exists x. split; [reflexivity|]. right. rewrite T. eauto.
    + destruct c; [exact I|]. bind ltac:(apply HI). intros v s3 L3 U3; norm. eapply spec_weaken; [apply HA; exact U3|auto|].
      intros [y|] t; [|intros; exact I]. intros (x & -> & H) HV [_ N2] [_ N1]. exists (v :: x). split; [rewrite <- app_assoc; reflexivity|].
      cbn [after_item] in *. destruct H as [[-> T]|(mid & T & H)]; rewrite T in HV; [apply It_last|eapply It_cons]; eassumption.
Qed.
Lemma case_item_spec s : spec s (case_item F s) (strictly s) (fun o r => match o with Some x => case_at F x (toks s) r | None => True end).
Proof using Type.
  unfold case_item. bind ltac:(apply expression_spec'). intros e s1 L1 U1; norm. bind ltac:(apply exact_ident_spec). intros [u|] s2 L2 U2; norm.
  - bind ltac:(apply expression_spec'). intros e' s3 L3 U3; norm. leave; [cbn; lia|]. intros H2 [ws T] H1. rewrite T in H1. econstructor; eassumption.
  - leave; [cbn; lia|]. intros [_ N] H. constructor; assumption.
Qed.
Lemma param_spec s : spec s (lead_ F (tree_path F s) (fun p s1 => ret F p s1)) (strictly s) (fun o r => match o with Some x => path_at F x (toks s) r | None => True end).
Proof using Type. bind ltac:(apply tree_path_spec); auto. intros p s1 L1 U1; norm. leave; [cbn; lia|]. auto. Qed.
Lemma terminator_spec s : spec s (statement_terminator F s) (fun o s' => o = None -> s' = s)
  (fun o r => match o with Some _ => ended F (toks s) r | None => r = toks s end).
Proof using Type.
  unfold statement_terminator.
  assert (No : spec s (Ok None s) (fun (o : option unit) s' => o = None -> s' = s) (fun o r => match o with Some _ => ended F (toks s) r | None => r = toks s end)).
  { apply spec_ret; auto. }
  destruct (toks s) as [|[p| | | | | | | | |] r] eqn:E; try exact No.
  destruct p; try exact No.
  - cbn [ret spec with_toks toks diags]. rewrite E. split; [apply le_refl|]. split; [cbn; lia|]. split; [discriminate|]. intros _. constructor.
  - cbn [ret spec]. rewrite E. split; [apply le_refl|]. split; [lia|]. split; [discriminate|]. intros _. constructor.
Qed.

Section BODY.
Variable n : nat.
Variable R : sfns F.
Hypothesis HR : good n R.

Lemma suffix_spec sz s : 2 * len s + 1 <= S n -> spec s (suffix_body F R sz s) present (appended sz (fun x r => sizes_at F x (toks s) r)).
Proof using HR.
  intros Hn. unfold suffix_body. bind ltac:(apply exact_spec). intros [u|] s1 L1 U1; norm.
  - bind ltac:(apply expression_spec). intros o s2 L2 U2. bind ltac:(apply exact_spec). intros v s3 L3 U3; norm.
    eapply spec_weaken; [apply (gd_suffix _ _ HR); lia|auto|]. intros [y|] t; [|intros; exact I].
    intros (x & -> & H) T2 HO T. exists (o :: x). split; [rewrite <- app_assoc; reflexivity|]. rewrite T. rewrite T2 in HO. econstructor; eassumption.
  - leave. intros [_ N]. exists []. split; [rewrite app_nil_r; reflexivity|]. constructor. exact N.
Qed.
Lemma declared_spec b d s : spec s (declared F b d s) present
  (fun o r => o = Some d /\ r = toks s /\ (b = false -> not_word F (lit "as") r /\ not_punct F PIn r)).
Proof using Type.
  unfold declared. destruct b.
  - leave. repeat split; congruence.
  - bind ltac:(apply input_specifier_spec). intros [[i|] [e|]] s1 L1 U1.
    1-3: apply (spec_register F DAsLocal s1 _ _ (fun _ _ => True)); leave; exact I.
    leave. intros (-> & H1 & H2). auto.
Qed.
Lemma pop_some p q l : pop p = Some (q, l) -> p = q ++ [l].
Proof using Type. clear. unfold pop. intros H. rewrite <- (rev_involutive p). destruct (rev p) as [|x r]; [discriminate|]. injection H as <- <-. reflexivity. Qed.
Lemma with_suffix_eq t (sz : list (option expr)) : with_suffix F t sz = {| v_flags := v_flags t; v_path := list_type F sz (v_path t) |}.
Proof using Type. destruct sz; [destruct t; reflexivity|reflexivity]. Qed.
Lemma declaration_spec b s : 2 * len s + 1 <= S n -> spec s (declaration F R b s) (present_lt s)
  (fun o r => match o with Some d => decl_at F d (toks s) r /\ (b = false -> not_word F (lit "as") r /\ not_punct F PIn r) | None => True end).
Proof using HR.
  intros Hn. unfold declaration. bind ltac:(apply tree_path_spec). intros p s1 L1 U1; norm.
  destruct (pop p) as [[q name]|] eqn:Ep; [|exact I]. apply pop_some in Ep. subst p.
  eapply (spec_weaken F s1 _ (present_lt s) (fun o r => (path_at F (q ++ [name]) (toks s) (toks s1) ->
    match o with Some d => decl_at F d (toks s) r /\ (b = false -> not_word F (lit "as") r /\ not_punct F PIn r) | None => True end) /\ True)).
  2:{ auto. } 2:{ intros o t [H _]. exact H. }
  eapply spec_weaken; [apply (spec_warn F (v_flags (var_type 0 q)) s1 _ (present_lt s) (fun o r => clean (v_flags (var_type 0 q)) -> path_at F (q ++ [name]) (toks s) (toks s1) ->
    match o with Some d => decl_at F d (toks s) r /\ (b = false -> not_word F (lit "as") r /\ not_punct F PIn r) | None => True end))|auto|].
  2:{ intros o t [H1 H2]. split; [exact (H1 H2)|exact I]. }
  bind ltac:(apply (gd_suffix _ _ HR); rewrite warn_toks; lia). rewrite !warn_toks. intros sz s2 L2 U2.
  assert (TY : clean (v_flags (var_type 0 q)) -> type_of q (v_flags (var_type 0 q)) (v_path (var_type 0 q))).
  { intros C. destruct (var_type_sound q 0%N C) as (m & T & E). rewrite N.lor_0_l in E. rewrite E. exact T. }
  bind ltac:(apply exact_spec). intros [u|] s3 L3 U3; norm.
  - bind ltac:(apply expression_spec'). intros e s4 L4 U4; norm. eapply spec_weaken; [apply declared_spec| |].
    + intros o s' L U. split; [exact U|lia].
    + intros o t (-> & -> & Q) HE T (sz' & E & HS) C HP. split; [|exact Q]. cbn [app] in E. subst sz'. rewrite with_suffix_eq.
      rewrite T in HS. eapply De_value; eauto.
  - eapply spec_weaken; [apply declared_spec| |].
    + intros o s' L U. split; [exact U|lia].
    + intros o t (-> & -> & Q) [_ N] (sz' & E & HS) C HP. split; [|exact Q]. cbn [app] in E. subst sz'. rewrite with_suffix_eq.
      change (initializer F sz) with (new_list F sz). eapply De_plain; eauto.
Qed.
Lemma decls_spec b ds s : 2 * len s + 1 <= S n -> spec s (decls_body F R b ds s) (present_lt s)
     (appended ds (fun x r => if b then exists d, x = [d] /\ decl_at F d (toks s) r else locals_at F x (toks s) r)).
Proof using HR.
  intros Hn. unfold decls_body. bind ltac:(apply declaration_spec; exact Hn). intros d s1 L1 U1; norm. destruct b.
  - leave; [split; [discriminate|lia]|]. intros [H _]. exists [d]. eauto.
  - bind ltac:(apply exact_spec). intros [u|] s2 L2 U2; norm.
    + eapply spec_weaken; [apply (gd_decls _ _ HR); lia| |].
      * intros o s' L [HU _]. split; [exact HU|lia].
      * intros [y|] t; [|intros; exact I]. intros (x & -> & H) T [HD Q]. destruct (Q eq_refl) as [Q1 Q2]. exists (d :: x). split; [rewrite <- app_assoc; reflexivity|].
        eapply Lo_cons; [|exact H]. rewrite <- T. split; auto.
    + leave; [split; [discriminate|lia]|]. intros [_ N] [HD Q]. destruct (Q eq_refl) as [Q1 Q2]. exists [d]. split; [reflexivity|]. apply Lo_last; [split; auto|exact N].
Qed.
Lemma simple_spec b s : 2 * len s <= n -> spec s (simple_statement F R b s) (strictly s)
  (fun o r => match o with Some x => simple_at F b x (toks s) r | None => r = toks s /\ no_start F (toks s) end).
Proof using HR.
  intros Hn. unfold simple_statement.
  bind ltac:(apply exact_ident_spec). intros [u|] s1 L1 U1; norm.
  { bind ltac:(apply (gd_decls _ _ HR); lia). intros ds s2 L2 U2; norm. leave; [cbn; lia|]. intros (x & -> & H) [ws T]. rewrite T. cbn [app]. destruct b.
    - destruct H as (d & -> & H). constructor. exact H.
    - apply (Si_vars F x). exact H. }
  bind ltac:(apply exact_ident_spec). intros [u|] s1 L1' U1; norm.
  { bind ltac:(apply expression_spec). intros o s2 L2 U2; norm. leave; [cbn; lia|]. intros H [ws T] _. rewrite T. constructor. exact H. }
  bind ltac:(apply exact_ident_spec). intros [u|] s1 L2' U1; norm.
  { bind ltac:(apply exact_spec). intros u2 s2 L2 U2; norm. bind ltac:(apply expression_spec). intros o s3 L3 U3; norm.
    bind ltac:(apply exact_spec). intros u4 s4 L4 U4; norm. leave; [cbn; lia|]. intros T3 H T2 [ws T] _ _. rewrite T, T2. rewrite T3 in H. constructor. exact H. }
  bind ltac:(apply exact_ident_spec). intros [u|] s1 L3' U1; norm.
  { bind ltac:(apply expression_spec'). intros o s2 L2 U2; norm. leave; [cbn; lia|]. intros H [ws T] _ _ _. rewrite T. constructor. exact H. }
  bind ltac:(apply exact_ident_spec). intros [u|] s1 L4' U1; norm.
  { bind ltac:(apply ident_spec). intros i s2 L2 U2; norm. leave; [cbn; lia|]. intros [ws' T2] [ws T] _ _ _ _. rewrite T, T2. constructor. }
  bind ltac:(apply expression_spec'); cbv beta.
  - intros e s2 L2 U2; norm. leave; [cbn; lia|]. intros H [_ N5] [_ N4] [_ N3] [_ N2] [_ N1]. constructor; [exact H|].
    intros w. cbn [simple_words In]. intros [<-|[<-|[<-|[<-|[<-|[]]]]]]; assumption.
  - intros s2 ->. reflexivity.
  - intros r [-> H] _ _ _ _ _. auto.
Qed.
Lemma semis_spec s : 2 * len s + 1 <= S n -> spec s (semis_body F R s) present (fun _ r => semicolons F (toks s) r).
Proof using HR.
  intros Hn. unfold semis_body. bind ltac:(apply exact_spec). intros [u|] s1 L1 U1; norm.
  - eapply spec_weaken; [apply (gd_semis _ _ HR); lia|auto|]. intros o t H T. rewrite T. constructor. exact H.
  - leave. intros [_ N]. constructor. exact N.
Qed.
Lemma block_spec s : 2 * len s + 2 <= S n -> spec s (block_body F R s) present (fun o r => match o with Some b => block_at F b (toks s) r | None => True end).
Proof using HR.
  intros Hn. unfold block_body. bind ltac:(apply exact_spec). intros [u|] s1 L1 U1; norm.
  - eapply spec_weaken; [apply (gd_stmts _ _ HR); lia|auto|]. intros [y|] t; [|auto]. intros (x & -> & H) T. rewrite T. constructor. exact H.
  - bind ltac:(apply terminator_spec). intros [u|] s2 L2 U2; norm.
    + leave. intros H _. apply B_none. exact H.
    + rewrite (U2 eq_refl) in *. bind ltac:(apply (gd_stmt _ _ HR); lia). intros x s3 L3 U3. leave. intros H _ _. apply B_one. exact H.
Qed.
Lemma stmts_spec l s : 2 * len s + 2 <= S n -> spec s (stmts_body F R l s) present (appended l (fun x r => stmts_at F x (toks s) r)).
Proof using HR.
  intros Hn. unfold stmts_body. bind ltac:(apply exact_spec). intros [u|] s1 L1 U1; norm.
  - leave. intros T. exists []. split; [rewrite app_nil_r; reflexivity|]. rewrite T. constructor.
  - bind ltac:(apply exact_spec). intros [u|] s2 L2 U2; norm.
    + eapply spec_weaken; [apply (gd_stmts _ _ HR); lia|auto|]. intros [y|] t; [|intros; exact I]. intros (x & -> & H) T _. exists x. split; [reflexivity|].
      rewrite T. constructor. exact H.
    + bind ltac:(apply (gd_stmt _ _ HR); lia). intros x s3 L3 U3; norm. eapply spec_weaken; [apply (gd_stmts _ _ HR); lia|auto|].
      intros [y|] t; [|intros; exact I]. intros (xs & -> & H) HX _ _. exists (x :: xs). split; [rewrite <- app_assoc; reflexivity|]. econstructor; eassumption.
Qed.
Lemma parens_spec s : spec s (in_parens F s) (present_lt s) (fun o r => match o with Some e => parens_at F e (toks s) r | None => True end).
Proof using Type.
  unfold in_parens. bind ltac:(apply exact_spec). intros u s1 L1 U1; norm. bind ltac:(apply expression_spec'). intros e s2 L2 U2; norm.
  bind ltac:(apply exact_spec). intros v s3 L3 U3; norm. leave; [split; [discriminate|lia]|]. intros T2 H T. rewrite T. rewrite T2 in H. constructor. exact H.
Qed.
Lemma arms_spec l s : 2 * len s + 2 <= S n -> spec s (arms_body F R l s) present (arms_result l (toks s)).
Proof using HR.
  intros Hn. unfold arms_body. bind ltac:(apply (gd_semis _ _ HR); lia). intros u0 s0 L0 U0. bind ltac:(apply exact_ident_spec). intros [u|] s1 L1 U1; norm.
  - bind ltac:(apply exact_ident_spec). intros [u2|] s2 L2 U2; norm.
    + bind ltac:(apply parens_spec). intros c s3 L3 U3; norm. bind ltac:(apply (gd_block _ _ HR); lia). intros b s4 L4 U4; norm.
      eapply spec_weaken; [apply (gd_arms _ _ HR); lia|auto|]. intros [[y e]|] t; [|intros; exact I]. intros (x & -> & H) HB HC [ws' T2] [ws T1] HS.
      exists ((c, b) :: x). split; [rewrite <- app_assoc; reflexivity|]. rewrite T1, T2 in HS. eapply A_else_if; eassumption.
    + bind ltac:(apply (gd_block _ _ HR); lia). intros b s3 L3 U3; norm. leave. intros HB [_ N] [ws T1] HS. exists []. split; [rewrite app_nil_r; reflexivity|].
      rewrite T1 in HS. eapply A_else; eassumption.
  - leave. intros [_ N] HS. exists []. split; [rewrite app_nil_r; reflexivity|]. apply A_end; assumption.
Qed.
Lemma cases_spec l s : 2 * len s + 1 <= S n -> spec s (cases_body F R l s) present (cases_result l (toks s)).
Proof using HR.
  intros Hn. unfold cases_body. bind ltac:(apply exact_ident_spec). intros [u|] s1 L1 U1; norm.
  - bind ltac:(apply exact_spec). intros u2 s2 L2 U2; norm. bind ltac:(apply (gd_caselist _ _ HR); lia). intros what s3 L3 U3; norm.
    assert (K : forall s3', toks s3' = toks s3 -> spec s3' (req_ F (r_block F R s3') (fun b s4 => r_cases F R (l ++ [(what, b)]) s4)) present
       (fun o r => match o with Some (y, e) => exists x b, y = l ++ (what, b) :: x /\ (forall rest, r = P PRBrace :: rest -> exists t, block_at F b (toks s3) t /\ cases_at F x e t rest) | None => True end)).
    { intros s3' E. rewrite <- E. bind ltac:(apply (gd_block _ _ HR); rewrite E; lia). intros b s4 L4 U4; norm. rewrite E in L4.
      eapply spec_weaken; [apply (gd_cases _ _ HR); lia|auto|]. intros [[y e]|] t; [|intros; exact I]. intros (x & -> & H) HB. exists x, b.
      split; [rewrite <- app_assoc; reflexivity|]. intros rest Hr. exists (toks s4). eauto. }
    destruct what as [|w what'].
    + apply (spec_register F DEmptyCase s3 _ _ (fun _ _ => True)). eapply spec_weaken; [apply K; reflexivity|auto|]. intros; exact I.
    + eapply spec_weaken; [apply K; reflexivity|auto|]. intros [[y e]|] t; [|intros; exact I]. intros (x & b & -> & H) (w0 & E & HW) T2 [ws T1].
      exists ((w :: what', b) :: x). split; [reflexivity|]. intros rest Hr. destruct (H rest Hr) as (t2 & HB & HC). cbn [app] in E. subst w0. rewrite T1, T2.
      eapply C_if; [exact HW|discriminate|exact HB|exact HC].
  - bind ltac:(apply exact_ident_spec). intros [u|] s2 L2 U2; norm.
    + bind ltac:(apply (gd_block _ _ HR); lia). intros b s3 L3 U3; norm. leave. intros HB [ws T] _. exists []. split; [rewrite app_nil_r; reflexivity|].
      intros rest Hr. rewrite T. constructor. rewrite Hr in HB. exact HB.
    + bind ltac:(apply exact_spec). intros [u|] s3 L3 U3; norm.
      * eapply spec_weaken; [apply (gd_cases _ _ HR); lia|auto|]. intros [[y e]|] t; [|intros; exact I]. intros (x & -> & H) T _ _. exists x. split; [reflexivity|].
        intros rest Hr. rewrite T. constructor. apply H, Hr.
      * leave. intros _ _ _. exists []. split; [rewrite app_nil_r; reflexivity|]. intros rest ->. constructor.
Qed.

(** *** Loops *)
Definition for_result (H : for_head F -> list tok -> Prop) (o : option stmt) (r : list tok) : Prop :=
  match o with Some x => exists h b t, x = for_stmt F h b /\ H h t /\ block_at F b t r | None => True end.
Lemma ident_of_name (e : expr) i : ident_of F e = Some i -> e = name_expr F i.
Proof using Type. clear. destruct e as [t fs| | |]; try discriminate. destruct t; try discriminate. destruct fs; [|discriminate]. cbn. intros H. injection H as ->. reflexivity. Qed.
Lemma as_clause_spec s : spec s (as_clause F s) present (fun o r => match o with Some a => opt_as F a (toks s) r | None => True end).
Proof using Type.
  unfold as_clause. bind ltac:(apply exact_ident_spec). intros [u|] s1 L1 U1; norm.
  - bind ltac:(apply input_type_spec). intros t s2 L2 U2; norm. leave. intros H [ws T]. rewrite T. constructor. exact H.
  - leave. intros [_ N]. constructor. exact N.
Qed.
Lemma then_block_spec h k s : 2 * len s <= n -> (forall b, k b = for_stmt F h b) ->
  spec s (then_block F R k s) present (for_result (fun h' t => h' = h /\ toks s = P PRParen :: t)).
Proof using HR.
  intros Hn Hk. unfold then_block. bind ltac:(apply exact_spec). intros u s1 L1 U1; norm. bind ltac:(apply (gd_block _ _ HR); lia). intros b s2 L2 U2.
  leave. intros HB T. exists h, b, (toks s1). rewrite Hk. auto.
Qed.
Lemma for_range_spec ty name a b s : 2 * len s <= n ->
  spec s (for_range F R ty name a b s) present (for_result (fun h t => exists st, h = HRange F ty name a b st /\ step_at F st (toks s) t)).
Proof using HR.
  intros Hn. unfold for_range. bind ltac:(apply exact_ident_spec). intros [u|] s1 L1 U1; norm.
  - bind ltac:(apply expression_spec'). intros e s2 L2 U2; norm.
    eapply spec_weaken; [apply (then_block_spec (HRange F ty name a b (Some e))); [lia|reflexivity]|auto|]. intros [x|] r; [|intros; exact I].
    intros (h & bl & t & -> & [-> T2] & HB) HE [ws T]. exists (HRange F ty name a b (Some e)), bl, t. split; [reflexivity|]. split; [|exact HB].
    exists (Some e). split; [reflexivity|]. rewrite T. rewrite T2 in HE. constructor. exact HE.
  - eapply spec_weaken; [apply (then_block_spec (HRange F ty name a b None)); [lia|reflexivity]|auto|]. intros [x|] r; [|intros; exact I].
    intros (h & bl & t & -> & [-> T2] & HB) _. exists (HRange F ty name a b None), bl, t. split; [reflexivity|]. split; [|exact HB].
    exists None. split; [reflexivity|]. rewrite T2. constructor.
Qed.
Lemma inc_spec sep s : 2 * len s <= n ->
  spec s (opt_ F (exact F sep s) (fun c s2 => match c with Some _ => simple_statement F R false s2 | None => Ok None s2 end)) (fun _ _ => True)
    (fun o r => forall t, r = P PRParen :: t -> inc_at F sep o (toks s) t).
Proof using HR.
  intros Hn. bind ltac:(apply exact_spec). intros [u|] s1 L1 U1; norm.
  - eapply spec_weaken; [apply simple_spec; lia|auto|]. intros o r H T t ->. rewrite T. constructor. destruct o; [constructor; exact H|]. destruct H as [E H]. rewrite <- E in *. constructor. exact H.
  - leave; [exact I|]. intros [E _] t E'. rewrite E'. constructor.
Qed.
Lemma opt_assoc {X Y Z : Type} (x : res X) (f : option X -> pst -> res Y) (g : option Y -> pst -> res Z) :
  opt_ F (opt_ F x f) g = opt_ F x (fun o s => opt_ F (f o s) g).
Proof using Type. clear. destruct x; reflexivity. Qed.
Lemma for_semicolon_spec init s : 2 * len s <= n ->
  spec s (for_semicolon F R init s) present
    (for_result (fun h t => exists te c t1, h = HLoop F init te c /\ opt_expr F te (toks s) t1 /\ inc_at F PSemicolon c t1 t)).
Proof using HR.
  intros Hn. unfold for_semicolon. bind ltac:(apply expression_spec). intros te s1 L1 _.
  rewrite <- (opt_assoc (exact F PSemicolon s1) (fun c s2 => match c with Some _ => simple_statement F R false s2 | None => Ok None s2 end)).
  bind ltac:(apply inc_spec; lia). intros c s2 L2 _.
  eapply spec_weaken; [apply (then_block_spec (HLoop F init te c)); [lia|reflexivity]|auto|]. intros [x|] r; [|intros; exact I].
  intros (h & bl & t & -> & [-> T2] & HB) HI HE. exists (HLoop F init te c), bl, t. split; [reflexivity|]. split; [|exact HB].
  exists te, c, (toks s1). auto.
Qed.
Lemma key_of_var init ty k : key_of F init = Some (ty, k) -> exists x, init = Some x /\ loop_var F x ty k.
Proof using Type.
  clear. destruct init as [x|]; [|discriminate]. intros H. exists x. split; [reflexivity|]. destruct x; try discriminate; cbn [key_of] in H.
  - destruct (ident_of F e) as [i|] eqn:E; [|discriminate]. injection H as <- <-. rewrite (ident_of_name _ _ E). constructor.
  - destruct d as [t m [v|]]; [discriminate|]. cbn in H. injection H as <- <-. constructor.
Qed.
Lemma for_comma_spec init kit s : 2 * len s <= n ->
  spec s (for_comma F R init kit s) present
    (for_result (fun h t =>
       (exists te c t1, h = HLoop F init te c /\ opt_expr F te (toks s) t1 /\ inc_at F PComma c t1 t /\ (c = None -> match te with Some e => is_in F e = false | None => True end)) \/
       (exists x ty k v l t1, init = Some x /\ loop_var F x ty k /\ h = HKeyValue F ty k kit v l /\ expr_at F (Bin BIn (name_expr F v) l) (toks s) t1 /\ inc_at F PComma None t1 t))).
Proof using HR.
  intros Hn. unfold for_comma. bind ltac:(apply expression_spec). intros te s1 L1 _.
  rewrite <- (opt_assoc (exact F PComma s1) (fun c s2 => match c with Some _ => simple_statement F R false s2 | None => Ok None s2 end)).
  bind ltac:(apply inc_spec; lia). intros c s2 L2 _.
  assert (K : (c = None -> match te with Some e => is_in F e = false | None => True end) ->
     spec s2 (then_block F R (ForLoop init te c) s2) present (fun o r => (forall t, toks s2 = P PRParen :: t -> inc_at F PComma c (toks s1) t) -> opt_expr F te (toks s) (toks s1) ->
     for_result (fun h t =>
       (exists te c t1, h = HLoop F init te c /\ opt_expr F te (toks s) t1 /\ inc_at F PComma c t1 t /\ (c = None -> match te with Some e => is_in F e = false | None => True end)) \/
       (exists x ty k v l t1, init = Some x /\ loop_var F x ty k /\ h = HKeyValue F ty k kit v l /\ expr_at F (Bin BIn (name_expr F v) l) (toks s) t1 /\ inc_at F PComma None t1 t)) o r)).
  { intros Hc. eapply spec_weaken; [apply (then_block_spec (HLoop F init te c)); [lia|reflexivity]|auto|]. intros [x|] r; [|intros; exact I].
    intros (h & bl & t & -> & [-> T2] & HB) HI HE. exists (HLoop F init te c), bl, t. split; [reflexivity|]. split; [|exact HB].
    left. exists te, c, (toks s1). auto. }
  destruct c as [c|]; [apply K; discriminate|]. destruct te as [te|]; [|apply K; auto].
  destruct te as [|o lhs rhs| |]; try (apply K; auto). destruct o; try (apply K; auto).
  destruct (key_of F init) as [[ty key]|] eqn:Ek; [|exact I]. destruct (ident_of F lhs) as [v|] eqn:Ev; [|exact I].
  apply ident_of_name in Ev. subst lhs. apply key_of_var in Ek as (x & -> & HV).
  eapply spec_weaken; [apply (then_block_spec (HKeyValue F ty key kit v rhs)); [lia|reflexivity]|auto|]. intros [y|] r; [|intros; exact I].
  intros (h & bl & t & -> & [-> T2] & HB) HI HE. exists (HKeyValue F ty key kit v rhs), bl, t. split; [reflexivity|]. split; [|exact HB].
  right. exists x, ty, key, v, rhs, (toks s1). inversion HE; subst. auto 8.
Qed.
Definition list_tail (ty : option vartype) (name : text) (ts : list tok) (h : for_head F) (t : list tok) : Prop :=
  exists a', (h = HList F ty name a' None /\ opt_as F a' ts (P PRParen :: t)) \/
   (exists e t3, h = HList F ty name a' (Some e) /\ opt_as F a' ts (P PIn :: t3) /\ expr_at F e t3 (P PRParen :: t)) \/
   (exists e e' st ws t3 t4 t5, h = HRange F ty name e e' st /\ opt_as F a' ts (P PIn :: t3) /\ expr_at F e t3 (W "to" ws :: t4) /\ expr_at F e' t4 t5 /\ step_at F st t5 t).
Lemma for_list_spec ty name s : 2 * len s <= n ->
  spec s (for_list F R ty name s) present (for_result (list_tail ty name (toks s))).
Proof using HR.
  intros Hn. unfold for_list. bind ltac:(apply as_clause_spec). intros it s1 L1 _. bind ltac:(apply exact_spec). intros [u|] s2 L2 U2; norm.
  - bind ltac:(apply expression_spec'). intros e s3 L3 U3; norm. bind ltac:(apply exact_ident_spec). intros [u4|] s4 L4 U4; norm.
    + bind ltac:(apply expression_spec'). intros e' s5 L5 U5; norm. eapply spec_weaken; [apply for_range_spec; lia|auto|]. intros [y|] r; [|intros; exact I].
      intros (h & bl & t & -> & (st & -> & HS) & HB) HE' [ws T4] HE T2 HA. exists (HRange F ty name e e' st), bl, t. split; [reflexivity|]. split; [|exact HB].
      exists it. right. right. rewrite T2 in HA. rewrite T4 in HE. exists e, e', st, ws, (toks s2), (toks s4), (toks s5). auto.
    + eapply spec_weaken; [apply (then_block_spec (HList F ty name it (Some e))); [lia|reflexivity]|auto|]. intros [y|] r; [|intros; exact I].
      intros (h & bl & t & -> & [-> T4] & HB) _ HE T2 HA. exists (HList F ty name it (Some e)), bl, t. split; [reflexivity|]. split; [|exact HB].
      exists it. right. left. rewrite T2 in HA. rewrite T4 in HE. eauto.
  - eapply spec_weaken; [apply (then_block_spec (HList F ty name it None)); [lia|reflexivity]|auto|]. intros [y|] r; [|intros; exact I].
    intros (h & bl & t & -> & [-> T4] & HB) _ HA. exists (HList F ty name it None), bl, t. split; [reflexivity|]. split; [|exact HB].
    exists it. left. rewrite T4 in HA. auto.
Qed.
Lemma for_to_spec ty name a s : 2 * len s <= n ->
  spec s (for_to F R ty name a s) present (for_result (fun h t => exists b st ws t2 t3,
    h = HRange F ty name a b st /\ toks s = W "to" ws :: t2 /\ expr_at F b t2 t3 /\ step_at F st t3 t)).
Proof using HR.
  intros Hn. unfold for_to. bind ltac:(apply exact_ident_spec). intros u s1 L1 U1; norm. bind ltac:(apply expression_spec'). intros e s2 L2 U2; norm.
  eapply spec_weaken; [apply for_range_spec; lia|auto|]. intros [y|] r; [|intros; exact I].
  intros (h & bl & t & -> & (st & -> & HS) & HB) HE [ws T]. exists (HRange F ty name a e st), bl, t. split; [reflexivity|]. split; [|exact HB].
  exists e, st, ws, (toks s1), (toks s2). auto.
Qed.
(** what the first part and what follows it make *)
Lemma for_other_spec init s ts t1 a : 2 * len s <= n ->
  spec s (for_other F R init s) present (fun o r => opt_simple F true init ts t1 -> opt_as F a t1 (toks s) -> for_result (fun h t => head_at F h ts t) o r).
Proof using HR.
  intros Hn. unfold for_other. destruct init as [x|].
  2:{ eapply spec_weaken; [apply (then_block_spec (HInfinite F)); [lia|reflexivity]|auto|]. intros [y|] r; [|intros; exact I].
      intros (h & bl & t & -> & [-> T] & HB) HI HA. exists (HInfinite F), bl, t. split; [reflexivity|]. split; [|exact HB].
      inversion HI as [|f0 ts0 NS]; subst. inversion HA as [n0 ws0 ts0 r0 H0|ts0 H0]; subst; [discriminate NS|]. rewrite T. constructor. }
  assert (SI : opt_simple F true (Some x) ts t1 -> simple_at F true x ts t1) by (intros H; inversion H; subst; assumption).
  assert (LIST : forall ty name, loop_var F x ty name -> spec s (for_list F R ty name s) present (fun o r => opt_simple F true (Some x) ts t1 -> opt_as F a t1 (toks s) -> for_result (fun h t => head_at F h ts t) o r)).
  { intros ty name HV. eapply spec_weaken; [apply for_list_spec; exact Hn|auto|]. intros [y|] r; [|intros; exact I].
    intros (h & bl & t & -> & HT & HB) HI HA. apply SI in HI. exists h, bl, t. split; [reflexivity|]. split; [|exact HB].
    destruct HT as (a' & [(-> & H)|[(e & t3 & -> & H & H1)|(e & e' & st & ws & t3 & t4 & t5 & -> & H & H1 & H2 & H3)]]).
    - eapply Fh_world; eassumption.
    - eapply Fh_list; eassumption.
    - eapply Fh_in_range; eassumption. }
  assert (START : forall ty name e, loop_start F x ty name e -> spec s (for_to F R ty name e s) present (fun o r => opt_simple F true (Some x) ts t1 -> opt_as F a t1 (toks s) -> for_result (fun h t => head_at F h ts t) o r)).
  { intros ty name e HV. eapply spec_weaken; [apply for_to_spec; exact Hn|auto|]. intros [y|] r; [|intros; exact I].
    intros (h & bl & t & -> & (b & st & ws & t2 & t3 & -> & T & H1 & H2) & HB) HI HA. apply SI in HI. eexists; exists bl, t. split; [reflexivity|]. split; [|exact HB].
    rewrite T in HA. eapply Fh_range; eassumption. }
  destruct x; try exact I.
  - destruct e as [t fs|o lhs rhs|o lhs rhs|]; try exact I.
    + destruct (ident_of F (Base t fs)) as [i|] eqn:Ei; [|exact I]. apply ident_of_name in Ei. apply LIST. rewrite Ei. constructor.
    + destruct o; try exact I. destruct (ident_of F lhs) as [name|] eqn:Ei; [|exact I]. apply ident_of_name in Ei. subst lhs.
      assert (OLD : is_to F rhs = false -> spec s (then_block F R (ForList None name None (Some rhs)) s) present (fun o r => opt_simple F true (Some (Expr (Bin BIn (name_expr F name) rhs))) ts t1 -> opt_as F a t1 (toks s) -> for_result (fun h t => head_at F h ts t) o r)).
      { intros HT. eapply spec_weaken; [apply (then_block_spec (HList F None name None (Some rhs))); [lia|reflexivity]|auto|]. intros [y|] r; [|intros; exact I].
        intros (h & bl & t & -> & [-> T] & HB) HI HA. apply SI in HI. eexists; exists bl, t. split; [reflexivity|]. split; [|exact HB].
        rewrite T in HA. eapply Fh_old_list; eassumption. }
      destruct rhs as [|o a' b'| |]; try (apply OLD; reflexivity). destruct o; try (apply OLD; reflexivity).
      eapply spec_weaken; [apply for_range_spec; exact Hn|auto|]. intros [y|] r; [|intros; exact I].
      intros (h & bl & t & -> & (st & -> & HS) & HB) HI HA. apply SI in HI. eexists; exists bl, t. split; [reflexivity|]. split; [|exact HB].
      eapply Fh_old_range; eassumption.
    + destruct o; try exact I. destruct (ident_of F lhs) as [name|] eqn:Ei; [|exact I]. apply ident_of_name in Ei. subst lhs. apply START. constructor.
  - destruct d as [t m [v|]]; cbn [v_value v_type v_name]; [apply START|apply LIST]; constructor.
Qed.

(** *** Statements *)
Definition keyword (w : text) (k : pst -> res stmt) : Prop :=
  forall s, 2 * len s + 2 <= n -> spec s (k s) present (fun o r => match o with Some x => forall ws, stmt_at F x (TIdent F w ws :: toks s) r | None => True end).
Lemma for_spec : keyword (lit "for") (for_statement F R).
Proof using HR.
  intros s Hn. unfold for_statement. bind ltac:(apply exact_spec). intros u s1 L1 U1; norm.
  bind ltac:(apply simple_spec; lia). intros init s2 L2 U2. bind ltac:(apply as_clause_spec). intros kit s3 L3 _.
  assert (SI : match init with Some x => simple_at F true x (toks s1) (toks s2) | None => toks s2 = toks s1 /\ no_start F (toks s1) end -> opt_simple F true init (toks s1) (toks s2)).
  { destruct init; [constructor; assumption|]. intros [-> H]. constructor. exact H. }
  assert (FIN : forall (Q : for_head F -> list tok -> Prop) o r, (forall h t, Q h t -> head_at F h (toks s1) t) -> toks s = P PLParen :: toks s1 -> for_result Q o r ->
     match o with Some x => forall ws, stmt_at F x (W "for" ws :: toks s) r | None => True end).
  { intros Q [x|] r HQ T; [|intros; exact I]. intros (h & b & t & -> & H & HB) ws. rewrite T. eapply X_for; [apply HQ; exact H|exact HB]. }
  bind ltac:(apply exact_spec). intros [u4|] s4 L4 U4; norm.
  - eapply spec_weaken; [apply for_semicolon_spec; lia|auto|]. intros o r H T4 HA HI T. revert H. apply FIN; [|exact T].
    intros h t (te & c & t1 & -> & H1 & H2). rewrite T4 in HA. eapply Fh_semicolons; eauto.
  - bind ltac:(apply exact_spec). intros [u5|] s5 L5 U5; norm.
    + eapply spec_weaken; [apply for_comma_spec; lia|auto|]. intros o r H T4 _ HA HI T. revert H. apply FIN; [|exact T].
      intros h t [(te & c & t1 & -> & H1 & H2 & H3)|(x & ty & k & v & l & t1 & -> & HV & -> & H1 & H2)]; rewrite T4 in HA.
      * eapply Fh_commas; eauto.
      * eapply Fh_key_value; eauto.
    + eapply spec_weaken; [apply (for_other_spec init s3 (toks s1) (toks s2) kit); lia|auto|]. intros o r H _ _ HA HI T. specialize (H (SI HI) HA). revert H. apply FIN; [|exact T]. auto.
Qed.
Lemma if_spec : keyword (lit "if") (if_statement F R).
Proof using HR.
  intros s Hn. unfold if_statement. bind ltac:(apply parens_spec). intros c s1 L1 U1; norm. bind ltac:(apply (gd_block _ _ HR); lia). intros b s2 L2 _.
  bind ltac:(apply (gd_arms _ _ HR); lia). intros [arms e] s3 L3 _. leave. intros (x & -> & H) HB HC ws. eapply X_if; eassumption.
Qed.
Lemma while_spec : keyword (lit "while") (while_statement F R).
Proof using HR.
  intros s Hn. unfold while_statement. bind ltac:(apply parens_spec). intros c s1 L1 U1; norm. bind ltac:(apply (gd_block _ _ HR); lia). intros b s2 L2 _.
  leave. intros HB HC ws. eapply X_while; eassumption.
Qed.
Lemma do_spec : keyword (lit "do") (do_statement F R).
Proof using HR.
  intros s Hn. unfold do_statement. bind ltac:(apply (gd_block _ _ HR); lia). intros b s1 L1 _. bind ltac:(apply (gd_semis _ _ HR); lia). intros u2 s2 L2 _.
  bind ltac:(apply exact_ident_spec). intros u3 s3 L3 _. bind ltac:(apply parens_spec). intros c s4 L4 _. bind ltac:(apply terminator_spec). intros u5 s5 L5 _.
  leave. intros H5 H4 [ws' T3] H2 H1 ws. rewrite T3 in H2. eapply X_do; eassumption.
Qed.
Lemma spawn_spec : keyword (lit "spawn") (spawn_statement F R).
Proof using HR.
  intros s Hn. unfold spawn_statement. bind ltac:(apply exact_spec). intros [u1|] s1 L1 U1; norm.
  - bind ltac:(apply expression_spec). intros e s2 L2 _. bind ltac:(apply exact_spec). intros u3 s3 L3 U3; norm. bind ltac:(apply (gd_block _ _ HR); lia). intros b s4 L4 _.
    leave. intros HB T3 HE T ws. rewrite T. rewrite T3 in HE. eapply X_spawn_delay; eassumption.
  - bind ltac:(apply (gd_block _ _ HR); lia). intros b s2 L2 _. leave. intros HB [_ N] ws. eapply X_spawn; eassumption.
Qed.
Lemma switch_spec : keyword (lit "switch") (switch_statement F R).
Proof using HR.
  intros s Hn. unfold switch_statement. bind ltac:(apply parens_spec). intros e s1 L1 U1; norm. bind ltac:(apply exact_spec). intros u2 s2 L2 U2; norm.
  bind ltac:(apply (gd_cases _ _ HR); lia). intros [cs o] s3 L3 _. bind ltac:(apply exact_spec). intros u4 s4 L4 U4; norm.
  leave. intros T4 (x & -> & H) T2 HE ws. rewrite T2 in HE. eapply X_switch; [exact HE|]. apply H, T4.
Qed.
Lemma try_spec : keyword (lit "try") (try_statement F R).
Proof using HR.
  intros s Hn. unfold try_statement. bind ltac:(apply (gd_block _ _ HR); lia). intros b s1 L1 _. bind ltac:(apply (gd_semis _ _ HR); lia). intros u2 s2 L2 _.
  bind ltac:(apply exact_ident_spec). intros u3 s3 L3 U3; norm. bind ltac:(apply exact_spec). intros [u4|] s4 L4 U4; norm.
  - bind ltac:(apply (gd_params _ _ HR); lia). intros ps s5 L5 _. bind ltac:(apply (gd_block _ _ HR); lia). intros h s6 L6 _.
    leave. intros HB (x & -> & HP) T4 [ws' T3] H2 H1 ws. rewrite T3, T4 in H2. eapply X_try_catch; eassumption.
  - cbn [ret req_]. bind ltac:(apply (gd_block _ _ HR); lia). intros h s6 L6 _. leave. intros HB [_ N] [ws' T3] H2 H1 ws. rewrite T3 in H2. eapply X_try; eassumption.
Qed.
Lemma set_spec : keyword (lit "set") (set_statement F).
Proof using Type.
  intros s Hn. unfold set_statement. bind ltac:(apply ident_spec). intros name s1 L1 _. bind ltac:(apply exact_spec). intros [u2|] s2 L2 U2; norm.
  - unfold set_value. bind ltac:(apply expression_spec'). intros e s3 L3 _. bind ltac:(apply terminator_spec). intros u4 s4 L4 _.
    leave. intros HT HE T2 [ws' T1] ws. rewrite T1, T2. econstructor; eassumption.
  - bind ltac:(apply exact_spec). intros [u3|] s3 L3 U3; norm; [|exact I].
    unfold set_value. bind ltac:(apply expression_spec'). intros e s4 L4 _. bind ltac:(apply terminator_spec). intros u5 s5 L5 _.
    leave. intros HT HE T2 _ [ws' T1] ws. rewrite T1, T2. econstructor; eassumption.
Qed.
Lemma break_spec : keyword (lit "break") (jump_statement F Break).
Proof using Type.
  intros s Hn. unfold jump_statement. bind ltac:(apply ident_spec). intros [i|] s1 L1 U1; norm; bind ltac:(apply terminator_spec); intros u2 s2 L2 _; leave.
  - intros H [ws' T] ws. rewrite T. constructor. exact H.
  - intros H _ ws. constructor. exact H.
Qed.
Lemma continue_spec : keyword (lit "continue") (jump_statement F Continue).
Proof using Type.
  intros s Hn. unfold jump_statement. bind ltac:(apply ident_spec). intros [i|] s1 L1 U1; norm; bind ltac:(apply terminator_spec); intros u2 s2 L2 _; leave.
  - intros H [ws' T] ws. rewrite T. constructor. exact H.
  - intros H _ ws. constructor. exact H.
Qed.
Lemma del_spec : keyword (lit "del") (del_statement F).
Proof using Type.
  intros s Hn. unfold del_statement. bind ltac:(apply expression_spec'). intros e s1 L1 _. bind ltac:(apply terminator_spec). intros u2 s2 L2 _.
  leave. intros H HE ws. econstructor; eassumption.
Qed.
Lemma other_spec s : 2 * len s <= n -> spec s (other_statement F R s) (strictly s)
  (fun o r => match o with Some x => (forall w, In w block_words -> not_word F w (toks s)) -> stmt_at F x (toks s) r | None => True end).
Proof using HR.
  intros Hn. unfold other_statement. bind ltac:(apply simple_spec; exact Hn); cbv beta; auto. intros x s1 L1 U1; norm.
  assert (PLAIN : forall s2, toks s2 = toks s1 -> spec s2 (req_ F (statement_terminator F s2) (fun _ s3 => ret F x s3)) (strictly s)
    (fun o r => simple_at F false x (toks s) (toks s1) -> match o with Some x => (forall w, In w block_words -> not_word F w (toks s)) -> stmt_at F x (toks s) r | None => True end)).
  { intros s2 E. bind ltac:(apply terminator_spec). intros u3 s3 L3 _. leave; [rewrite E in L3; cbn; lia|]. intros HT HS HW. rewrite E in HT. eapply X_simple; eassumption. }
  destruct (match x with Expr e => ident_of F e | _ => None end) as [name|] eqn:En.
  - assert (Ex : x = Expr (name_expr F name)) by (destruct x; try discriminate; f_equal; apply ident_of_name; exact En). subst x.
    bind ltac:(apply exact_spec). intros [u2|] s2 L2 U2; norm.
    + bind ltac:(apply (gd_block _ _ HR); lia). intros b s3 L3 _. leave; [cbn; lia|]. intros HB T HS HW. rewrite T in HS. eapply X_label; eassumption.
    + eapply spec_weaken; [apply PLAIN; reflexivity|auto|]. intros o r H _. exact H.
  - apply PLAIN. reflexivity.
Qed.
Lemma by_keyword_spec s : 2 * len s <= n -> forall l seen, seen ++ map fst l = block_words -> (forall w k, In (w, k) l -> keyword w k) ->
  spec s (by_keyword F R l s) (strictly s) (fun o r => match o with Some x => (forall w, In w seen -> not_word F w (toks s)) -> stmt_at F x (toks s) r | None => True end).
Proof using HR.
  intros Hn. induction l as [|[w k] l IH]; intros seen Hs Hk; cbn [by_keyword].
  - cbn in Hs. rewrite app_nil_r in Hs. subst seen. apply other_spec. exact Hn.
  - bind ltac:(apply exact_ident_spec). intros [u|] s1 L1 U1; norm.
    + eapply spec_weaken; [apply (Hk w k); [left; reflexivity|lia]| |].
      * intros [x|] s' L U; [cbn; lia|congruence].
      * intros [x|] r; [|intros; exact I]. intros H [ws T] _. rewrite T. apply H.
    + eapply spec_weaken; [apply (IH (seen ++ [w])); [rewrite <- app_assoc; exact Hs|intros; apply Hk; right; assumption]|auto|].
      intros [x|] r; [|intros; exact I]. intros H [_ N] HW. apply H. intros w' Hw. apply in_app_or in Hw as [Hw|[<-|[]]]; [apply HW, Hw|exact N].
Qed.
Lemma stmt_spec s : 2 * len s + 1 <= S n -> spec s (stmt_body F R s) (strictly s) (fun o r => match o with Some x => stmt_at F x (toks s) r | None => True end).
Proof using HR.
  intros Hn. unfold stmt_body. eapply spec_weaken; [apply (by_keyword_spec s) with (seen := []); [lia|reflexivity|]|auto|].
  - intros w k. cbn [In].
    pose proof if_spec. pose proof while_spec. pose proof do_spec. pose proof for_spec. pose proof spawn_spec. pose proof switch_spec. pose proof try_spec.
    pose proof set_spec. pose proof break_spec. pose proof continue_spec. pose proof del_spec.
    intros Q. repeat (destruct Q as [Q|Q]; [injection Q as <- <-; assumption|]). destruct Q.
  - intros [x|] r; [|auto]. intros H. apply H. intros w [].
Qed.
Lemma step_good : good (S n) (sstep F R).
Proof using HR.
  constructor; cbn [sstep r_suffix r_decls r_caselist r_params r_semis r_block r_stmts r_stmt r_arms r_cases].
  - apply suffix_spec.
  - apply decls_spec.
  - intros c l s Hn. unfold caselist_body. apply separated_spec; [apply case_item_spec|]. intros c' l' s1 L. apply (gd_caselist _ _ HR). lia.
  - intros c l s Hn. unfold params_body. apply separated_spec; [apply param_spec|]. intros c' l' s1 L. apply (gd_params _ _ HR). lia.
  - apply semis_spec.
  - apply block_spec.
  - apply stmts_spec.
  - apply stmt_spec.
  - apply arms_spec.
  - apply cases_spec.
Qed.
End BODY.

Lemma srun_good n : good n (srun F n).
Proof using Type. induction n as [|n IH]; [constructor; intros; lia|]. apply step_good, IH. Qed.
End SOUND2.
