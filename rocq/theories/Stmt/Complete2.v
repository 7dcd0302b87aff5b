(** What the grammar of statements has, the parser of statements reads: the mutually recursive functions. *)
From Coq Require Import List NArith ZArith Bool String Lia.
From Verif Require Import Common.Text Lexer.Punct Lexer.Model Parse.Ast Parse.Model Parse.Spec Parse.Complete Parse.Complete2
  Stmt.Ast Stmt.Model Stmt.Spec Stmt.Sound Stmt.Sound2 Stmt.Complete.
Import ListNotations.
Open Scope nat_scope.

Section COMPLETE2.
Variable F : Type.
Notation tok := (token F).
Notation expr := (expr F).
Notation stmt := (stmt F).
Notation block := (block F).
Notation pst := (pst F).
Notation res := (res F).
Notation P p := (TPunct F p).
Notation W w ws := (TIdent F (lit w) ws).
Notation mk := (Complete.mk F).
Notation length := (@List.length tok).

Record full (n : nat) (R : sfns F) : Prop := {
  fl_suffix : forall sz x ts rest ds, 2 * length ts + 1 <= n -> sizes_at F x ts rest -> r_suffix F R sz (mk ts ds) = Ok (Some (sz ++ x)) (mk rest ds);
  fl_decl : forall l d ts rest ds, 2 * length ts + 1 <= n -> decl_at F d ts rest -> r_decls F R true l (mk ts ds) = Ok (Some (l ++ [d])) (mk rest ds);
  fl_locals : forall l x ts rest ds, 2 * length ts + 1 <= n -> locals_at F x ts rest -> r_decls F R false l (mk ts ds) = Ok (Some (l ++ x)) (mk rest ds);
  fl_caselist : forall c l x ts rest ds, 2 * length ts + 1 <= n -> after_item F (case_at F) c x ts rest -> r_caselist F R c l (mk ts ds) = Ok (Some (l ++ x)) (mk rest ds);
  fl_params : forall c l x ts rest ds, 2 * length ts + 1 <= n -> after_item F (path_at F) c x ts rest -> r_params F R c l (mk ts ds) = Ok (Some (l ++ x)) (mk rest ds);
  fl_semis : forall ts rest ds, 2 * length ts + 1 <= n -> semicolons F ts rest -> r_semis F R (mk ts ds) = Ok (Some tt) (mk rest ds);
  fl_block : forall b ts rest ds, 2 * length ts + 2 <= n -> block_at F b ts rest -> r_block F R (mk ts ds) = Ok (Some b) (mk rest ds);
  fl_stmts : forall l b ts rest ds, 2 * length ts + 2 <= n -> stmts_at F b ts rest -> r_stmts F R l (mk ts ds) = Ok (Some (l ++ b)) (mk rest ds);
  fl_stmt : forall x ts rest ds, 2 * length ts + 1 <= n -> stmt_at F x ts rest -> r_stmt F R (mk ts ds) = Ok (Some x) (mk rest ds);
  fl_arms : forall l x o ts rest ds, 2 * length ts + 2 <= n -> arms_at F x o ts rest -> r_arms F R l (mk ts ds) = Ok (Some (l ++ x, o)) (mk rest ds);
  fl_cases : forall l x o ts rest ds, 2 * length ts + 1 <= n -> cases_at F x o ts rest -> r_cases F R l (mk ts ds) = Ok (Some (l ++ x, o)) (mk (P PRBrace :: rest) ds) }.

Ltac other := first [intros ? ?; discriminate | let E := fresh in intros ? ? E; (discriminate E || (vm_compute in E; discriminate E)) | let E := fresh in intros ? ? ? E; discriminate E].
Ltac ev L := rewrite L; cbn [opt_ req_ lead_ ret success].
Ltac lens :=
  repeat match goal with
  | H : opt_simple _ _ _ _ _ |- _ => apply opt_simple_le in H
  | H : simple_at _ _ _ _ _ |- _ => apply simple_lt in H
  | H : opt_as _ _ _ _ |- _ => apply as_le in H
  | H : opt_expr _ _ _ _ |- _ => apply opt_expr_le in H
  | H : expr_at _ _ _ _ |- _ => apply expr_lt in H
  | H : inc_at _ _ _ _ _ |- _ => apply inc_lt in H
  | H : step_at _ _ _ _ |- _ => apply step_lt in H
  | H : head_at _ _ _ _ |- _ => apply head_lt in H
  | H : path_at _ _ _ _ |- _ => apply path_lt in H
  | H : sizes_at _ _ _ _ |- _ => apply sizes_le in H
  | H : decl_at _ _ _ _ |- _ => apply decl_lt in H
  | H : locals_at _ _ _ _ |- _ => apply locals_lt in H
  | H : case_at _ _ _ _ |- _ => apply case_lt in H
  | H : parens_at _ _ _ _ |- _ => apply parens_lt in H
  | H : ended _ _ _ |- _ => apply ended_le in H
  | H : semicolons _ _ _ |- _ => apply semis_le in H
  | H : items_at _ (path_at _) _ _ _ |- _ => apply (items_le F _ (path_lt F)) in H
  | H : items_at _ (case_at _) _ _ _ |- _ => apply (items_le F _ (case_lt F)) in H
  | H : stmt_at _ _ _ _ |- _ => apply stmt_lt in H
  | H : block_at _ _ _ _ |- _ => apply block_le in H
  | H : stmts_at _ _ _ _ |- _ => apply stmts_lt in H
  | H : arms_at _ _ _ _ _ |- _ => apply arms_le in H
  | H : cases_at _ _ _ _ _ |- _ => apply cases_lt in H
  end; cbn [List.length] in *; lia.

Lemma terminator_yes ts rest ds : ended F ts rest -> statement_terminator F (mk ts ds) = Ok (Some tt) (mk rest ds).
Proof using Type. intros H. inversion H; subst; reflexivity. Qed.
Lemma parens_yes e ts rest ds : parens_at F e ts rest -> in_parens F (mk ts ds) = Ok (Some e) (mk rest ds).
Proof using Type.
  intros H. inversion H as [e0 ts0 r0 HE]; subst. unfold in_parens. ev exact_yes. ev (expr_yes F _ _ _ ds HE). ev exact_yes. reflexivity.
Qed.
Lemma case_yes x ts rest ds : case_at F x ts rest -> case_item F (mk ts ds) = Ok (Some x) (mk rest ds).
Proof using Type.
  intros H. unfold case_item. inversion H as [e ts0 r0 HE HN|a b ws ts0 mid r0 HA HB]; subst.
  - ev (expr_yes F _ _ _ ds HE). ev (word_no F _ _ ds HN). reflexivity.
  - ev (expr_yes F _ _ _ ds HA). ev word_yes. ev (expr_yes F _ _ _ ds HB). reflexivity.
Qed.
Lemma param_yes x ts rest ds : path_at F x ts rest -> lead_ F (tree_path F (mk ts ds)) (fun p s1 => ret F p s1) = Ok (Some x) (mk rest ds).
Proof using Type. intros H. ev (path_yes F _ _ _ ds H). reflexivity. Qed.
Lemma separated_yes {X : Type} (item : pst -> res X) (item_at : X -> list tok -> list tok -> Prop)
  (again : bool -> list X -> pst -> res (list X)) c l x ts rest ds :
  (forall x ts rest, item_at x ts rest -> length rest < length ts) ->
  (forall x ts rest ds, item_at x ts rest -> item (mk ts ds) = Ok (Some x) (mk rest ds)) ->
  (forall c' l' x' ts' rest' ds', length ts' < length ts -> after_item F item_at c' x' ts' rest' -> again c' l' (mk ts' ds') = Ok (Some (l' ++ x')) (mk rest' ds')) ->
  after_item F item_at c x ts rest ->
  separated_body F PComma PRParen None item again c l (mk ts ds) = Ok (Some (l ++ x)) (mk rest ds).
Proof using Type.
  intros HL HI HA H. unfold separated_body. destruct c; cbn [after_item] in H.
  - destruct H as [[-> ->]|(mid & -> & H)].
    + ev exact_yes. rewrite app_nil_r. reflexivity.
    + ev (punct_no F PRParen (P PComma :: mid) ds ltac:(other)). ev exact_yes. apply HA; [cbn; lia|exact H].
  - inversion H as [r0|x0 ts0 r0 N1 N2 HX|x0 ts0 mid xs r0 N1 N2 HX HS]; subst.
    + ev exact_yes. rewrite app_nil_r. reflexivity.
    + ev (punct_no F _ _ ds N1). ev (punct_no F _ _ ds N2). ev (HI _ _ _ ds HX). apply HL in HX.
      rewrite (HA true (l ++ [x0]) [] (P PRParen :: rest) rest ds HX); [rewrite app_nil_r; reflexivity|]. left. auto.
    + ev (punct_no F _ _ ds N1). ev (punct_no F _ _ ds N2). ev (HI _ _ _ ds HX). apply HL in HX.
      rewrite (HA true (l ++ [x0]) xs (P PComma :: mid) rest ds HX); [rewrite <- app_assoc; reflexivity|]. right. eauto.
Qed.

Section BODY.
Variable n : nat.
Variable R : sfns F.
Hypothesis HF : full n R.

Lemma suffix_yes sz x ts rest ds : 2 * length ts + 1 <= S n -> sizes_at F x ts rest -> suffix_body F R sz (mk ts ds) = Ok (Some (sz ++ x)) (mk rest ds).
Proof using HF.
  intros Hn H. unfold suffix_body. inversion H as [ts0 N|o ts0 mid sz0 r0 HO HS]; subst.
  - ev (punct_no F _ _ ds N). rewrite app_nil_r. reflexivity.
  - ev exact_yes. ev (opt_expr_yes F _ _ _ ds HO). ev exact_yes. rewrite (fl_suffix _ _ HF _ sz0 mid rest) by (eassumption || lens).
    rewrite <- app_assoc. reflexivity.
Qed.
Lemma declared_yes b d ts ds : (b = false -> not_word F (lit "as") ts /\ not_punct F PIn ts) -> declared F b d (mk ts ds) = Ok (Some d) (mk ts ds).
Proof using Type.
  intros H. unfold declared. destruct b; [reflexivity|]. destruct (H eq_refl) as [H1 H2]. unfold input_specifier, in_clause.
  ev (word_no F _ _ ds H1). ev (punct_no F _ _ ds H2). reflexivity.
Qed.
Lemma declaration_yes b d ts rest ds : 2 * length ts + 1 <= S n -> decl_at F d ts rest -> (b = false -> not_word F (lit "as") rest /\ not_punct F PIn rest) ->
  declaration F R b (mk ts ds) = Ok (Some d) (mk rest ds).
Proof using HF.
  intros Hn H HB. unfold declaration.
  inversion H as [p name m t sz ts0 t1 r0 HP HT HS HN|p name m t sz e ts0 t1 t2 r0 HP HT HS HE]; subst;
    ev (path_yes F _ _ _ ds HP); rewrite pop_snoc, (var_type_yes _ _ _ HT), N.lor_0_l; cbn [v_flags]; rewrite (warn_clean F _ _ _ _ HT);
    rewrite (fl_suffix _ _ HF [] sz t1 _ ds) by (eassumption || lens); cbn [opt_ req_ app].
  - ev (punct_no F _ _ ds HN). rewrite with_suffix_eq. apply declared_yes, HB.
  - ev exact_yes. ev (expr_yes F _ _ _ ds HE). rewrite with_suffix_eq. apply declared_yes, HB.
Qed.
Lemma decl_yes l d ts rest ds : 2 * length ts + 1 <= S n -> decl_at F d ts rest -> decls_body F R true l (mk ts ds) = Ok (Some (l ++ [d])) (mk rest ds).
Proof using HF. intros Hn H. unfold decls_body. ev (declaration_yes true d ts rest ds Hn H ltac:(discriminate)). reflexivity. Qed.
Lemma locals_yes l x ts rest ds : 2 * length ts + 1 <= S n -> locals_at F x ts rest -> decls_body F R false l (mk ts ds) = Ok (Some (l ++ x)) (mk rest ds).
Proof using HF.
  intros Hn H. unfold decls_body. inversion H as [d ts0 r0 [HD HQ] N|d ts0 mid xs r0 [HD HQ] HL]; subst.
  - ev (declaration_yes false d ts rest ds Hn HD (fun _ => HQ)). ev (punct_no F _ _ ds N). reflexivity.
  - ev (declaration_yes false d ts _ ds Hn HD (fun _ => HQ)). ev exact_yes. rewrite (fl_locals _ _ HF _ xs mid rest ds) by (eassumption || lens). rewrite <- app_assoc. reflexivity.
Qed.
Lemma simple_yes b x ts rest ds : 2 * length ts <= n -> simple_at F b x ts rest -> simple_statement F R b (mk ts ds) = Ok (Some x) (mk rest ds).
Proof using HF.
  intros Hn H. unfold simple_statement.
  inversion H as [d ws ts0 r0 HD|xs ws ts0 r0 HD|f o ws ts0 r0 HO|f o ws ts0 r0 HO|f e ws ts0 r0 HE|f i ws ws' r0|f e ts0 r0 HE HW]; subst.
  - ev word_yes. rewrite (fl_decl _ _ HF [] d ts0 rest ds) by (eassumption || lens). reflexivity.
  - ev word_yes. rewrite (fl_locals _ _ HF [] xs ts0 rest ds) by (eassumption || lens). reflexivity.
  - ev (word_no F (lit "var") (W "return" ws :: ts0) ds ltac:(other)). ev word_yes. ev (opt_expr_yes F _ _ _ ds HO). reflexivity.
  - ev (word_no F (lit "var") (W "CRASH" ws :: P PLParen :: ts0) ds ltac:(other)). ev (word_no F (lit "return") (W "CRASH" ws :: P PLParen :: ts0) ds ltac:(other)).
    ev word_yes. ev exact_yes. ev (opt_expr_yes F _ _ _ ds HO). ev exact_yes. reflexivity.
  - ev (word_no F (lit "var") (W "throw" ws :: ts0) ds ltac:(other)). ev (word_no F (lit "return") (W "throw" ws :: ts0) ds ltac:(other)).
    ev (word_no F (lit "CRASH") (W "throw" ws :: ts0) ds ltac:(other)). ev word_yes. ev (expr_yes F _ _ _ ds HE). reflexivity.
  - set (tl := TIdent F i ws' :: rest).
    ev (word_no F (lit "var") (W "goto" ws :: tl) ds ltac:(other)). ev (word_no F (lit "return") (W "goto" ws :: tl) ds ltac:(other)).
    ev (word_no F (lit "CRASH") (W "goto" ws :: tl) ds ltac:(other)). ev (word_no F (lit "throw") (W "goto" ws :: tl) ds ltac:(other)). ev word_yes. reflexivity.
  - cbn [simple_words In] in HW.
    ev (word_no F (lit "var") ts ds ltac:(apply HW; tauto)). ev (word_no F (lit "return") ts ds ltac:(apply HW; tauto)).
    ev (word_no F (lit "CRASH") ts ds ltac:(apply HW; tauto)). ev (word_no F (lit "throw") ts ds ltac:(apply HW; tauto)).
    ev (word_no F (lit "goto") ts ds ltac:(apply HW; tauto)). ev (expr_yes F _ _ _ ds HE). reflexivity.
Qed.
Lemma no_start_word ts w : no_start F ts -> not_word F w ts.
Proof using Type. intros H ws r ->. discriminate H. Qed.
Lemma opt_simple_yes b o ts rest ds : 2 * length ts <= n -> opt_simple F b o ts rest -> simple_statement F R b (mk ts ds) = Ok o (mk rest ds).
Proof using HF.
  intros Hn H. inversion H as [f x ts0 r0 HS|f ts0 HN]; subst; [apply simple_yes; assumption|]. fold (no_start F rest) in HN. unfold simple_statement.
  do 5 (ev (fun w => word_no F w rest ds (no_start_word _ w HN))). ev (expr_none F rest ds HN). reflexivity.
Qed.
Lemma semis_yes ts rest ds : 2 * length ts + 1 <= S n -> semicolons F ts rest -> semis_body F R (mk ts ds) = Ok (Some tt) (mk rest ds).
Proof using HF.
  intros Hn H. unfold semis_body. inversion H as [ts0 N|ts0 r0 HS]; subst.
  - ev (punct_no F _ _ ds N). reflexivity.
  - ev exact_yes. apply (fl_semis _ _ HF); [lens|exact HS].
Qed.
Lemma stmt_starts x ts rest : stmt_at F x ts rest -> forall p, starter F (P p) = false -> not_punct F p ts.
Proof using Type.
  intros H p Hp r E.
  assert (S : starts F ts).
  { assert (K : forall b y t, simple_at F b y ts t -> starts F ts).
    { intros b y t HS. inversion HS; subst; try reflexivity. eapply expr_at_starts. eassumption. }
    inversion H; subst; try reflexivity; eapply K; eassumption. }
  rewrite E in S. cbn [starts] in S. congruence.
Qed.
Lemma block_yes b ts rest ds : 2 * length ts + 2 <= S n -> block_at F b ts rest -> block_body F R (mk ts ds) = Ok (Some b) (mk rest ds).
Proof using HF.
  intros Hn H. unfold block_body. inversion H as [b0 ts0 r0 HS|ts0 r0 HE|x ts0 r0 HX]; subst.
  - ev exact_yes. rewrite (fl_stmts _ _ HF [] b ts0 rest ds) by (eassumption || lens). reflexivity.
  - assert (N : not_punct F PLBrace ts) by (inversion HE; subst; other). ev (punct_no F _ _ ds N). ev (terminator_yes _ _ ds HE). reflexivity.
  - ev (punct_no F _ _ ds (stmt_starts _ _ _ HX PLBrace eq_refl)).
    assert (E : statement_terminator F (mk ts ds) = Ok None (mk ts ds)).
    { pose proof (stmt_starts _ _ _ HX PSemicolon eq_refl) as N1. pose proof (stmt_starts _ _ _ HX PRBrace eq_refl) as N2.
      unfold statement_terminator. cbn [toks Complete.mk]. destruct ts as [|[q| | | | | | | | |] ts']; try reflexivity. destruct q; try reflexivity; exfalso; [eapply N1|eapply N2]; reflexivity. }
    ev E. rewrite (fl_stmt _ _ HF x ts rest ds) by (eassumption || lens). reflexivity.
Qed.
Lemma stmts_yes l b ts rest ds : 2 * length ts + 2 <= S n -> stmts_at F b ts rest -> stmts_body F R l (mk ts ds) = Ok (Some (l ++ b)) (mk rest ds).
Proof using HF.
  intros Hn H. unfold stmts_body. inversion H as [r0|b0 ts0 r0 HS|x b0 ts0 mid r0 HX HS]; subst.
  - ev exact_yes. rewrite app_nil_r. reflexivity.
  - ev (punct_no F PRBrace (P PSemicolon :: ts0) ds ltac:(other)). ev exact_yes. apply (fl_stmts _ _ HF); [lens|exact HS].
  - ev (punct_no F _ _ ds (stmt_starts _ _ _ HX PRBrace eq_refl)). ev (punct_no F _ _ ds (stmt_starts _ _ _ HX PSemicolon eq_refl)).
    rewrite (fl_stmt _ _ HF x ts mid ds) by (eassumption || lens). cbn [req_]. rewrite (fl_stmts _ _ HF _ b0 mid rest ds) by (eassumption || lens). rewrite <- app_assoc. reflexivity.
Qed.
Lemma arms_yes l x o ts rest ds : 2 * length ts + 2 <= S n -> arms_at F x o ts rest -> arms_body F R l (mk ts ds) = Ok (Some (l ++ x, o)) (mk rest ds).
Proof using HF.
  intros Hn H. unfold arms_body. inversion H as [ts0 r0 HS N|b ws ts0 mid r0 HS N HB|c b arms o0 ws ws' ts0 mid t1 t2 r0 HS HC HB HA]; subst.
  - rewrite (fl_semis _ _ HF ts rest ds) by (eassumption || lens). cbn [req_]. ev (word_no F _ _ ds N). rewrite app_nil_r. reflexivity.
  - rewrite (fl_semis _ _ HF ts _ ds) by (eassumption || lens). cbn [req_]. ev word_yes. ev (word_no F _ _ ds N). rewrite (fl_block _ _ HF b mid rest ds) by (eassumption || lens).
    rewrite app_nil_r. reflexivity.
  - rewrite (fl_semis _ _ HF ts _ ds) by (eassumption || lens). cbn [req_]. ev word_yes. ev word_yes. ev (parens_yes _ _ _ ds HC).
    rewrite (fl_block _ _ HF b t1 t2 ds) by (eassumption || lens). cbn [req_]. rewrite (fl_arms _ _ HF _ arms o t2 rest ds) by (eassumption || lens). rewrite <- app_assoc. reflexivity.
Qed.
Lemma cases_yes l x o ts rest ds : 2 * length ts + 1 <= S n -> cases_at F x o ts rest -> cases_body F R l (mk ts ds) = Ok (Some (l ++ x, o)) (mk (P PRBrace :: rest) ds).
Proof using HF.
  intros Hn H. unfold cases_body. inversion H as [r0|cs o0 ts0 r0 HC|what b cs o0 ws ts0 t1 t2 r0 HI HW HB HC|b ws ts0 r0 HB]; subst.
  - ev (word_no F (lit "if") (P PRBrace :: rest) ds ltac:(other)). ev (word_no F (lit "else") (P PRBrace :: rest) ds ltac:(other)).
    ev (punct_no F PSemicolon (P PRBrace :: rest) ds ltac:(other)). rewrite app_nil_r. reflexivity.
  - ev (word_no F (lit "if") (P PSemicolon :: ts0) ds ltac:(other)). ev (word_no F (lit "else") (P PSemicolon :: ts0) ds ltac:(other)). ev exact_yes.
    apply (fl_cases _ _ HF); [lens|exact HC].
  - ev word_yes. ev exact_yes. rewrite (fl_caselist _ _ HF false [] what ts0 t1 ds) by (eassumption || lens). cbn [req_ app].
    destruct what as [|w what]; [congruence|]. rewrite (fl_block _ _ HF b t1 t2 ds) by (eassumption || lens). cbn [req_].
    rewrite (fl_cases _ _ HF _ cs o t2 rest ds) by (eassumption || lens). rewrite <- app_assoc. reflexivity.
  - ev (word_no F (lit "if") (W "else" ws :: ts0) ds ltac:(other)). ev word_yes. rewrite (fl_block _ _ HF b ts0 _ ds) by (eassumption || lens). rewrite app_nil_r. reflexivity.
Qed.

(** *** Loops *)
Lemma then_block_yes (k : block -> stmt) b ts rest ds : 2 * length ts + 2 <= n -> block_at F b ts rest ->
  then_block F R k (mk (P PRParen :: ts) ds) = Ok (Some (k b)) (mk rest ds).
Proof using HF. intros Hn HB. unfold then_block. ev exact_yes. rewrite (fl_block _ _ HF b ts rest ds) by (eassumption || lens). reflexivity. Qed.
Lemma for_range_yes ty name a e st b ts t rest ds : 2 * length ts <= n -> step_at F st ts t -> block_at F b t rest ->
  for_range F R ty name a e (mk ts ds) = Ok (Some (ForRange ty name a e st b)) (mk rest ds).
Proof using HF.
  intros Hn HS HB. unfold for_range. inversion HS as [r0|e0 ws ts0 r0 HE]; subst.
  - ev (word_no F (lit "step") (P PRParen :: t) ds ltac:(other)). rewrite (then_block_yes _ b) with (rest := rest) by (eassumption || lens). reflexivity.
  - ev word_yes. ev (expr_yes F _ _ _ ds HE). rewrite (then_block_yes _ b) with (rest := rest) by (eassumption || lens). reflexivity.
Qed.
Lemma inc_yes {X : Type} sep o ts t ds (k : option stmt -> pst -> res X) : 2 * length ts <= n -> inc_at F sep o ts t -> sep <> PRParen ->
  opt_ F (exact F sep (mk ts ds)) (fun c s2 => opt_ F (match c with Some _ => simple_statement F R false s2 | None => Ok None s2 end) k) = k o (mk (P PRParen :: t) ds).
Proof using HF.
  intros Hn HI Hs. inversion HI as [r0|o0 ts0 r0 HO]; subst.
  - ev (punct_no F sep (P PRParen :: t) ds ltac:(intros ? E; congruence)). reflexivity.
  - ev exact_yes. rewrite (opt_simple_yes false o ts0 (P PRParen :: t) ds) by (eassumption || lens). reflexivity.
Qed.
Lemma for_list_none ty name a b ts t rest ds : 2 * length ts <= n -> opt_as F a ts (P PRParen :: t) -> block_at F b t rest ->
  for_list F R ty name (mk ts ds) = Ok (Some (ForList ty name a None b)) (mk rest ds).
Proof using HF.
  intros Hn HA HB. unfold for_list. ev (as_yes F _ _ _ ds HA). ev (punct_no F PIn (P PRParen :: t) ds ltac:(other)).
  rewrite (then_block_yes _ b) with (rest := rest) by (eassumption || lens). reflexivity.
Qed.
Lemma for_list_some ty name a e b ts t1 t rest ds : 2 * length ts <= n -> opt_as F a ts (P PIn :: t1) -> expr_at F e t1 (P PRParen :: t) -> block_at F b t rest ->
  for_list F R ty name (mk ts ds) = Ok (Some (ForList ty name a (Some e) b)) (mk rest ds).
Proof using HF.
  intros Hn HA HE HB. unfold for_list. ev (as_yes F _ _ _ ds HA). ev exact_yes. ev (expr_yes F _ _ _ ds HE).
  ev (word_no F (lit "to") (P PRParen :: t) ds ltac:(other)). rewrite (then_block_yes _ b) with (rest := rest) by (eassumption || lens). reflexivity.
Qed.
Lemma for_list_range ty name a e e' st b ws ts t1 t2 t3 t rest ds : 2 * length ts <= n -> opt_as F a ts (P PIn :: t1) -> expr_at F e t1 (W "to" ws :: t2) ->
  expr_at F e' t2 t3 -> step_at F st t3 t -> block_at F b t rest ->
  for_list F R ty name (mk ts ds) = Ok (Some (ForRange ty name e e' st b)) (mk rest ds).
Proof using HF.
  intros Hn HA HE HE' HS HB. unfold for_list. ev (as_yes F _ _ _ ds HA). ev exact_yes. ev (expr_yes F _ _ _ ds HE). ev word_yes. ev (expr_yes F _ _ _ ds HE').
  eapply for_range_yes; [lens|exact HS|exact HB].
Qed.
Lemma for_to_yes ty name a e st b ws ts t1 t rest ds : 2 * length ts <= n -> expr_at F e ts t1 -> step_at F st t1 t -> block_at F b t rest ->
  for_to F R ty name a (mk (W "to" ws :: ts) ds) = Ok (Some (ForRange ty name a e st b)) (mk rest ds).
Proof using HF.
  intros Hn HE HS HB. unfold for_to. ev word_yes. ev (expr_yes F _ _ _ ds HE). eapply for_range_yes; [lens|exact HS|exact HB].
Qed.
Lemma for_yes h b ts t1 rest ds : 2 * length (P PLParen :: ts) + 2 <= n -> head_at F h ts t1 -> block_at F b t1 rest ->
  for_statement F R (mk (P PLParen :: ts) ds) = Ok (Some (for_stmt F h b)) (mk rest ds).
Proof using HF.
  intros Hn HH HB. unfold for_statement. ev exact_yes.
  (* the first part and [as] *)
  assert (INIT : forall o t a t' k, opt_simple F true o ts t -> opt_as F a t t' ->
     opt_ F (simple_statement F R true (mk ts ds)) (fun init s2 => req_ F (as_clause F s2) (fun kit s3 => k init kit s3)) = k o a (mk t' ds) :> res stmt).
  { intros o t a t' k HO HA. rewrite (opt_simple_yes true o ts t ds) by (eassumption || lens). cbn [opt_]. ev (as_yes F _ _ _ ds HA). reflexivity. }
  assert (NONE : forall t : list tok, not_punct F PSemicolon t -> not_punct F PComma t -> forall k1 k2 k3,
     opt_ F (exact F PSemicolon (mk t ds)) (fun c s4 => match c with Some _ => k1 s4 | None => opt_ F (exact F PComma s4) (fun c s5 => match c with Some _ => k2 s5 | None => k3 s5 end) end) = k3 (mk t ds) :> res stmt).
  { intros t N1 N2 k1 k2 k3. ev (punct_no F _ _ ds N1). ev (punct_no F _ _ ds N2). reflexivity. }
  inversion HH as [r0|i te c a ts0 t0 t2 t3 r0 HI HA HT HC|i te c a ts0 t0 t2 t3 r0 HI HA HT HC HG|x ty k a v l ts0 t0 t2 t3 r0 HV HI HA HE HC
    |x ty m a a' ts0 t0 t2 r0 HV HI HA HA'|x ty m a a' e ts0 t0 t2 t3 r0 HV HI HA HA' HE|m a e ts0 t0 r0 HI HT HA|x ty m a a' e e' st ws ts0 t0 t2 t3 t4 t5 r0 HV HI HA HA' HE HE' HS
    |m a e e' st ts0 t0 t2 r0 HI HA HS|x ty m a e e' st ws ts0 t0 t2 t3 r0 HV HI HA HE HS]; subst; cbn [for_stmt].
  - rewrite (INIT None (P PRParen :: t1) None (P PRParen :: t1)); [|constructor; reflexivity|constructor; other].
    rewrite NONE by other. cbn [for_other]. apply then_block_yes; [lens|exact HB].
  - rewrite (INIT _ _ _ _ _ HI HA). ev exact_yes. unfold for_semicolon. ev (opt_expr_yes F _ _ _ ds HT). rewrite (inc_yes _ c t3 t1) by (eassumption || congruence || lens).
    apply then_block_yes; [lens|exact HB].
  - rewrite (INIT _ _ _ _ _ HI HA). ev (punct_no F PSemicolon (P PComma :: t2) ds ltac:(other)). ev exact_yes. unfold for_comma. ev (opt_expr_yes F _ _ _ ds HT).
    rewrite (inc_yes _ c t3 t1) by (eassumption || congruence || lens). pose proof (then_block_yes (ForLoop i te c) b t1 rest ds) as TB. specialize (TB ltac:(lens) HB).
    destruct c as [c|]; [exact TB|]. specialize (HG eq_refl). destruct te as [[|op| |]|]; try exact TB. destruct op; try exact TB. discriminate HG.
  - rewrite (INIT (Some x) _ _ _ _ (Os_some F true x _ _ HI) HA). ev (punct_no F PSemicolon (P PComma :: t2) ds ltac:(other)). ev exact_yes. unfold for_comma.
    ev (expr_yes F _ _ _ ds HE). rewrite (inc_yes _ None t3 t1) by (eassumption || congruence || lens).
    assert (EK : key_of F (Some x) = Some (ty, k)) by (inversion HV; subst; reflexivity). rewrite EK. cbn [ident_of name_expr].
    apply then_block_yes; [lens|exact HB].
  - rewrite (INIT (Some x) _ _ _ _ (Os_some F true x _ _ HI) HA). rewrite NONE by (eapply as_punct; [exact HA'|discriminate]).
    assert (EQ : for_other F R (Some x) (mk t2 ds) = for_list F R ty m (mk t2 ds)) by (inversion HV; subst; reflexivity). rewrite EQ. eapply for_list_none; [lens|exact HA'|exact HB].
  - rewrite (INIT (Some x) _ _ _ _ (Os_some F true x _ _ HI) HA). rewrite NONE by (eapply as_punct; [exact HA'|discriminate]).
    assert (EQ : for_other F R (Some x) (mk t2 ds) = for_list F R ty m (mk t2 ds)) by (inversion HV; subst; reflexivity). rewrite EQ. eapply for_list_some; [lens|exact HA'|exact HE|exact HB].
  - rewrite (INIT _ _ _ _ _ (Os_some F true _ _ _ HI) HA). rewrite NONE by other. cbn [for_other ident_of name_expr].
    pose proof (then_block_yes (ForList None m None (Some e)) b t1 rest ds) as TB. specialize (TB ltac:(lens) HB). destruct e as [|op| |]; try exact TB. destruct op; try exact TB. discriminate HT.
  - rewrite (INIT (Some x) _ _ _ _ (Os_some F true x _ _ HI) HA). rewrite NONE by (eapply as_punct; [exact HA'|discriminate]).
    assert (EQ : for_other F R (Some x) (mk t2 ds) = for_list F R ty m (mk t2 ds)) by (inversion HV; subst; reflexivity). rewrite EQ. eapply for_list_range; [lens|exact HA'|exact HE|exact HE'|exact HS|exact HB].
  - rewrite (INIT _ _ _ _ _ (Os_some F true _ _ _ HI) HA). rewrite NONE by (inversion HS; subst; other). cbn [for_other ident_of name_expr]. eapply for_range_yes; [lens|exact HS|exact HB].
  - rewrite (INIT (Some x) _ _ _ _ (Os_some F true x _ _ HI) HA). rewrite NONE by other.
    assert (EQ : for_other F R (Some x) (mk (W "to" ws :: t2) ds) = for_to F R ty m e (mk (W "to" ws :: t2) ds)) by (inversion HV; subst; reflexivity). rewrite EQ.
    eapply for_to_yes; [lens|exact HE|exact HS|exact HB].
Qed.

(** *** Statements *)
Lemma by_keyword_hit l : NoDup (map fst l) -> forall w k ws ts ds, In (w, k) l -> by_keyword F R l (mk (TIdent F w ws :: ts) ds) = k (mk ts ds).
Proof using Type.
  induction l as [|[w' k'] l IH]; intros ND w k ws ts ds H; [contradiction|]. cbn [map fst] in ND. inversion ND as [|? ? NI ND']; subst. cbn [by_keyword]. destruct H as [H|H].
  - injection H as -> ->. ev word_yes. reflexivity.
  - ev (word_no F w' (TIdent F w ws :: ts) ds). { apply IH; assumption. } intros ws' r E. injection E as -> _ _. apply NI. apply (in_map fst) in H. exact H.
Qed.
Lemma by_keyword_miss l ts ds : (forall w, In w (map fst l) -> not_word F w ts) -> by_keyword F R l (mk ts ds) = other_statement F R (mk ts ds).
Proof using Type.
  induction l as [|[w' k'] l IH]; intros H; [reflexivity|]. cbn [by_keyword]. ev (word_no F w' ts ds (H w' (or_introl eq_refl))). apply IH. intros w Hw. apply H. right. exact Hw.
Qed.
Lemma stmt_yes x ts rest ds : 2 * length ts + 1 <= S n -> stmt_at F x ts rest -> stmt_body F R (mk ts ds) = Ok (Some x) (mk rest ds).
Proof using HF.
  intros Hn H. unfold stmt_body.
  match goal with |- by_keyword F R ?l _ = _ => set (L := l) end.
  assert (ND : NoDup (map fst L)).
  { change (map fst L) with block_words. unfold block_words. repeat constructor; intros Q; cbn [In] in Q; repeat (destruct Q as [Q|Q]; [vm_compute in Q; discriminate Q|]); destruct Q. }
  assert (HIT : forall w k, In (w, k) L -> forall ws ts ds, by_keyword F R L (mk (TIdent F w ws :: ts) ds) = k (mk ts ds)) by (intros; apply by_keyword_hit; assumption).
  cbn [In L] in HIT.
  assert (MISS : (forall w, In w block_words -> not_word F w ts) -> by_keyword F R L (mk ts ds) = other_statement F R (mk ts ds)) by (intros; apply by_keyword_miss; assumption).
  inversion H; subst.
  - rewrite MISS by assumption. unfold other_statement.
    match goal with HS : simple_at _ _ _ _ ?mid, HE : ended _ ?mid _ |- _ =>
      rewrite (simple_yes false x ts mid ds) by (eassumption || lens); cbn [lead_];
      assert (PL : req_ F (statement_terminator F (mk mid ds)) (fun _ s3 => ret F x s3) = Ok (Some x) (mk rest ds)) by (ev (terminator_yes _ _ ds HE); reflexivity);
      destruct (match x with Expr e => ident_of F e | _ => None end); [|exact PL];
      ev (punct_no F PColon mid ds ltac:(inversion HE; subst; other)); exact PL end.
  - rewrite MISS by assumption. unfold other_statement.
    rewrite (simple_yes false (Expr (name_expr F i)) ts (P PColon :: mid) ds) by (eassumption || lens). cbn [lead_ ident_of name_expr]. ev exact_yes.
    rewrite (fl_block _ _ HF b mid rest ds) by (eassumption || lens). reflexivity.
  - rewrite (HIT (lit "if") (if_statement F R) ltac:(tauto)). unfold if_statement.
    match goal with HC : parens_at _ _ _ _ |- _ => ev (parens_yes _ _ _ ds HC) end.
    rewrite (fl_block _ _ HF b t1 t2 ds) by (eassumption || lens). cbn [req_]. rewrite (fl_arms _ _ HF _ arms o t2 rest ds) by (eassumption || lens). reflexivity.
  - rewrite (HIT (lit "while") (while_statement F R) ltac:(tauto)). unfold while_statement.
    match goal with HC : parens_at _ _ _ _ |- _ => ev (parens_yes _ _ _ ds HC) end.
    rewrite (fl_block _ _ HF b t1 rest ds) by (eassumption || lens). reflexivity.
  - rewrite (HIT (lit "do") (do_statement F R) ltac:(tauto)). unfold do_statement.
    rewrite (fl_block _ _ HF b ts0 t1 ds) by (eassumption || lens). cbn [req_]. rewrite (fl_semis _ _ HF t1 _ ds) by (eassumption || lens). cbn [req_]. ev word_yes.
    match goal with HC : parens_at _ _ _ _, HE : ended _ _ _ |- _ => ev (parens_yes _ _ _ ds HC); ev (terminator_yes _ _ ds HE) end. reflexivity.
  - rewrite (HIT (lit "for") (for_statement F R) ltac:(tauto)). eapply for_yes; [|eassumption|eassumption]. lens.
  - rewrite (HIT (lit "spawn") (spawn_statement F R) ltac:(tauto)). unfold spawn_statement. ev (punct_no F PLParen ts0 ds ltac:(assumption)).
    rewrite (fl_block _ _ HF b ts0 rest ds) by (eassumption || lens). reflexivity.
  - rewrite (HIT (lit "spawn") (spawn_statement F R) ltac:(tauto)). unfold spawn_statement. ev exact_yes.
    match goal with HO : opt_expr _ _ _ _ |- _ => ev (opt_expr_yes F _ _ _ ds HO) end. ev exact_yes. rewrite (fl_block _ _ HF b t1 rest ds) by (eassumption || lens). reflexivity.
  - rewrite (HIT (lit "switch") (switch_statement F R) ltac:(tauto)). unfold switch_statement.
    match goal with HC : parens_at _ _ _ _ |- _ => ev (parens_yes _ _ _ ds HC) end. ev exact_yes. rewrite (fl_cases _ _ HF [] cs o t1 rest ds) by (eassumption || lens). cbn [req_]. ev exact_yes. reflexivity.
  - rewrite (HIT (lit "try") (try_statement F R) ltac:(tauto)). unfold try_statement. rewrite (fl_block _ _ HF b ts0 t1 ds) by (eassumption || lens). cbn [req_].
    rewrite (fl_semis _ _ HF t1 _ ds) by (eassumption || lens). cbn [req_]. ev word_yes. ev (punct_no F PLParen t2 ds ltac:(assumption)).
    rewrite (fl_block _ _ HF h t2 rest ds) by (eassumption || lens). reflexivity.
  - rewrite (HIT (lit "try") (try_statement F R) ltac:(tauto)). unfold try_statement. rewrite (fl_block _ _ HF b ts0 t1 ds) by (eassumption || lens). cbn [req_].
    rewrite (fl_semis _ _ HF t1 _ ds) by (eassumption || lens). cbn [req_]. ev word_yes. ev exact_yes. rewrite (fl_params _ _ HF false [] ps t2 t3 ds) by (eassumption || lens). cbn [req_].
    rewrite (fl_block _ _ HF h t3 rest ds) by (eassumption || lens). reflexivity.
  - rewrite (HIT (lit "set") (set_statement F) ltac:(tauto)). unfold set_statement, set_value. ev ident_yes. ev exact_yes.
    match goal with HC : expr_at _ _ _ _, HE : ended _ _ _ |- _ => ev (expr_yes F _ _ _ ds HC); ev (terminator_yes _ _ ds HE) end. reflexivity.
  - rewrite (HIT (lit "set") (set_statement F) ltac:(tauto)). unfold set_statement, set_value. ev ident_yes. ev (punct_no F PAssign (P PIn :: ts0) ds ltac:(other)). ev exact_yes.
    match goal with HC : expr_at _ _ _ _, HE : ended _ _ _ |- _ => ev (expr_yes F _ _ _ ds HC); ev (terminator_yes _ _ ds HE) end. reflexivity.
  - rewrite (HIT (lit "break") (jump_statement F Break) ltac:(tauto)). unfold jump_statement.
    match goal with HE : ended _ _ _ |- _ => ev (ident_no F ts0 ds ltac:(inversion HE; subst; other)); ev (terminator_yes _ _ ds HE) end. reflexivity.
  - rewrite (HIT (lit "break") (jump_statement F Break) ltac:(tauto)). unfold jump_statement. ev ident_yes. match goal with HE : ended _ _ _ |- _ => ev (terminator_yes _ _ ds HE) end. reflexivity.
  - rewrite (HIT (lit "continue") (jump_statement F Continue) ltac:(tauto)). unfold jump_statement.
    match goal with HE : ended _ _ _ |- _ => ev (ident_no F ts0 ds ltac:(inversion HE; subst; other)); ev (terminator_yes _ _ ds HE) end. reflexivity.
  - rewrite (HIT (lit "continue") (jump_statement F Continue) ltac:(tauto)). unfold jump_statement. ev ident_yes. match goal with HE : ended _ _ _ |- _ => ev (terminator_yes _ _ ds HE) end. reflexivity.
  - rewrite (HIT (lit "del") (del_statement F) ltac:(tauto)). unfold del_statement.
    match goal with HC : expr_at _ _ _ _, HE : ended _ _ _ |- _ => ev (expr_yes F _ _ _ ds HC); ev (terminator_yes _ _ ds HE) end. reflexivity.
Qed.
Lemma step_full : full (S n) (sstep F R).
Proof using HF.
  constructor; cbn [sstep r_suffix r_decls r_caselist r_params r_semis r_block r_stmts r_stmt r_arms r_cases].
  - apply suffix_yes.
  - apply decl_yes.
  - apply locals_yes.
  - intros c l x ts rest ds Hn H. unfold caselist_body. apply (separated_yes _ (case_at F)); [apply case_lt|apply case_yes| |exact H].
    intros c' l' x' ts' rest' ds' L. apply (fl_caselist _ _ HF). lia.
  - intros c l x ts rest ds Hn H. unfold params_body. apply (separated_yes _ (path_at F)); [apply path_lt|apply param_yes| |exact H].
    intros c' l' x' ts' rest' ds' L. apply (fl_params _ _ HF). lia.
  - apply semis_yes.
  - apply block_yes.
  - apply stmts_yes.
  - apply stmt_yes.
  - apply arms_yes.
  - apply cases_yes.
Qed.
End BODY.
Lemma srun_full n : full n (srun F n).
Proof using Type. induction n as [|n IH]; [constructor; intros; lia|]. apply step_full, IH. Qed.
End COMPLETE2.
