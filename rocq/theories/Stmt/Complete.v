(** What the grammar of statements has, the parser of statements reads: the elements, and how much each phrase takes. *)
From Coq Require Import List NArith ZArith Bool String Lia.
From Verif Require Import Common.Text Lexer.Punct Lexer.Model Parse.Ast Parse.Model Parse.Spec Parse.Facts Parse.Grow
  Parse.Term Parse.Gram Parse.Sound Parse.Sound2 Parse.Mono Parse.Complete Parse.Complete2 Parse.Complete3
  Stmt.Ast Stmt.Model Stmt.Spec Stmt.Sound Stmt.Sound2.
Import ListNotations.
Open Scope nat_scope.

Scheme stmt_at_m := Minimality for stmt_at Sort Prop
  with block_at_m := Minimality for block_at Sort Prop
  with stmts_at_m := Minimality for stmts_at Sort Prop
  with arms_at_m := Minimality for arms_at Sort Prop
  with cases_at_m := Minimality for cases_at Sort Prop.
Combined Scheme phrases_ind from stmt_at_m, block_at_m, stmts_at_m, arms_at_m, cases_at_m.

Section COMPLETE.
Variable F : Type.
Notation tok := (token F).
Notation expr := (expr F).
Notation stmt := (stmt F).
Notation block := (block F).
Notation pst := (pst F).
Notation res := (res F).
Notation P p := (TPunct F p).
Notation W w ws := (TIdent F (lit w) ws).
Notation mk := (Complete.mk F).
Notation length := (@List.length tok).

(** ** Elements *)
Lemma punct_no p ts ds : not_punct F p ts -> exact F p (mk ts ds) = Ok None (mk ts ds).
Proof using Type. intros H. apply exact_no', not_punct_iff, H. Qed.
Lemma word_no w ts ds : not_word F w ts -> exact_ident F w (mk ts ds) = Ok None (mk ts ds).
Proof using Type. intros H. apply Complete2.word_no, not_word_iff, H. Qed.
Lemma ident_no ts ds : not_ident F ts -> ident F (mk ts ds) = Ok None (mk ts ds).
Proof using Type. intros H. unfold ident. cbn [toks Complete.mk]. destruct ts as [|[] ts]; try reflexivity. exfalso. eapply H. reflexivity. Qed.
Lemma expression_run (o : option expr) ts rest ds : ev F (fun R => f_expr F R None false (mk ts ds)) o (mk rest ds) -> expression F (mk ts ds) = Ok o (mk rest ds).
Proof using Type.
  intros [N H]. unfold expression. cbn [toks Complete.mk]. set (n := parse_fuel F ts).
  pose proof (e_expr F _ _ (run_enough F n) None false (mk ts ds)) as Hn. cbn [toks Complete.mk] in Hn. specialize (Hn ltac:(unfold n, parse_fuel; lia)).
  destruct (b_expr F _ _ (run_mono F n (Nat.max N n) ltac:(lia)) None false (mk ts ds)) as [Q|Q]; [congruence|]. rewrite Q. apply H. lia.
Qed.
Lemma expr_yes e ts rest ds : expr_at F e ts rest -> expression F (mk ts ds) = Ok (Some e) (mk rest ds).
Proof using Type. intros (pre & A & -> & D & H). apply expression_run. apply (complete F None false e pre A rest ds D H). Qed.
Lemma expr_none ts ds : no_start F ts -> expression F (mk ts ds) = Ok None (mk ts ds).
Proof using Type.
  intros H. apply expression_run. exists 3. intros n Hn. destruct n as [|[|[|n]]]; try lia. destruct ts as [|x ts]; [reflexivity|]. cbn [no_start] in H.
  destruct x as [p| | | | | | | | |]; try discriminate; try reflexivity. destruct p; try discriminate; reflexivity.
Qed.
Lemma opt_expr_yes o ts rest ds : opt_expr F o ts rest -> expression F (mk ts ds) = Ok o (mk rest ds).
Proof using Type. intros H. inversion H; subst; [apply expr_yes; assumption|apply expr_none; assumption]. Qed.
Lemma expr_at_starts e ts rest : expr_at F e ts rest -> starts F ts.
Proof using Type. intros (pre & A & -> & D & _). apply starts_app. eapply expr_starts. exact D. Qed.
Lemma expr_lt e ts rest : expr_at F e ts rest -> length rest < length ts.
Proof using Type. intros (pre & A & -> & D & _). apply expr_starts in D. destruct pre; [contradiction|]. rewrite app_length. cbn. lia. Qed.
Lemma opt_expr_le o ts rest : opt_expr F o ts rest -> length rest <= length ts.
Proof using Type. intros H. inversion H; subst; [apply Nat.lt_le_incl; eapply expr_lt; eassumption|lia]. Qed.
Lemma itype_yes n ts rest ds : itype_at F n ts rest -> input_type F (mk ts ds) = Ok (Some n) (mk rest ds).
Proof using Type. intros (pre & A & -> & D & H). eapply input_type_c; eassumption. Qed.
Lemma as_yes a ts rest ds : opt_as F a ts rest -> as_clause F (mk ts ds) = Ok (Some a) (mk rest ds).
Proof using Type.
  intros H. unfold as_clause. inversion H as [n ws ts0 r0 HI|ts0 N]; subst.
  - rewrite word_yes. cbn [opt_]. rewrite (itype_yes _ _ _ _ HI). reflexivity.
  - rewrite word_no by exact N. reflexivity.
Qed.
Lemma as_le a ts rest : opt_as F a ts rest -> length rest <= length ts.
Proof using Type. intros H. inversion H as [n ws ts0 r0 (pre & A & -> & _)|]; subst; [cbn; rewrite app_length; lia|lia]. Qed.
(** [as] and what follows do not begin with punctuation that does not follow *)
Lemma as_punct a ts x rest p : opt_as F a ts (x :: rest) -> x <> P p -> not_punct F p ts.
Proof using Type. intros H N r E. inversion H; subst; [discriminate|]. congruence. Qed.

(** ** Paths *)
Lemma slashes front i k : forall j ts ds, (k <> 0 -> not_ident F ts) ->
  path_rest F (front ++ [named i j]) (repeat (P PSlash) k ++ ts) ds = path_rest F (front ++ [named i (j + k)]) ts ds.
Proof using Type.
  induction k as [|k IH]; intros j ts ds H; cbn [repeat app]; [rewrite Nat.add_0_r; reflexivity|].
  rewrite path_rest_eq. unfold path_next.
  assert (E : path_rest F (bare_slash (front ++ [named i j])) (repeat (P PSlash) k ++ ts) ds = path_rest F (front ++ [named i (j + S k)]) ts ds).
  { rewrite bare_named, IH by (intros; apply H; lia). rewrite Nat.add_succ_r. reflexivity. }
  destruct (repeat (P PSlash) k ++ ts) as [|[] r] eqn:Q; try exact E. exfalso. destruct k; [|discriminate]. cbn in Q. subst ts. eapply (H ltac:(lia)). reflexivity.
Qed.
Lemma path_stop parts ts ds : not_punct F PSlash ts -> not_punct F PDot ts -> not_punct F PColon ts -> not_punct F PCloseColon ts ->
  path_rest F parts ts ds = (parts, mk ts ds).
Proof using Type.
  intros H1 H2 H3 H4. rewrite path_rest_eq. destruct ts as [|[p| | | | | | | | |] r]; try reflexivity.
  destruct p; try reflexivity; exfalso; first [exact (H1 _ eq_refl)|exact (H2 _ eq_refl)|exact (H3 _ eq_refl)|exact (H4 _ eq_refl)].
Qed.
Lemma names_yes ns ts rest : names_at F ns ts rest -> forall front ds,
  exists i ws ts', ts = TIdent F i ws :: ts' /\ path_rest F (front ++ [i]) ts' ds = (front ++ ns, mk rest ds).
Proof using Type.
  induction 1 as [i ws k ts H1 H2 H3 H4 H5|i ws k ns ts rest HN IH]; intros front ds.
  - exists i, ws, (repeat (P PSlash) k ++ ts). split; [reflexivity|]. change [i] with [named i 0]. rewrite slashes by exact H5. apply path_stop; assumption.
  - destruct (IH (front ++ [named i k]) ds) as (j & ws' & ts' & -> & E). exists i, ws, (P PSlash :: repeat (P PSlash) k ++ TIdent F j ws' :: ts').
    split; [reflexivity|]. change [i] with [named i 0]. rewrite <- repeat_snoc. rewrite slashes by (intros _ ? ? ?; discriminate).
    rewrite path_rest_eq. unfold path_next. cbn [Nat.add]. rewrite E, <- app_assoc. reflexivity.
Qed.
Lemma path_yes p ts rest ds : path_at F p ts rest -> tree_path F (mk ts ds) = Ok (Some p) (mk rest ds).
Proof using Type.
  intros H. unfold tree_path, leading_slash. inversion H as [ns ts0 r0 HN|ns ts0 r0 HN]; subst;
    destruct (names_yes _ _ _ HN [] ds) as (i & ws & ts' & -> & E); cbn [app toks Complete.mk ident opt_ success diags with_toks] in *; rewrite E; reflexivity.
Qed.
Lemma names_lt ns ts rest : names_at F ns ts rest -> length rest < length ts.
Proof using Type. induction 1; cbn; rewrite app_length, repeat_length; lia. Qed.
Lemma path_lt p ts rest : path_at F p ts rest -> length rest < length ts.
Proof using Type. intros H. inversion H as [ns ts0 r0 HN|ns ts0 r0 HN]; subst; apply names_lt in HN; cbn; lia. Qed.
Lemma path_ident p ts rest : path_at F p ts rest -> forall q, q <> PSlash -> not_punct F q ts.
Proof using Type.
  intros H q N r E. inversion H as [ns ts0 r0 HN|ns ts0 r0 HN]; subst; [inversion HN|congruence].
Qed.

(** ** Variables *)
Lemma modifier_flag w f : In (w, Some f) modifiers -> flag_of w = Some f /\ (f = 1%N \/ f = 4%N).
Proof using Type.
  clear. cbn [modifiers In]. intros H. repeat (destruct H as [H|H]; [first [exfalso; congruence|injection H as <- <-; split; [vm_compute; reflexivity|auto]]|]). destruct H.
Qed.
Lemma no_modifier w : ~ In w (map fst modifiers) -> flag_of w = None.
Proof using Type.
  clear. intros H. pose proof (flag_view w) as V. destruct (flag_of w) as [f|]; [|reflexivity]. exfalso. apply H.
  destruct V as [V|[_ V]]; apply (in_map fst) in V; exact V.
Qed.
Lemma var_type_yes p n t : type_of p n t -> forall acc, var_type acc p = {| v_flags := N.lor acc n; v_path := t |}.
Proof using Type.
  clear. induction 1 as [p H|w f p n t H HT IH]; intros acc.
  - destruct p as [|w p]; cbn [var_type]; [|rewrite (no_modifier w H)]; rewrite N.lor_0_r; reflexivity.
  - cbn [var_type]. destruct (modifier_flag w f H) as [-> _]. rewrite IH, N.lor_assoc. reflexivity.
Qed.
Lemma type_clean p n t : type_of p n t -> forall b, In b [8; 16; 32; 64]%N -> N.land n b = 0%N.
Proof using Type.
  clear. induction 1 as [p H|w f p n t H HT IH]; intros b Hb; [apply N.land_0_l|]. rewrite N.land_lor_distr_l, (IH b Hb), N.lor_0_r.
  apply modifier_flag in H as [_ H]. cbn in Hb. destruct H as [-> | ->]; destruct Hb as [<-|[<-|[<-|[<-|[]]]]]; reflexivity.
Qed.
Lemma warn_clean p n t (s : pst) : type_of p n t -> warn_flags F n s = s.
Proof using Type.
  intros H. unfold warn_flags, warn_flag. rewrite !(type_clean p n t H) by (cbn; tauto). reflexivity.
Qed.
Lemma pop_snoc p (l : text) : pop (p ++ [l]) = Some (p, l).
Proof using Type. clear. unfold pop. rewrite rev_app_distr. cbn. rewrite rev_involutive. reflexivity. Qed.

(** ** How much the phrases take *)
Lemma sizes_le sz ts rest : sizes_at F sz ts rest -> length rest <= length ts.
Proof using Type. induction 1 as [|o ts mid sz rest HO HS IH]; [lia|]. apply opt_expr_le in HO. cbn in *. lia. Qed.
Lemma decl_lt d ts rest : decl_at F d ts rest -> length rest < length ts.
Proof using Type.
  intros H. inversion H as [p name n t sz ts0 t1 r0 HP HT HS HN|p name n t sz e ts0 t1 t2 r0 HP HT HS HE]; subst; apply path_lt in HP; apply sizes_le in HS; [lia|].
  apply expr_lt in HE. cbn in HS. lia.
Qed.
Lemma locals_lt ds ts rest : locals_at F ds ts rest -> length rest < length ts.
Proof using Type.
  induction 1 as [d ts rest [H _] _|d ts mid ds rest [H _] _ IH]; apply decl_lt in H; cbn in H; lia.
Qed.
Lemma simple_lt b x ts rest : simple_at F b x ts rest -> length rest < length ts.
Proof using Type.
  intros H. inversion H as [d ws ts0 r0 HD|ds ws ts0 r0 HD|f o ws ts0 r0 HO|f o ws ts0 r0 HO|f e ws ts0 r0 HE|f i ws ws' r0|f e ts0 r0 HE HW]; subst; cbn.
  - apply decl_lt in HD. lia.
  - apply locals_lt in HD. lia.
  - apply opt_expr_le in HO. lia.
  - apply opt_expr_le in HO. cbn in HO. lia.
  - apply expr_lt in HE. lia.
  - lia.
  - apply expr_lt in HE. lia.
Qed.
Lemma opt_simple_le b o ts rest : opt_simple F b o ts rest -> length rest <= length ts.
Proof using Type. intros H. inversion H as [f x ts0 r0 HS|]; subst; [apply simple_lt in HS|]; lia. Qed.
Lemma ended_le ts rest : ended F ts rest -> length rest <= length ts.
Proof using Type. intros H. inversion H; subst; cbn; lia. Qed.
Lemma semis_le ts rest : semicolons F ts rest -> length rest <= length ts.
Proof using Type. induction 1; cbn; lia. Qed.
Lemma parens_lt e ts rest : parens_at F e ts rest -> length rest < length ts.
Proof using Type. intros H. inversion H as [e0 ts0 r0 HE]; subst. apply expr_lt in HE. cbn in *. lia. Qed.
Lemma case_lt x ts rest : case_at F x ts rest -> length rest < length ts.
Proof using Type. intros H. inversion H as [e ts0 r0 HE _|a b ws ts0 mid r0 HA HB]; subst; [apply expr_lt in HE; lia|]. apply expr_lt in HA, HB. cbn in *. lia. Qed.
Lemma items_le {X : Type} (item : X -> list tok -> list tok -> Prop) : (forall x ts rest, item x ts rest -> length rest < length ts) ->
  forall xs ts rest, items_at F item xs ts rest -> length rest < length ts.
Proof using Type.
  intros HI xs ts rest H. induction H as [rest|x ts rest _ _ H|x ts mid xs rest _ _ H _ IH]; [cbn; lia| |]; apply HI in H; cbn in H; lia.
Qed.
Lemma step_lt o ts rest : step_at F o ts rest -> length rest < length ts.
Proof using Type. intros H. inversion H as [r0|e ws ts0 r0 HE]; subst; [cbn; lia|]. apply expr_lt in HE. cbn in *. lia. Qed.
Lemma inc_lt sep o ts rest : inc_at F sep o ts rest -> length rest < length ts.
Proof using Type. intros H. inversion H as [r0|o0 ts0 r0 HO]; subst; [cbn; lia|]. apply opt_simple_le in HO. cbn in *. lia. Qed.
Lemma head_lt h ts rest : head_at F h ts rest -> length rest < length ts.
Proof using Type.
  intros H. inversion H; subst;
    repeat match goal with
    | H : opt_simple _ _ _ _ _ |- _ => apply opt_simple_le in H
    | H : simple_at _ _ _ _ _ |- _ => apply simple_lt in H
    | H : opt_as _ _ _ _ |- _ => apply as_le in H
    | H : opt_expr _ _ _ _ |- _ => apply opt_expr_le in H
    | H : expr_at _ _ _ _ |- _ => apply expr_lt in H
    | H : inc_at _ _ _ _ _ |- _ => apply inc_lt in H
    | H : step_at _ _ _ _ |- _ => apply step_lt in H
    end; cbn in *; lia.
Qed.
Lemma phrases_le :
  (forall x ts rest, stmt_at F x ts rest -> length rest < length ts) /\
  (forall b ts rest, block_at F b ts rest -> length rest <= length ts) /\
  (forall b ts rest, stmts_at F b ts rest -> length rest < length ts) /\
  (forall a o ts rest, arms_at F a o ts rest -> length rest <= length ts) /\
  (forall c o ts rest, cases_at F c o ts rest -> length rest < length ts).
Proof using Type.
  apply phrases_ind; intros;
    repeat match goal with
    | H : simple_at _ _ _ _ _ |- _ => apply simple_lt in H
    | H : head_at _ _ _ _ |- _ => apply head_lt in H
    | H : opt_expr _ _ _ _ |- _ => apply opt_expr_le in H
    | H : expr_at _ _ _ _ |- _ => apply expr_lt in H
    | H : parens_at _ _ _ _ |- _ => apply parens_lt in H
    | H : ended _ _ _ |- _ => apply ended_le in H
    | H : semicolons _ _ _ |- _ => apply semis_le in H
    | H : items_at _ (path_at _) _ _ _ |- _ => apply (items_le _ path_lt) in H
    | H : items_at _ (case_at _) _ _ _ |- _ => apply (items_le _ case_lt) in H
    end; cbn [List.length] in *; lia.
Qed.
Definition stmt_lt := proj1 phrases_le.
Definition block_le := proj1 (proj2 phrases_le).
Definition stmts_lt := proj1 (proj2 (proj2 phrases_le)).
Definition arms_le := proj1 (proj2 (proj2 (proj2 phrases_le))).
Definition cases_lt := proj2 (proj2 (proj2 (proj2 phrases_le))).
End COMPLETE.
