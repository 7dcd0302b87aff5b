(** The parser of statements and the grammar describe the same language: C55.  The type filters of loops: C56. *)
From Coq Require Import List NArith ZArith Bool String Lia.
From Verif Require Import Common.Text Lexer.Punct Lexer.Model Parse.Ast Parse.Model Parse.Spec Parse.Props Parse.Complete
  Stmt.Ast Stmt.Model Stmt.Spec Stmt.Sound Stmt.Sound2 Stmt.Complete Stmt.Complete2.
Import ListNotations.
Open Scope nat_scope.

Section PROPS.
Variable F : Type.
Notation tok := (token F).
Notation expr := (expr F).
Notation stmt := (stmt F).
Notation block := (block F).
Notation P p := (TPunct F p).
Notation W w ws := (TIdent F (lit w) ws).

(** [parse_body] reads [b] from the tokens [ts] of a proc's body without a word of complaint and leaves [rest]. *)
Definition reads_body (ts : list tok) (b : block) (rest : list tok) : Prop := parse_body F ts = Some (Some b, [], rest).

(** Parsing ends for every input. *)
Theorem C55_terminates (ts : list tok) : parse_body F ts <> None.
Proof using Type.
  unfold parse_body. set (ts' := filter _ ts). set (s := {| toks := ts'; diags := [] |}).
  pose proof (gd_block F _ _ (srun_good F (stmt_fuel F ts')) s) as H. cbn [s toks] in H. unfold stmt_fuel in *. specialize (H ltac:(lia)). fold s in H.
  destruct (r_block F _ s) as [[b|] s'|s'|]; try discriminate. destruct H.
Qed.

(** The code that is read without complaint is the one the grammar gives, and ends where the grammar ends it; and whatever the grammar
    has as a block is read that way. *)
Theorem C55_parser_is_grammar (ts : list tok) (b : block) (rest : list tok) :
  reads_body ts b rest <-> block_at F b (without_docs F ts) rest.
Proof using Type.
  unfold reads_body, parse_body. rewrite without_docs_eq. set (ts' := without_docs F ts).
  split.
  - intros E. set (s := {| toks := ts'; diags := [] |}) in *.
    pose proof (gd_block F _ _ (srun_good F (stmt_fuel F ts')) s) as H. cbn [s toks] in H. unfold stmt_fuel in *. specialize (H ltac:(lia)). fold s in H.
    destruct (r_block F _ s) as [[b'|] s'|s'|]; try discriminate. injection E as -> Ed <-. destruct H as (_ & _ & _ & H). exact (H Ed).
  - intros H. change {| toks := ts'; diags := [] |} with (mk F ts' []).
    rewrite (fl_block F _ _ (srun_full F (stmt_fuel F ts')) b ts' rest []); [reflexivity|unfold stmt_fuel; lia|exact H].
Qed.

(** The grammar is unambiguous, even about where a phrase ends. *)
Theorem C55_unambiguous (ts rest rest' : list tok) (b b' : block) : block_at F b ts rest -> block_at F b' ts rest' -> b = b' /\ rest = rest'.
Proof using Type.
  intros H H'. pose proof (fl_block F _ _ (srun_full F (2 * List.length ts + 2)) b ts rest [] (le_n _) H) as E.
  pose proof (fl_block F _ _ (srun_full F (2 * List.length ts + 2)) b' ts rest' [] (le_n _) H') as E'. rewrite E in E'. injection E' as <- <-. auto.
Qed.
Theorem C55_unambiguous_statement (ts rest rest' : list tok) (x x' : stmt) : stmt_at F x ts rest -> stmt_at F x' ts rest' -> x = x' /\ rest = rest'.
Proof using Type.
  intros H H'. pose proof (fl_stmt F _ _ (srun_full F (2 * List.length ts + 1)) x ts rest [] (le_n _) H) as E.
  pose proof (fl_stmt F _ _ (srun_full F (2 * List.length ts + 1)) x' ts rest' [] (le_n _) H') as E'. rewrite E in E'. injection E' as <- <-. auto.
Qed.

(** An [else] belongs to the nearest [if] before it: [if (a) if (b) x else y] is [if (a) { if (b) x else y }]. *)
Theorem C55_nearest_else (a b : expr) (x : stmt) (y : block) ws1 ws2 ws3 (ts t1 t2 t3 rest : list tok) :
  parens_at F a ts (W "if" ws2 :: t1) -> parens_at F b t1 t2 -> stmt_at F x t2 (W "else" ws3 :: t3) -> not_word F (lit "if") t3 -> block_at F y t3 rest ->
  not_punct F PSemicolon rest -> not_word F (lit "else") rest ->
  stmt_at F (If [(a, [If [(b, [x])] (Some y)])] None) (W "if" ws1 :: ts) rest.
Proof using Type.
  intros HA HB HX HN HY N1 N2.
  eapply X_if; [exact HA| |].
  - apply B_one. eapply X_if; [exact HB|apply B_one; exact HX|]. eapply A_else; [apply Sc_end; intros ? ?; discriminate|exact HN|exact HY].
  - apply A_end; [apply Sc_end; exact N1|exact N2].
Qed.

(** ** C56: type filters *)
(** What stands after [as] in the head of a loop over the keys and values of a list is in the syntax tree. *)
Theorem C56_filter_of_keys_partial (x : stmt) (ty : option vartype) (k v : text) (n : N) (l : expr) (b : block) ws ws' (ts t1 t2 t3 rest : list tok) :
  loop_var F x ty k -> simple_at F true x ts (W "as" ws' :: t1) -> itype_at F n t1 (P PComma :: t2) ->
  expr_at F (Bin BIn (name_expr F v) l) t2 (P PRParen :: t3) -> block_at F b t3 rest ->
  stmt_at F (ForKeyValue ty k (Some n) v (Some l) b) (W "for" ws :: P PLParen :: ts) rest.
Proof using Type.
  intros HV HS HI HE HB. apply (X_for F (HKeyValue F ty k (Some n) v l) b ws ts t3 rest); [|exact HB].
  eapply Fh_key_value; [exact HV|exact HS|constructor; exact HI|exact HE|constructor].
Qed.
(** What C56 says of a loop over a list: the statement that is read has the filter in it. *)
Definition list_filters_recorded : Prop :=
  forall (x : stmt) (ty : option vartype) (name : text) (n : N) (l : expr) (b : block) ws ws' (ts t1 t2 t3 rest : list tok),
  loop_var F x ty name -> simple_at F true x ts (W "as" ws' :: t1) -> itype_at F n t1 (P PIn :: t2) -> expr_at F l t2 (P PRParen :: t3) -> block_at F b t3 rest ->
  stmt_at F (ForList ty name (Some n) (Some l) b) (W "for" ws :: P PLParen :: ts) rest.
(** It has not: whatever the filter, the statement has none. *)
Theorem C56_filter_of_list_lost (x y : stmt) (ty : option vartype) (name : text) (n : N) (l : expr) (b : block) ws ws' (ts t1 t2 t3 rest rest' : list tok) :
  loop_var F x ty name -> simple_at F true x ts (W "as" ws' :: t1) -> itype_at F n t1 (P PIn :: t2) -> expr_at F l t2 (P PRParen :: t3) -> block_at F b t3 rest ->
  stmt_at F y (W "for" ws :: P PLParen :: ts) rest' ->
  y = ForList ty name None (Some l) b.
Proof using Type.
  intros HV HS HI HE HB HY.
  assert (HX : stmt_at F (ForList ty name None (Some l) b) (W "for" ws :: P PLParen :: ts) rest).
  { apply (X_for F (HList F ty name None (Some l)) b ws ts t3 rest); [|exact HB].
    eapply Fh_list; [exact HV|exact HS|constructor; exact HI|apply As_none; intros ? ? E; discriminate E|exact HE]. }
  exact (proj1 (C55_unambiguous_statement _ _ _ _ _ HY HX)).
Qed.
(** The filter is in the tree if [as] is written twice. *)
Theorem C56_filter_of_list_partial (x : stmt) (ty : option vartype) (name : text) (n m : N) (l : expr) (b : block) ws ws' ws'' (ts t1 t2 t3 t4 rest : list tok) :
  loop_var F x ty name -> simple_at F true x ts (W "as" ws' :: t1) -> itype_at F n t1 (W "as" ws'' :: t2) -> itype_at F m t2 (P PIn :: t3) ->
  expr_at F l t3 (P PRParen :: t4) -> block_at F b t4 rest ->
  stmt_at F (ForList ty name (Some m) (Some l) b) (W "for" ws :: P PLParen :: ts) rest.
Proof using Type.
  intros HV HS HI HI' HE HB. apply (X_for F (HList F ty name (Some m) (Some l)) b ws ts t4 rest); [|exact HB].
  eapply Fh_list; [exact HV|exact HS|constructor; exact HI|constructor; exact HI'|exact HE].
Qed.
End PROPS.
