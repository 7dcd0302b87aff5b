(** The statements of DM, as a grammar over tokens, written without reference to the parser.  [x_at x ts rest]: the tokens [ts] begin
    with the phrase [x], and [rest] is what follows it.  Expressions are those of Parse/Spec.v. *)
From Coq Require Import List NArith ZArith Bool String.
From Verif Require Import Common.Text Lexer.Punct Lexer.Model Parse.Ast Parse.Spec Stmt.Ast.
Import ListNotations.
Open Scope nat_scope.

Section SPEC.
Variable F : Type.
Notation tok := (token F).
Notation expr := (expr F).
Notation stmt := (stmt F).
Notation block := (block F).
Notation P p := (TPunct F p).
Notation W w ws := (TIdent F (lit w) ws).

(** ** What comes next *)
Definition not_punct (p : punct) (ts : list tok) : Prop := forall r, ts <> P p :: r.
Definition not_word (w : text) (ts : list tok) : Prop := forall ws r, ts <> TIdent F w ws :: r.
Definition not_ident (ts : list tok) : Prop := forall i ws r, ts <> TIdent F i ws :: r.
(** The tokens an expression can begin with. *)
Definition starts_expr (t : tok) : bool :=
  match t with
  | TIdent _ _ _ | TString _ _ | TResource _ _ | TInt _ _ | TFloat _ _ | TInterpBegin _ _ => true
  | TPunct _ p =>
      match prefix_op p, p with
      | Some _, _ => true
      | None, PSuper | None, PDot | None, PScope | None, PLParen | None, PSlash | None, PCloseColon => true
      | None, _ => false
      end
  | _ => false
  end.

(** ** Expressions and input types *)
Definition expr_at (e : expr) (ts rest : list tok) : Prop :=
  exists pre A, ts = pre ++ rest /\ sp_expr F 14 false e pre A /\ ends_before F 14 A rest.
Inductive opt_expr : option expr -> list tok -> list tok -> Prop :=
  | Oe_some e ts rest : expr_at e ts rest -> opt_expr (Some e) ts rest
  | Oe_none ts : match ts with t :: _ => starts_expr t = false | [] => True end -> opt_expr None ts ts.
Definition itype_at (n : N) (ts rest : list tok) : Prop :=
  exists pre A, ts = pre ++ rest /\ sp_itype F n pre A /\ delimited F A rest.
(** [as] input type *)
Inductive opt_as : option N -> list tok -> list tok -> Prop :=
  | As_some n ws ts rest : itype_at n ts rest -> opt_as (Some n) (W "as" ws :: ts) rest
  | As_none ts : not_word (lit "as") ts -> opt_as None ts ts.

(** ** Variables *)
(** [a/b//c/]: names with one slash or more between them, and perhaps some at the end.  A name [operator] takes a slash that is
    followed by no name into it. *)
Definition with_slash (w : text) : text := if text_eqb w (lit "operator") then w ++ lit "/" else w.
(** a name followed by so many slashes that are not in front of a name *)
Definition named (i : text) (bare : nat) : text := match bare with O => i | S _ => with_slash i end.
Inductive names_at : list text -> list tok -> list tok -> Prop :=
  | Na_last i ws k ts :
      not_punct PSlash ts -> not_punct PDot ts -> not_punct PColon ts -> not_punct PCloseColon ts -> (k <> 0 -> not_ident ts) ->
      names_at [named i k] (TIdent F i ws :: repeat (P PSlash) k ++ ts) ts
  | Na_more i ws k ns ts rest :
      names_at ns ts rest -> names_at (named i k :: ns) (TIdent F i ws :: P PSlash :: repeat (P PSlash) k ++ ts) rest.
Inductive path_at : list text -> list tok -> list tok -> Prop :=
  | Pa_relative ns ts rest : names_at ns ts rest -> path_at ns ts rest
  | Pa_absolute ns ts rest : names_at ns ts rest -> path_at ns (P PSlash :: ts) rest.
(** The words in front of the type of a variable.  Those of value [None] mean nothing on a local variable. *)
Definition modifiers : list (text * option N) :=
  [ (lit "global", Some 1%N); (lit "static", Some 1%N); (lit "const", Some 4%N); (lit "tmp", None); (lit "final", None);
    (lit "SpacemanDMM_final", None); (lit "SpacemanDMM_private", None); (lit "SpacemanDMM_protected", None) ].
Inductive type_of : list text -> N -> list text -> Prop :=
  | Ty_path p : match p with w :: _ => ~ In w (map fst modifiers) | [] => True end -> type_of p 0%N p
  | Ty_modifier w f p n t : In (w, Some f) modifiers -> type_of p n t -> type_of (w :: p) (N.lor f n) t.
(** [[a][][b]] *)
Inductive sizes_at : list (option expr) -> list tok -> list tok -> Prop :=
  | Sz_end ts : not_punct PLBracket ts -> sizes_at [] ts ts
  | Sz_cons o ts mid sz rest : opt_expr o ts (P PRBracket :: mid) -> sizes_at sz mid rest ->
      sizes_at (o :: sz) (P PLBracket :: ts) rest.
(** The sizes that are given make the variable a new list. *)
Definition new_list (sz : list (option expr)) : option expr :=
  match flat_map (fun o : option expr => match o with Some e => [e] | None => [] end) sz with
  | [] => None
  | args => Some (Base (MNewPrefab [(PathSlash, lit "list")] [] (Some args)) [])
  end.
Definition list_type (sz : list (option expr)) (t : list text) : list text := match sz with [] => t | _ => lit "list" :: t end.
(** A declaration after [var], or the next one after a comma. *)
Inductive decl_at : vardecl F -> list tok -> list tok -> Prop :=
  | De_plain p name n t sz ts t1 rest :
      path_at (p ++ [name]) ts t1 -> type_of p n t -> sizes_at sz t1 rest -> not_punct PAssign rest ->
      decl_at {| v_type := {| v_flags := n; v_path := list_type sz t |}; v_name := name; v_value := new_list sz |} ts rest
  | De_value p name n t sz e ts t1 t2 rest :
      path_at (p ++ [name]) ts t1 -> type_of p n t -> sizes_at sz t1 (P PAssign :: t2) -> expr_at e t2 rest ->
      decl_at {| v_type := {| v_flags := n; v_path := list_type sz t |}; v_name := name; v_value := Some e |} ts rest.
(** Local variables outside the head of a for loop: no [as] and no [in]. *)
Definition local_at (d : vardecl F) (ts rest : list tok) : Prop :=
  decl_at d ts rest /\ not_word (lit "as") rest /\ not_punct PIn rest.
Inductive locals_at : list (vardecl F) -> list tok -> list tok -> Prop :=
  | Lo_last d ts rest : local_at d ts rest -> not_punct PComma rest -> locals_at [d] ts rest
  | Lo_cons d ts mid ds rest : local_at d ts (P PComma :: mid) -> locals_at ds mid rest -> locals_at (d :: ds) ts rest.
Definition vars_stmt (ds : list (vardecl F)) : stmt := match ds with [d] => Var d | _ => Vars ds end.

(** ** Statements without blocks *)
Definition simple_words : list text := [lit "var"; lit "return"; lit "CRASH"; lit "throw"; lit "goto"].
(** the flag: at the start of the head of a for loop, where one variable can be declared *)
Inductive simple_at : bool -> stmt -> list tok -> list tok -> Prop :=
  | Si_var_for d ws ts rest : decl_at d ts rest -> simple_at true (Var d) (W "var" ws :: ts) rest
  | Si_vars ds ws ts rest : locals_at ds ts rest -> simple_at false (vars_stmt ds) (W "var" ws :: ts) rest
  | Si_return f o ws ts rest : opt_expr o ts rest -> simple_at f (Return o) (W "return" ws :: ts) rest
  | Si_crash f o ws ts rest : opt_expr o ts (P PRParen :: rest) -> simple_at f (Crash o) (W "CRASH" ws :: P PLParen :: ts) rest
  | Si_throw f e ws ts rest : expr_at e ts rest -> simple_at f (Throw e) (W "throw" ws :: ts) rest
  | Si_goto f i ws ws' rest : simple_at f (Goto i) (W "goto" ws :: TIdent F i ws' :: rest) rest
  | Si_expr f e ts rest : expr_at e ts rest -> (forall w, In w simple_words -> not_word w ts) -> simple_at f (Expr e) ts rest.
Inductive opt_simple : bool -> option stmt -> list tok -> list tok -> Prop :=
  | Os_some f x ts rest : simple_at f x ts rest -> opt_simple f (Some x) ts rest
  | Os_none f ts : match ts with t :: _ => starts_expr t = false | [] => True end -> opt_simple f None ts ts.
(** The end of a statement: a semicolon, or in front of a closing brace. *)
Inductive ended : list tok -> list tok -> Prop :=
  | En_semicolon rest : ended (P PSemicolon :: rest) rest
  | En_brace rest : ended (P PRBrace :: rest) (P PRBrace :: rest).
(** Any number of semicolons that mean nothing. *)
Inductive semicolons : list tok -> list tok -> Prop :=
  | Sc_end ts : not_punct PSemicolon ts -> semicolons ts ts
  | Sc_cons ts rest : semicolons ts rest -> semicolons (P PSemicolon :: ts) rest.
(** [( e )] *)
Inductive parens_at : expr -> list tok -> list tok -> Prop :=
  | Pr e ts rest : expr_at e ts (P PRParen :: rest) -> parens_at e (P PLParen :: ts) rest.

(** ** Lists in parentheses, from after the opening one to the closing one; a comma may come last *)
Section LIST.
Context {X : Type}.
Variable item : X -> list tok -> list tok -> Prop.
Inductive items_at : list X -> list tok -> list tok -> Prop :=
  | It_nil rest : items_at [] (P PRParen :: rest) rest
  | It_last x ts rest : not_punct PRParen ts -> not_punct PComma ts -> item x ts (P PRParen :: rest) -> items_at [x] ts rest
  | It_cons x ts mid xs rest : not_punct PRParen ts -> not_punct PComma ts ->
      item x ts (P PComma :: mid) -> items_at xs mid rest -> items_at (x :: xs) ts rest.
End LIST.
(** one of the values of a case *)
Inductive case_at : case F -> list tok -> list tok -> Prop :=
  | Ca_exactly e ts rest : expr_at e ts rest -> not_word (lit "to") rest -> case_at (Exactly e) ts rest
  | Ca_between a b ws ts mid rest : expr_at a ts (W "to" ws :: mid) -> expr_at b mid rest -> case_at (Between a b) ts rest.

(** ** Heads of for loops, from after the opening parenthesis to the closing one *)
Inductive for_head : Type :=
  | HInfinite
  | HLoop (init : option stmt) (test : option expr) (inc : option stmt)
  | HList (ty : option vartype) (name : text) (it : option N) (in_list : option expr)
  | HKeyValue (ty : option vartype) (key : text) (it : option N) (value : text) (in_list : expr)
  | HRange (ty : option vartype) (name : text) (start end_ : expr) (step : option expr).
Definition for_stmt (h : for_head) (b : block) : stmt :=
  match h with
  | HInfinite => ForInfinite b
  | HLoop i t c => ForLoop i t c b
  | HList ty n it l => ForList ty n it l b
  | HKeyValue ty k it v l => ForKeyValue ty k it v (Some l) b
  | HRange ty n a b' st => ForRange ty n a b' st b
  end.
Definition name_expr (i : text) : expr := Base (MIdent i) [].
(** A variable to loop with: a new one without a value, or the name of an existing one. *)
Inductive loop_var : stmt -> option vartype -> text -> Prop :=
  | Lv_new t n : loop_var (Var {| v_type := t; v_name := n; v_value := None |}) (Some t) n
  | Lv_old n : loop_var (Expr (name_expr n)) None n.
(** ... and its first value. *)
Inductive loop_start : stmt -> option vartype -> text -> expr -> Prop :=
  | Ls_new t n e : loop_start (Var {| v_type := t; v_name := n; v_value := Some e |}) (Some t) n e
  | Ls_old n e : loop_start (Expr (Assign AAssign (name_expr n) e)) None n e.
(** [[step e] )] *)
Inductive step_at : option expr -> list tok -> list tok -> Prop :=
  | St_none rest : step_at None (P PRParen :: rest) rest
  | St_some e ws ts rest : expr_at e ts (P PRParen :: rest) -> step_at (Some e) (W "step" ws :: ts) rest.
(** The third part: [[sep [statement]] )] *)
Inductive inc_at (sep : punct) : option stmt -> list tok -> list tok -> Prop :=
  | Inc_none rest : inc_at sep None (P PRParen :: rest) rest
  | Inc_some o ts rest : opt_simple false o ts (P PRParen :: rest) -> inc_at sep o (P sep :: ts) rest.
Definition is_in (e : expr) : bool := match e with Bin BIn _ _ => true | _ => false end.
Definition is_to (e : expr) : bool := match e with Bin BTo _ _ => true | _ => false end.
(** An [as] after the first part is read in every form of the loop, and recorded in one. *)
Inductive head_at : for_head -> list tok -> list tok -> Prop :=
  | Fh_infinite rest : head_at HInfinite (P PRParen :: rest) rest
  | Fh_semicolons i t c a ts t1 t2 t3 rest :
      opt_simple true i ts t1 -> opt_as a t1 (P PSemicolon :: t2) -> opt_expr t t2 t3 -> inc_at PSemicolon c t3 rest ->
      head_at (HLoop i t c) ts rest
  | Fh_commas i t c a ts t1 t2 t3 rest :
      opt_simple true i ts t1 -> opt_as a t1 (P PComma :: t2) -> opt_expr t t2 t3 -> inc_at PComma c t3 rest ->
      (c = None -> match t with Some e => is_in e = false | None => True end) ->
      head_at (HLoop i t c) ts rest
  | Fh_key_value x ty k a v l ts t1 t2 t3 rest :
      loop_var x ty k -> simple_at true x ts t1 -> opt_as a t1 (P PComma :: t2) ->
      expr_at (Bin BIn (name_expr v) l) t2 t3 -> inc_at PComma None t3 rest ->
      head_at (HKeyValue ty k a v l) ts rest
  | Fh_world x ty n a a' ts t1 t2 rest :
      loop_var x ty n -> simple_at true x ts t1 -> opt_as a t1 t2 -> opt_as a' t2 (P PRParen :: rest) ->
      head_at (HList ty n a' None) ts rest
  | Fh_list x ty n a a' e ts t1 t2 t3 rest :
      loop_var x ty n -> simple_at true x ts t1 -> opt_as a t1 t2 -> opt_as a' t2 (P PIn :: t3) ->
      expr_at e t3 (P PRParen :: rest) ->
      head_at (HList ty n a' (Some e)) ts rest
  | Fh_old_list n a e ts t1 rest :
      simple_at true (Expr (Bin BIn (name_expr n) e)) ts t1 -> is_to e = false -> opt_as a t1 (P PRParen :: rest) ->
      head_at (HList None n None (Some e)) ts rest
  | Fh_in_range x ty n a a' e e' st ws ts t1 t2 t3 t4 t5 rest :
      loop_var x ty n -> simple_at true x ts t1 -> opt_as a t1 t2 -> opt_as a' t2 (P PIn :: t3) ->
      expr_at e t3 (W "to" ws :: t4) -> expr_at e' t4 t5 -> step_at st t5 rest ->
      head_at (HRange ty n e e' st) ts rest
  | Fh_old_range n a e e' st ts t1 t2 rest :
      simple_at true (Expr (Bin BIn (name_expr n) (Bin BTo e e'))) ts t1 -> opt_as a t1 t2 -> step_at st t2 rest ->
      head_at (HRange None n e e' st) ts rest
  | Fh_range x ty n a e e' st ws ts t1 t2 t3 rest :
      loop_start x ty n e -> simple_at true x ts t1 -> opt_as a t1 (W "to" ws :: t2) -> expr_at e' t2 t3 -> step_at st t3 rest ->
      head_at (HRange ty n e e' st) ts rest.

(** ** Statements and blocks *)
(** The words that begin statements of their own. *)
Definition block_words : list text :=
  [ lit "if"; lit "while"; lit "do"; lit "for"; lit "spawn"; lit "switch"; lit "try"; lit "set"; lit "break"; lit "continue"; lit "del" ].
Inductive stmt_at : stmt -> list tok -> list tok -> Prop :=
  | X_simple x ts mid rest :
      (forall w, In w block_words -> not_word w ts) -> simple_at false x ts mid -> ended mid rest -> stmt_at x ts rest
  | X_label i b ts mid rest :
      (forall w, In w block_words -> not_word w ts) -> simple_at false (Expr (name_expr i)) ts (P PColon :: mid) ->
      block_at b mid rest -> stmt_at (Label i b) ts rest
  | X_if c b arms o ws ts t1 t2 rest :
      parens_at c ts t1 -> block_at b t1 t2 -> arms_at arms o t2 rest -> stmt_at (If ((c, b) :: arms) o) (W "if" ws :: ts) rest
  | X_while c b ws ts t1 rest : parens_at c ts t1 -> block_at b t1 rest -> stmt_at (While c b) (W "while" ws :: ts) rest
  | X_do b c ws ws' ts t1 t2 t3 rest :
      block_at b ts t1 -> semicolons t1 (W "while" ws' :: t2) -> parens_at c t2 t3 -> ended t3 rest ->
      stmt_at (DoWhile b c) (W "do" ws :: ts) rest
  | X_for h b ws ts t1 rest : head_at h ts t1 -> block_at b t1 rest -> stmt_at (for_stmt h b) (W "for" ws :: P PLParen :: ts) rest
  | X_spawn b ws ts rest : not_punct PLParen ts -> block_at b ts rest -> stmt_at (Spawn None b) (W "spawn" ws :: ts) rest
  | X_spawn_delay o b ws ts t1 rest :
      opt_expr o ts (P PRParen :: t1) -> block_at b t1 rest -> stmt_at (Spawn o b) (W "spawn" ws :: P PLParen :: ts) rest
  | X_switch e cs o ws ts t1 rest :
      parens_at e ts (P PLBrace :: t1) -> cases_at cs o t1 rest -> stmt_at (Switch e cs o) (W "switch" ws :: ts) rest
  | X_try b h ws ws' ts t1 t2 rest :
      block_at b ts t1 -> semicolons t1 (W "catch" ws' :: t2) -> not_punct PLParen t2 -> block_at h t2 rest ->
      stmt_at (TryCatch b [] h) (W "try" ws :: ts) rest
  | X_try_catch b ps h ws ws' ts t1 t2 t3 rest :
      block_at b ts t1 -> semicolons t1 (W "catch" ws' :: P PLParen :: t2) -> items_at path_at ps t2 t3 -> block_at h t3 rest ->
      stmt_at (TryCatch b ps h) (W "try" ws :: ts) rest
  | X_set n e ws ws' ts mid rest :
      expr_at e ts mid -> ended mid rest ->
      stmt_at (Setting n SetAssign e) (W "set" ws :: TIdent F n ws' :: P PAssign :: ts) rest
  | X_set_in n e ws ws' ts mid rest :
      expr_at e ts mid -> ended mid rest -> stmt_at (Setting n SetIn e) (W "set" ws :: TIdent F n ws' :: P PIn :: ts) rest
  | X_break ws ts rest : ended ts rest -> stmt_at (Break None) (W "break" ws :: ts) rest
  | X_break_label i ws ws' ts rest : ended ts rest -> stmt_at (Break (Some i)) (W "break" ws :: TIdent F i ws' :: ts) rest
  | X_continue ws ts rest : ended ts rest -> stmt_at (Continue None) (W "continue" ws :: ts) rest
  | X_continue_label i ws ws' ts rest :
      ended ts rest -> stmt_at (Continue (Some i)) (W "continue" ws :: TIdent F i ws' :: ts) rest
  | X_del e ws ts mid rest : expr_at e ts mid -> ended mid rest -> stmt_at (Del e) (W "del" ws :: ts) rest

(** Statements in braces, one statement, or none *)
with block_at : block -> list tok -> list tok -> Prop :=
  | B_braces b ts rest : stmts_at b ts rest -> block_at b (P PLBrace :: ts) rest
  | B_none ts rest : ended ts rest -> block_at [] ts rest
  | B_one x ts rest : stmt_at x ts rest -> block_at [x] ts rest

(** Up to the closing brace *)
with stmts_at : block -> list tok -> list tok -> Prop :=
  | Xs_end rest : stmts_at [] (P PRBrace :: rest) rest
  | Xs_semicolon b ts rest : stmts_at b ts rest -> stmts_at b (P PSemicolon :: ts) rest
  | Xs_cons x b ts mid rest : stmt_at x ts mid -> stmts_at b mid rest -> stmts_at (x :: b) ts rest

(** What follows the first block of an [if]: an [else] belongs to the nearest one. *)
with arms_at : list (expr * block) -> option block -> list tok -> list tok -> Prop :=
  | A_end ts rest : semicolons ts rest -> not_word (lit "else") rest -> arms_at [] None ts rest
  | A_else b ws ts mid rest :
      semicolons ts (W "else" ws :: mid) -> not_word (lit "if") mid -> block_at b mid rest -> arms_at [] (Some b) ts rest
  | A_else_if c b arms o ws ws' ts mid t1 t2 rest :
      semicolons ts (W "else" ws :: W "if" ws' :: mid) -> parens_at c mid t1 -> block_at b t1 t2 -> arms_at arms o t2 rest ->
      arms_at ((c, b) :: arms) o ts rest

(** The cases of a switch, up to the closing brace, which comes right after the default *)
with cases_at : list (list (case F) * block) -> option block -> list tok -> list tok -> Prop :=
  | C_end rest : cases_at [] None (P PRBrace :: rest) rest
  | C_semicolon cs o ts rest : cases_at cs o ts rest -> cases_at cs o (P PSemicolon :: ts) rest
  | C_if what b cs o ws ts t1 t2 rest :
      items_at case_at what ts t1 -> what <> [] -> block_at b t1 t2 -> cases_at cs o t2 rest ->
      cases_at ((what, b) :: cs) o (W "if" ws :: P PLParen :: ts) rest
  | C_else b ws ts rest : block_at b ts (P PRBrace :: rest) -> cases_at [] (Some b) (W "else" ws :: ts) rest.
End SPEC.
