(** The parser of statements, crates/dreammaker/src/parser.rs (cited as parser.rs), on top of the parser of expressions
    (Parse/Model.v, whose simplifications apply here too).  Left out besides: the loop context and the list of variables
    ([loop_ctx], [vars]: nothing but annotations depends on them), and possible_indentation_error (it adds a note to a message).
    Loops and recursion take fuel; [stmt_fuel] provides enough (theorem C55_terminates). *)
From Coq Require Import List NArith ZArith Bool String.
From Verif Require Import Common.Text Lexer.Punct Lexer.Model Parse.Ast Parse.Model Stmt.Ast.
Import ListNotations.
Open Scope nat_scope.

Section PARSER.
Variable F : Type.
Notation tok := (token F).
Notation expr := (expr F).
Notation stmt := (stmt F).
Notation block := (block F).
Notation pst := (pst F).
Notation res := (res F).
Notation "'opt' a s <- x ; k" := (opt_ F x (fun a s => k)) (at level 200, a name, s name, x at level 100, k at level 200).
Notation "'lead' a s <- x ; k" := (lead_ F x (fun a s => k)) (at level 200, a name, s name, x at level 100, k at level 200).
Notation "'req' a s <- x ; k" := (req_ F x (fun a s => k)) (at level 200, a name, s name, x at level 100, k at level 200).
Notation exact := (exact F). Notation ident := (ident F). Notation exact_ident := (exact_ident F).
Notation input_type := (input_type F). Notation register := (register F).
Definition ret {A : Type} (a : A) (s : pst) : res A := Ok (Some a) s.

(** parser.rs:2152-2154 expression *)
Definition expression (s : pst) : res expr := f_expr F (run F (parse_fuel F (toks s))) None false s.

(** ** Paths *)
(** parser.rs:762-773 possible_leading_slash: absolute or spurious, or neither *)
Definition leading_slash (s : pst) : bool * pst :=
  match toks s with
  | TPunct _ PSlash :: r => (true, with_toks F r s)
  | TPunct _ PDot :: r | TPunct _ PCloseColon :: r | TPunct _ PColon :: r => (true, register DPathLead (with_toks F r s))
  | _ => (false, s)
  end.
(** parser.rs:723-733: the last part, when a slash without a name follows it *)
Definition bare_slash (parts : list text) : list text :=
  match rev parts with
  | l :: r => if text_eqb l (lit "operator") then rev r ++ [l ++ lit "/"] else parts
  | [] => parts
  end.
(** parser.rs:719-739 the loop; parser.rs:776-788 slash *)
Fixpoint path_rest (parts : list text) (ts : list tok) (ds : list diag) : list text * pst :=
  let next := fun r ds =>
    match r with
    | TIdent _ i _ :: r' => path_rest (parts ++ [i]) r' ds
    | _ => path_rest (bare_slash parts) r ds
    end in
  match ts with
  | TPunct _ PSlash :: r => next r ds
  | TPunct _ PDot :: r | TPunct _ PCloseColon :: r | TPunct _ PColon :: r => next r (ds ++ [DPathSeparator])
  | _ => (parts, {| toks := ts; diags := ds |})
  end.
(** parser.rs:704-757 tree_path; only the parts of the result are used here *)
Definition tree_path (s : pst) : res (list text) :=
  let '(lead_, s1) := leading_slash s in
  opt i s2 <- ident s1;
  match i with
  | Some i => let '(parts, s3) := path_rest [i] (toks s2) (diags s2) in ret parts s3
  | None => if lead_ then ret [] (register DPathEmpty s2) else Ok None s2
  end.

(** ** Variables *)
(** ast.rs:591-601 VarTypeFlags; ast.rs:604-618 from_name *)
Definition flag_of (w : text) : option N :=
  if text_eqb w (lit "global") || text_eqb w (lit "static") then Some 1%N
  else if text_eqb w (lit "const") then Some 4%N
  else if text_eqb w (lit "tmp") then Some 8%N
  else if text_eqb w (lit "final") || text_eqb w (lit "SpacemanDMM_final") then Some 16%N
  else if text_eqb w (lit "SpacemanDMM_private") then Some 32%N
  else if text_eqb w (lit "SpacemanDMM_protected") then Some 64%N
  else None.
(** ast.rs:1445-1465 FromIterator for VarTypeBuilder *)
Fixpoint var_type (flags : N) (path : list text) : vartype :=
  match path with
  | w :: r => match flag_of w with
              | Some f => var_type (N.lor flags f) r
              | None => {| v_flags := flags; v_path := path |}
              end
  | [] => {| v_flags := flags; v_path := [] |}
  end.
(** parser.rs:1922-1952 flags without effect *)
Definition warn_flag (f : N) (flags : N) (s : pst) : pst :=
  if N.eqb (N.land flags f) 0 then s else register (DNoEffect f) s.
Definition warn_flags (flags : N) (s : pst) : pst :=
  warn_flag 64 flags (warn_flag 32 flags (warn_flag 16 flags (warn_flag 8 flags s))).
(** ast.rs:1430-1434 suffix *)
Definition with_suffix (t : vartype) (sizes : list (option expr)) : vartype :=
  match sizes with [] => t | _ => {| v_flags := v_flags t; v_path := lit "list" :: v_path t |} end.
(** ast.rs:1479-1492 into_initializer *)
Definition initializer (sizes : list (option expr)) : option expr :=
  match flat_map (fun o => match o with Some e => [e] | None => [] end) sizes with
  | [] => None
  | args => Some (Base (MNewPrefab [(PathSlash, lit "list")] [] (Some args)) [])
  end.
(** the last element of a path, parser.rs:1913-1916 pop *)
Definition pop (path : list text) : option (list text * text) :=
  match rev path with l :: r => Some (rev r, l) | [] => None end.
(** parser.rs:1399-1412 input_specifier, from 'in' on *)
Definition in_clause (it : option N) (s : pst) : res (option N * option expr) :=
  opt i s1 <- exact PIn s;
  match i with
  | Some _ =>
      req e s2 <- expression s1;
      opt a s3 <- exact_ident (lit "as") s2;
      match a with
      | Some _ => req _ s4 <- input_type (register DAsOrder s3); ret (it, Some e) s4
      | None => ret (it, Some e) s3
      end
  | None => ret (it, None) s1
  end.
(** parser.rs:1390-1413 input_specifier *)
Definition input_specifier (s : pst) : res (option N * option expr) :=
  opt a s1 <- exact_ident (lit "as") s;
  match a with
  | Some _ => req it s2 <- input_type s1; in_clause (Some it) s2
  | None => in_clause None s1
  end.

(** ** The mutually recursive functions and the loops *)
Record sfns : Type := {
  r_suffix : list (option expr) -> pst -> res (list (option expr));
  r_decls : bool -> list (vardecl F) -> pst -> res (list (vardecl F));
  r_caselist : bool -> list (case F) -> pst -> res (list (case F));
  r_params : bool -> list (list text) -> pst -> res (list (list text));
  r_semis : pst -> res unit;
  r_block : pst -> res block;
  r_stmts : list stmt -> pst -> res block;
  r_stmt : pst -> res stmt;
  r_arms : list (expr * block) -> pst -> res (list (expr * block) * option block);
  r_cases : list (list (case F) * block) -> pst -> res (list (list (case F) * block) * option block) }.

Section BODY.
Variable R : sfns.

(** parser.rs:1377-1387 var_suffix *)
Definition suffix_body (sizes : list (option expr)) (s : pst) : res (list (option expr)) :=
  opt b s1 <- exact PLBracket s;
  match b with
  | Some _ => opt e s2 <- expression s1; req _ s3 <- exact PRBracket s2; r_suffix R (sizes ++ [e]) s3
  | None => ret sizes s1
  end.
(** parser.rs:1967-1976 'as' and 'in' after a declaration *)
Definition declared (in_for : bool) (d : vardecl F) (s : pst) : res (vardecl F) :=
  if in_for then ret d s
  else
    req sp s1 <- input_specifier s;
    ret d (match sp with (None, None) => s1 | _ => register DAsLocal s1 end).
(** parser.rs:1911-1976 one turn of the loop over the declared variables *)
Definition declaration (in_for : bool) (s : pst) : res (vardecl F) :=
  req path s1 <- tree_path s;
  match pop path with
  | None => Err s1
  | Some (path, name) =>
      let t := var_type 0 path in
      req sizes s2 <- r_suffix R [] (warn_flags (v_flags t) s1);
      opt a s3 <- exact PAssign s2;
      match a with
      | Some _ => req e s4 <- expression s3; declared in_for {| v_type := with_suffix t sizes; v_name := name; v_value := Some e |} s4
      | None => declared in_for {| v_type := with_suffix t sizes; v_name := name; v_value := initializer sizes |} s3
      end
  end.
(** parser.rs:1910-1980 the loop *)
Definition decls_body (in_for : bool) (ds : list (vardecl F)) (s : pst) : res (list (vardecl F)) :=
  req d s1 <- declaration in_for s;
  if in_for then ret (ds ++ [d]) s1
  else
    opt c s2 <- exact PComma s1;
    match c with
    | Some _ => r_decls R in_for (ds ++ [d]) s2
    | None => ret (ds ++ [d]) s2
    end.
(** parser.rs:1904-2015 simple_statement *)
Definition simple_statement (in_for : bool) (s : pst) : res stmt :=
  opt k s1 <- exact_ident (lit "var") s;
  match k with
  | Some _ =>
      req ds s2 <- r_decls R in_for [] s1;
      ret (match ds with [d] => Var d | _ => Vars ds end) s2
  | None =>
  opt k s1 <- exact_ident (lit "return") s1;
  match k with
  | Some _ => opt e s2 <- expression s1; ret (Return e) s2
  | None =>
  opt k s1 <- exact_ident (lit "CRASH") s1;
  match k with
  | Some _ =>
      req _ s2 <- exact PLParen s1;
      opt e s3 <- expression s2;
      req _ s4 <- exact PRParen s3;
      ret (Crash e) s4
  | None =>
  opt k s1 <- exact_ident (lit "throw") s1;
  match k with
  | Some _ => req e s2 <- expression s1; ret (Throw e) s2
  | None =>
  opt k s1 <- exact_ident (lit "goto") s1;
  match k with
  | Some _ => req l s2 <- ident s1; ret (Goto l) s2
  | None => lead e s2 <- expression s1; ret (Expr e) s2
  end end end end end.
(** parser.rs:1873-1888 statement_terminator *)
Definition statement_terminator (s : pst) : res unit :=
  match toks s with
  | TPunct _ PSemicolon :: r => ret tt (with_toks F r s)
  | TPunct _ PRBrace :: _ => ret tt s
  | _ => Ok None s
  end.
(** parser.rs:1890-1902 skip_phantom_semicolons *)
Definition semis_body (s : pst) : res unit :=
  opt c s1 <- exact PSemicolon s;
  match c with Some _ => r_semis R s1 | None => ret tt s1 end.

(** parser.rs:1472-1498 block *)
Definition block_body (s : pst) : res block :=
  opt b s1 <- exact PLBrace s;
  match b with
  | Some _ => r_stmts R [] s1
  | None =>
      opt e s2 <- statement_terminator s1;
      match e with
      | Some _ => ret [] s2
      | None => req x s3 <- r_stmt R s2; ret [x] s3
      end
  end.
(** parser.rs:1476-1484 the statements between braces *)
Definition stmts_body (acc : list stmt) (s : pst) : res block :=
  opt b s1 <- exact PRBrace s;
  match b with
  | Some _ => ret acc s1
  | None =>
      opt c s2 <- exact PSemicolon s1;
      match c with
      | Some _ => r_stmts R acc s2
      | None => req x s3 <- r_stmt R s2; r_stmts R (acc ++ [x]) s3
      end
  end.

(** '(' expression ')' *)
Definition in_parens (s : pst) : res expr :=
  req _ s1 <- exact PLParen s;
  req e s2 <- expression s1;
  req _ s3 <- exact PRParen s2;
  ret e s3.
(** parser.rs:1518-1532 the else branches; the semicolons before each round are skipped here *)
Definition arms_body (arms : list (expr * block)) (s : pst) : res (list (expr * block) * option block) :=
  req _ s0 <- r_semis R s;
  opt e s1 <- exact_ident (lit "else") s0;
  match e with
  | Some _ =>
      opt i s2 <- exact_ident (lit "if") s1;
      match i with
      | Some _ => req c s3 <- in_parens s2; req b s4 <- r_block R s3; r_arms R (arms ++ [(c, b)]) s4
      | None => req b s3 <- r_block R s2; ret (arms, Some b) s3
      end
  | None => ret (arms, None) s1
  end.

(** parser.rs:2062-2071 case *)
Definition case_item (s : pst) : res (case F) :=
  req a s1 <- expression s;
  opt t s2 <- exact_ident (lit "to") s1;
  match t with
  | Some _ => req b s3 <- expression s2; ret (Between a b) s3
  | None => ret (Exactly a) s2
  end.
Definition caselist_body : bool -> list (case F) -> pst -> res (list (case F)) :=
  separated_body F PComma PRParen None case_item (r_caselist R).
(** parser.rs:1812-1816 the parameters of catch *)
Definition params_body : bool -> list (list text) -> pst -> res (list (list text)) :=
  separated_body F PComma PRParen None (fun s => lead p s1 <- tree_path s; ret p s1) (r_params R).
(** parser.rs:1776-1800 the cases of a switch *)
Definition cases_body (cs : list (list (case F) * block)) (s : pst) : res (list (list (case F) * block) * option block) :=
  opt i s1 <- exact_ident (lit "if") s;
  match i with
  | Some _ =>
      req _ s2 <- exact PLParen s1;
      req what s3 <- r_caselist R false [] s2;
      req b s4 <- r_block R (match what with [] => register DEmptyCase s3 | _ => s3 end);
      r_cases R (cs ++ [(what, b)]) s4
  | None =>
  opt e s2 <- exact_ident (lit "else") s1;
  match e with
  | Some _ => req b s3 <- r_block R s2; ret (cs, Some b) s3
  | None =>
  opt c s3 <- exact PSemicolon s2;
  match c with
  | Some _ => r_cases R cs s3
  | None => ret (cs, None) s3
  end end end.

(** ast.rs:996-1018 as_term, into_term, when the term is an identifier *)
Definition ident_of (e : expr) : option text := match e with Base (MIdent i) [] => Some i | _ => None end.
(** 'as' input_type, or nothing *)
Definition as_clause (s : pst) : res (option N) :=
  opt a s1 <- exact_ident (lit "as") s;
  match a with
  | Some _ => req t s2 <- input_type s1; ret (Some t) s2
  | None => ret None s1
  end.
(** ')' block *)
Definition then_block (k : block -> stmt) (s : pst) : res stmt :=
  req _ s1 <- exact PRParen s;
  req b s2 <- r_block R s1;
  ret (k b) s2.
(** parser.rs:2020-2044 for_range *)
Definition for_range (ty : option vartype) (name : text) (a b : expr) (s : pst) : res stmt :=
  opt t s1 <- exact_ident (lit "step") s;
  match t with
  | Some _ => req st s2 <- expression s1; then_block (ForRange ty name a b (Some st)) s2
  | None => then_block (ForRange ty name a b None) s1
  end.
(** parser.rs:1568-1584 for, after a semicolon *)
Definition for_semicolon (init : option stmt) (s : pst) : res stmt :=
  opt test s1 <- expression s;
  opt c s2 <- exact PSemicolon s1;
  opt inc s3 <- match c with Some _ => simple_statement false s2 | None => Ok None s2 end;
  then_block (ForLoop init test inc) s3.
(** parser.rs:1614-1625 the key of a key-value loop *)
Definition key_of (init : option stmt) : option (option vartype * text) :=
  match init with
  | Some (Var d) => match v_value d with None => Some (Some (v_type d), v_name d) | Some _ => None end
  | Some (Expr e) => match ident_of e with Some i => Some (None, i) | None => None end
  | _ => None
  end.
(** parser.rs:1585-1657 for, after a comma *)
Definition for_comma (init : option stmt) (kit : option N) (s : pst) : res stmt :=
  opt test s1 <- expression s;
  opt c s2 <- exact PComma s1;
  opt inc s3 <- match c with Some _ => simple_statement false s2 | None => Ok None s2 end;
  match inc, test with
  | None, Some (Bin BIn lhs rhs) =>
      match key_of init, ident_of lhs with
      | Some (ty, key), Some value => then_block (ForKeyValue ty key kit value (Some rhs)) s3
      | _, _ => Err s3
      end
  | _, _ => then_block (ForLoop init test inc) s3
  end.
(** parser.rs:1728-1752 the rest of a loop over a list *)
Definition for_list (ty : option vartype) (name : text) (s : pst) : res stmt :=
  req it s1 <- as_clause s;
  opt i s2 <- exact PIn s1;
  match i with
  | Some _ =>
      req value s3 <- expression s2;
      opt t s4 <- exact_ident (lit "to") s3;
      match t with
      | Some _ => req b s5 <- expression s4; for_range ty name value b s5
      | None => then_block (ForList ty name it (Some value)) s4
      end
  | None => then_block (ForList ty name it None) s2
  end.
(** 'to' expression, and the rest of a loop over a range *)
Definition for_to (ty : option vartype) (name : text) (a : expr) (s : pst) : res stmt :=
  req _ s1 <- exact_ident (lit "to") s;
  req b s2 <- expression s1;
  for_range ty name a b s2.
(** parser.rs:1658-1726 for, with neither semicolon nor comma *)
Definition for_other (init : option stmt) (s : pst) : res stmt :=
  match init with
  | None => then_block ForInfinite s
  | Some (Var d) =>
      match v_value d with
      | None => for_list (Some (v_type d)) (v_name d) s
      | Some value => for_to (Some (v_type d)) (v_name d) value s
      end
  | Some (Expr (Assign AAssign lhs rhs)) =>
      match ident_of lhs with Some name => for_to None name rhs s | None => Err s end
  | Some (Expr (Bin BIn lhs rhs)) =>
      match ident_of lhs with
      | Some name =>
          match rhs with
          | Bin BTo a b => for_range None name a b s
          | _ => then_block (ForList None name None (Some rhs)) s
          end
      | None => Err s
      end
  | Some (Expr e) => match ident_of e with Some name => for_list None name s | None => Err s end
  | Some _ => Err s
  end.
(** parser.rs:1555-1758 statement, after 'for' *)
Definition for_statement (s : pst) : res stmt :=
  req _ s1 <- exact PLParen s;
  opt init s2 <- simple_statement true s1;
  req kit s3 <- as_clause s2;
  opt c s4 <- exact PSemicolon s3;
  match c with
  | Some _ => for_semicolon init s4
  | None =>
      opt c s5 <- exact PComma s4;
      match c with
      | Some _ => for_comma init kit s5
      | None => for_other init s5
      end
  end.

(** parser.rs:1510-1533 after 'if' *)
Definition if_statement (s : pst) : res stmt :=
  req c s1 <- in_parens s;
  req b s2 <- r_block R s1;
  req r s3 <- r_arms R [(c, b)] s2;
  ret (If (fst r) (snd r)) s3.
(** parser.rs:1534-1540 after 'while' *)
Definition while_statement (s : pst) : res stmt :=
  req c s1 <- in_parens s; req b s2 <- r_block R s1; ret (While c b) s2.
(** parser.rs:1541-1554 after 'do' *)
Definition do_statement (s : pst) : res stmt :=
  req b s1 <- r_block R s;
  req _ s2 <- r_semis R s1;
  req _ s3 <- exact_ident (lit "while") s2;
  req c s4 <- in_parens s3;
  req _ s5 <- statement_terminator s4;
  ret (DoWhile b c) s5.
(** parser.rs:1759-1770 after 'spawn' *)
Definition spawn_statement (s : pst) : res stmt :=
  opt p s1 <- exact PLParen s;
  match p with
  | Some _ =>
      opt e s2 <- expression s1;
      req _ s3 <- exact PRParen s2;
      req b s4 <- r_block R s3; ret (Spawn e b) s4
  | None => req b s2 <- r_block R s1; ret (Spawn None b) s2
  end.
(** parser.rs:1771-1806 after 'switch' *)
Definition switch_statement (s : pst) : res stmt :=
  req e s1 <- in_parens s;
  req _ s2 <- exact PLBrace s1;
  req r s3 <- r_cases R [] s2;
  req _ s4 <- exact PRBrace s3;
  ret (Switch e (fst r) (snd r)) s4.
(** parser.rs:1807-1827 after 'try' *)
Definition try_statement (s : pst) : res stmt :=
  req b s1 <- r_block R s;
  req _ s2 <- r_semis R s1;
  req _ s3 <- exact_ident (lit "catch") s2;
  opt p s4 <- exact PLParen s3;
  req ps s5 <- match p with Some _ => r_params R false [] s4 | None => ret [] s4 end;
  req h s6 <- r_block R s5;
  ret (TryCatch b ps h) s6.
(** parser.rs:1838-1840 the value of a setting *)
Definition set_value (name : text) (mode : setmode) (s : pst) : res stmt :=
  req e s1 <- expression s;
  req _ s2 <- statement_terminator s1;
  ret (Setting name mode e) s2.
(** parser.rs:1829-1840 after 'set' *)
Definition set_statement (s : pst) : res stmt :=
  req name s1 <- ident s;
  opt a s2 <- exact PAssign s1;
  match a with
  | Some _ => set_value name SetAssign s2
  | None =>
      opt i s3 <- exact PIn s2;
      match i with Some _ => set_value name SetIn s3 | None => Err s3 end
  end.
(** parser.rs:1841-1848 after 'break' and 'continue' *)
Definition jump_statement (k : option text -> stmt) (s : pst) : res stmt :=
  opt l s1 <- ident s; req _ s2 <- statement_terminator s1; ret (k l) s2.
(** parser.rs:1849-1852 after 'del' *)
Definition del_statement (s : pst) : res stmt :=
  req e s1 <- expression s; req _ s2 <- statement_terminator s1; ret (Del e) s2.
(** parser.rs:1853-1871 the other statements, and labels *)
Definition other_statement (s : pst) : res stmt :=
  lead x s1 <- simple_statement false s;
  match match x with Expr e => ident_of e | _ => None end with
  | Some name =>
      opt c s2 <- exact PColon s1;
      match c with
      | Some _ => req b s3 <- r_block R s2; ret (Label name b) s3
      | None => req _ s3 <- statement_terminator s2; ret x s3
      end
  | None => req _ s2 <- statement_terminator s1; ret x s2
  end.
(** parser.rs:1500-1871 statement *)
Fixpoint by_keyword (l : list (text * (pst -> res stmt))) (s : pst) : res stmt :=
  match l with
  | (w, k) :: l' => opt o s1 <- exact_ident w s; match o with Some _ => k s1 | None => by_keyword l' s1 end
  | [] => other_statement s
  end.
Definition stmt_body (s : pst) : res stmt :=
  by_keyword
    [ (lit "if", if_statement); (lit "while", while_statement); (lit "do", do_statement); (lit "for", for_statement);
      (lit "spawn", spawn_statement); (lit "switch", switch_statement); (lit "try", try_statement);
      (lit "set", set_statement); (lit "break", jump_statement Break); (lit "continue", jump_statement Continue);
      (lit "del", del_statement) ] s.

Definition sstep : sfns :=
  {| r_suffix := suffix_body; r_decls := decls_body; r_caselist := caselist_body; r_params := params_body;
     r_semis := semis_body; r_block := block_body; r_stmts := stmts_body; r_stmt := stmt_body; r_arms := arms_body;
     r_cases := cases_body |}.
End BODY.

Definition stuck_sfns : sfns :=
  {| r_suffix := fun _ _ => Stuck; r_decls := fun _ _ _ => Stuck; r_caselist := fun _ _ _ => Stuck;
     r_params := fun _ _ _ => Stuck; r_semis := fun _ => Stuck; r_block := fun _ => Stuck; r_stmts := fun _ _ => Stuck;
     r_stmt := fun _ => Stuck; r_arms := fun _ _ => Stuck; r_cases := fun _ _ => Stuck |}.
(** The functions with calls nested at most [n] deep. *)
Fixpoint srun (n : nat) : sfns := match n with O => stuck_sfns | S n' => sstep (srun n') end.
(** Enough for any token list, C55_terminates. *)
Definition stmt_fuel (ts : list tok) : nat := 2 * List.length ts + 3.
(** parser.rs:1239-1263: the code of a proc, read from the tokens of its body.  [Some b]: the code; [None]: there is none, an error
    is registered; with the other diagnostics registered and the tokens that are not looked at. *)
Definition parse_body (ts : list tok) : option (option block * list diag * list tok) :=
  let ts' := filter (fun t => negb (is_doc F t)) ts in
  match r_block (srun (stmt_fuel ts')) {| toks := ts'; diags := [] |} with
  | Ok (Some b) s => Some (Some b, diags s, toks s)
  | Ok None s => Some (None, diags s, toks s)
  | Err s => Some (None, diags s, toks s)
  | Stuck => None
  end.
End PARSER.
