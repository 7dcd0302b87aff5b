(** The parser of whole files: from tokens to the calls that build the object tree, crates/dreammaker/src/parser.rs (cited as
    parser.rs).

    Simplifications, beside those of Parse/Model.v and Stmt/Model.v.  A type is known by the names on its path from the root instead
    of its index in the tree; the calls of the builder are recorded in order instead of made.  Documentation comments are dropped:
    they are stored with what they stand at, and the only thing else they do is a warning when they stand at a block of variables or
    procedures (parser.rs:925-933), which is left out (the test of [docs.is_empty()], parser.rs:818-822, chooses between two ways to
    the same error).  The builder's own complaints, when a procedure is declared twice (objtree.rs register_proc, parser.rs:1303), are
    those of the builder, not of this file.  The annotations, and with them the paths that are reconstructed for them
    (parser.rs:2880-2900), are left out; but the call of [annotate] after a block (parser.rs:944) looks at the next token whether
    there are annotations or not, and that is the only place where the parser can look at the token after the end. *)
From Coq Require Import List NArith ZArith Bool String.
From Verif Require Import Common.Text Lexer.Punct Lexer.Model Parse.Ast Parse.Model Stmt.Ast Stmt.Model Objtree.Ispath Tree.Ast.
Import ListNotations.
Open Scope nat_scope.

Section TREE.
Variable F : Type.
(** config.rs code_standards: disallow_relative_type_definitions, disallow_relative_proc_definitions *)
Variables no_relative_types no_relative_procs : bool.
Notation tok := (token F).
Notation expr := (expr F).
Notation pst := (pst F).
Notation res := (res F).
Notation param := (param F).
Notation member := (member F).
Notation event := (event F).
Notation "'opt' a s <- x ; k" := (opt_ F x (fun a s => k)) (at level 200, a name, s name, x at level 100, k at level 200).
Notation "'lead' a s <- x ; k" := (lead_ F x (fun a s => k)) (at level 200, a name, s name, x at level 100, k at level 200).
Notation "'req' a s <- x ; k" := (req_ F x (fun a s => k)) (at level 200, a name, s name, x at level 100, k at level 200).
Notation exact := (exact F). Notation ident := (ident F). Notation exact_ident := (exact_ident F).
Notation input_type := (input_type F). Notation register := (register F). Notation ret := (ret F).
Notation expression := (Stmt.Model.expression F). Notation tree_path := (tree_path F). Notation input_specifier := (input_specifier F).
Notation statement_terminator := (statement_terminator F).

Definition warn (b : bool) (d : diag) (s : pst) : pst := if b then register d s else s.

(** ** Pieces of an entry *)
(** parser.rs:704-757 tree_path with both parts of its result *)
Definition entry_path (s : pst) : res (bool * list text) :=
  lead p s1 <- tree_path s;
  ret (match toks s with TPunct _ PSlash :: _ => true | _ => false end, p) s1.
(** parser.rs:1377-1387 var_suffix *)
Definition var_suffix (s : pst) : res (list (option expr)) := r_suffix F (srun F (stmt_fuel F (toks s))) [] s.
(** parser.rs:1101-1184 try_read_operator_name, the names of one punctuation *)
Definition operator_names : list (punct * text) :=
  [ (PMod, lit "operator%"); (PModAssign, lit "operator%="); (PFloatMod, lit "operator%%"); (PFloatModAssign, lit "operator%%=");
    (PBitAnd, lit "operator&"); (PBitAndAssign, lit "operator&="); (PMul, lit "operator*"); (PPow, lit "operator**");
    (PMulAssign, lit "operator*="); (PSlash, lit "operator/"); (PDivAssign, lit "operator/="); (PAdd, lit "operator+");
    (PPlusPlus, lit "operator++"); (PAddAssign, lit "operator+="); (PSub, lit "operator-"); (PMinusMinus, lit "operator--");
    (PSubAssign, lit "operator-="); (PLess, lit "operator<"); (PLShift, lit "operator<<"); (PLShiftAssign, lit "operator<<=");
    (PLessEq, lit "operator<="); (PLessOrGreater, lit "operator<=>"); (PGreater, lit "operator>"); (PGreaterEq, lit "operator>=");
    (PRShift, lit "operator>>"); (PRShiftAssign, lit "operator>>="); (PBitXor, lit "operator^"); (PBitXorAssign, lit "operator^=");
    (PBitOr, lit "operator|"); (PBitOrAssign, lit "operator|="); (PBitNot, lit "operator~"); (PEquiv, lit "operator~=");
    (PAssignInto, lit "operator:=") ].
Fixpoint operator_of (l : list (punct * text)) (s : pst) : res text :=
  match l with
  | (p, name) :: l' => opt o s1 <- exact p s; match o with Some _ => ret name s1 | None => operator_of l' s1 end
  | [] =>
      opt b s1 <- exact PLBracket s;
      match b with
      | Some _ =>
          req _ s2 <- exact PRBracket s1;
          opt a s3 <- exact PAssign s2;
          match a with Some _ => ret (lit "operator[]=") s3 | None => ret (lit "operator[]") s3 end
      | None =>
          match toks s1 with
          | TString _ [] :: r => ret (lit "operator" ++ [34%N; 34%N]) (with_toks F r s1)
          | _ => Ok None s1
          end
      end
  end.
(** parser.rs:897-902: the last part of the path, which may go on with an operator *)
Definition last_name (w : text) (s : pst) : res text :=
  if text_eqb w (lit "operator") then
    opt o s1 <- operator_of operator_names s;
    match o with Some x => ret x s1 | None => ret w s1 end
  else ret w s.

(** *** Parameters *)
(** parser.rs:1330-1336 a superfluous 'var' *)
Definition strip_var (p : list text) : bool * list text :=
  match p with w :: p' => if text_eqb w (lit "var") then (true, p') else (false, p) | [] => (false, p) end.
(** parser.rs:1351-1372 proc_parameter, after '=' and the expression *)
Definition param_end (t : vartype) (name : text) (d : option expr) (s : pst) : res param :=
  req sp s1 <- input_specifier s;
  opt c s2 <- exact PSemicolon s1;
  ret {| q_type := t; q_name := name; q_default := d; q_input := fst sp; q_in := snd sp |}
      (warn (match c with Some _ => true | None => false end) DSemicolonInParam s2).
(** parser.rs:1344-1372 proc_parameter, after the path *)
Definition param_tail (t : vartype) (name : text) (s : pst) : res param :=
  req sizes s1 <- var_suffix s;
  opt a s2 <- exact PAssign s1;
  match a with
  | Some _ => req d s3 <- expression s2; param_end (with_suffix F t sizes) name (Some d) s3
  | None => param_end (with_suffix F t sizes) name None s2
  end.
(** parser.rs:1330-1343 proc_parameter, the path is taken apart *)
Definition param_rest (path : list text) (name : text) (s : pst) : res param :=
  let '(v, path) := strip_var path in
  let t := var_type 0 path in
  param_tail t name (warn (negb (N.eqb (N.land (v_flags t) 1) 0)) DStaticInParam (warn v DVarInParam s)).
(** parser.rs:1308-1372 proc_parameter *)
Definition parameter (s : pst) : res param :=
  opt e s1 <- exact PEllipsis s;
  match e with
  | Some _ => ret {| q_type := {| v_flags := 0; v_path := [] |}; q_name := lit "..."; q_default := None; q_input := None; q_in := None |} s1
  | None =>
      lead p s2 <- tree_path s1;
      match pop p with
      | Some (path, name) => param_rest path name s2
      | None => param_rest [] [] (register DParse s2)
      end
  end.
(** parser.rs:2818-2846 separated *)
Fixpoint parameters (n : nat) (comma_legal : bool) (elems : list param) (s : pst) : res (list param) :=
  match n with
  | O => Stuck
  | S n' => separated_body F PComma PRParen None parameter (parameters n') comma_legal elems s
  end.
(** parser.rs:1426-1432 return_type, the path *)
Fixpoint type_path (n : nat) (path : list text) (s : pst) : res (list text) :=
  match n with
  | O => Stuck
  | S n' =>
      opt c s1 <- exact PSlash s;
      match c with
      | Some _ => req i s2 <- ident s1; type_path n' (path ++ [i]) s2
      | None => ret path s1
      end
  end.
(** parser.rs:1416-1435 return_type; [None]: the default, no type *)
Definition return_type (overrides : bool) (s : pst) : res (option rettype) :=
  opt a s1 <- exact_ident (lit "as") s;
  match a with
  | None => ret None s1
  | Some _ =>
      opt t s2 <- input_type (warn overrides DReturnType s1);
      match t with
      | Some n => ret (Some (RInput n)) s2
      | None =>
          req _ s3 <- exact PSlash s2;
          req i s4 <- ident s3;
          req p s5 <- type_path (S (List.length (toks s4))) [i] s4;
          ret (Some (RPath p)) s5
      end
  end.

(** *** Bodies *)
(** parser.rs:298-329 TTKind *)
Definition closer (p : punct) : option punct :=
  match p with PLParen => Some PRParen | PLBrace => Some PRBrace | PLBracket => Some PRBracket | _ => None end.
(** parser.rs:2851-2876 read_any_tt; the result is what is pushed.  [groups n]: with groups nested at most [n] deep *)
Fixpoint tt (n : nat) (s : pst) : res (list tok) :=
  match n with
  | O => Stuck
  | S n' =>
      match toks s with
      | [] => Ok None s
      | t :: r =>
          match t with
          | TPunct _ p =>
              match closer p with
              | Some q => req l s1 <- group n' q [] (with_toks F r s); ret (t :: l) s1
              | None => ret [t] (with_toks F r s)
              end
          | _ => ret [t] (with_toks F r s)
          end
      end
  end
(** parser.rs:2864-2875 the loop of read_any_tt, up to the end of the group; parser.rs:1224-1227 the same loop for a body in braces *)
with group (n : nat) (q : punct) (acc : list tok) (s : pst) : res (list tok) :=
  match n with
  | O => Stuck
  | S n' =>
      opt e s1 <- exact q s;
      match e with
      | Some _ => ret (acc ++ [TPunct F q]) s1
      | None => req l s2 <- tt n' s1; group n' q (acc ++ l) s2
      end
  end.
(** parser.rs:1230-1233 a body on the same line *)
Fixpoint line (n : nat) (acc : list tok) (s : pst) : res (list tok) :=
  match n with
  | O => Stuck
  | S n' =>
      opt e s1 <- statement_terminator s;
      match e with
      | Some _ => ret (acc ++ [TPunct F PSemicolon]) s1
      | None => req l s2 <- tt n' s1; line n' (acc ++ l) s2
      end
  end.
Definition tt_fuel (ts : list tok) : nat := 2 * List.length ts + 2.
(** parser.rs:1203-1236 the tokens of the body *)
Definition body (s : pst) : res (list tok) :=
  opt e s1 <- statement_terminator s;
  match e with
  | Some _ => ret [TPunct F PSemicolon] s1
  | None =>
      opt b s2 <- exact PLBrace s1;
      match b with
      | Some _ => req l s3 <- group (tt_fuel (toks s2)) PRBrace [] s2; ret (TPunct F PLBrace :: l) s3
      | None => line (tt_fuel (toks s2)) [] s2
      end
  end.

(** ** The path of an entry *)
(** Where the entries are read: the type, [proc_builder] and [var_type] *)
Definition root_place : place := {| c_type := []; c_proc := None; c_var := None |}.
(** ast.rs:370-378 ProcDeclKind::from_name *)
Definition kind_of (w : text) : option bool :=
  if text_eqb w (lit "proc") then Some false else if text_eqb w (lit "verb") then Some true else None.
(** the number of slashes in the path of a type, parser.rs:868-873 *)
Definition slashes (cur : list text) : nat := List.length (filter (N.eqb SLASH) (render cur)).
(** What is known while the path is followed: the place, whether a type was named relatively, the calls, the parser *)
Record walk : Type := { w_place : place; w_relative : bool; w_events : list event; w_pst : pst }.
(** parser.rs:844-886 traverse_tree *)
Definition enter (absolute : bool) (path_len : nat) (each : text) (x : walk) : walk :=
  let c := w_place x in
  let at_ := fun c => {| w_place := c; w_relative := w_relative x; w_events := w_events x; w_pst := w_pst x |} in
  if text_eqb each (lit "var") then at_ {| c_type := c_type c; c_proc := c_proc c; c_var := Some {| v_flags := 0; v_path := [] |} |}
  else match c_var c with
  | Some t =>
      at_ {| c_type := c_type c; c_proc := c_proc c;
             c_var := Some (match flag_of each with
                            | Some f => {| v_flags := N.lor (v_flags t) f; v_path := v_path t |}
                            | None => {| v_flags := v_flags t; v_path := v_path t ++ [each] |}
                            end) |}
  | None =>
  match kind_of each with
  | Some verb => at_ {| c_type := c_type c; c_proc := Some {| d_verb := verb; d_final := false |}; c_var := None |}
  | None =>
  match c_proc c with
  | Some d =>
      if text_eqb each (lit "final") then at_ {| c_type := c_type c; c_proc := Some {| d_verb := d_verb d; d_final := true |}; c_var := None |}
      else {| w_place := c; w_relative := w_relative x; w_events := w_events x; w_pst := register DSubBlock (w_pst x) |}
  | None =>
      {| w_place := {| c_type := c_type c ++ [each]; c_proc := None; c_var := None |};
         w_relative := w_relative x || (negb absolute && no_relative_types);
         w_events := w_events x ++ [EAdd F (c_type c) each (slashes (c_type c) + path_len)];
         w_pst := w_pst x |}
  end end end.

(** ** Entries *)
(** What [tree_entry] and [tree_entries] end with: all is well; an error, after which nothing is read any more; the parser panics; out
    of fuel *)
Record tst : Type := { t_pst : pst; t_events : list event }.
Inductive tres : Type := TOk (s : tst) | TErr (s : tst) | TPanic (s : tst) | TStuck.
(** require!, with the calls so far *)
Definition treq {A : Type} (x : res A) (ev : list event) (k : A -> pst -> tres) : tres :=
  match x with
  | Ok (Some a) s => k a s
  | Ok None s | Err s => TErr {| t_pst := s; t_events := ev |}
  | Stuck => TStuck
  end.
Notation "'reqT' a s <- x 'with' ev ; k" := (treq x ev (fun a s => k)) (at level 200, a name, s name, x at level 100, ev at level 100, k at level 200).
Definition done (ev : list event) (s : pst) : tres := TOk {| t_pst := s; t_events := ev |}.

(** parser.rs:953-999 after '=' *)
Definition entry_value (c : place) (name : text) (sizes : list (option expr)) (ev : list event) (s : pst) : tres :=
  reqT e s1 <- expression s with ev;
  reqT sp s2 <- input_specifier s1 with ev;
  reqT _ s3 <- statement_terminator s2 with ev;
  done (ev ++ [EMember F (c_type c) name
                 match c_var c with
                 | Some t => MVar (with_suffix F t sizes) (fst sp) (Some e)
                 | None => MSet e
                 end]) s3.
(** parser.rs:1186-1306 proc_params_and_body, after '('; parser.rs:1265-1305 register_proc and what it is told *)
Definition entry_proc (c : place) (absolute : bool) (name : text) (ev : list event) (s : pst) : tres :=
  reqT ps s1 <- parameters (S (List.length (toks s))) false [] s with ev;
  reqT rt s2 <- return_type (match c_proc c with None => true | Some _ => false end) s1 with ev;
  reqT b s3 <- body s2 with ev;
  done (ev ++ [EMember F (c_type c) name (MProc (c_proc c) ps rt b)]) (warn (negb absolute && no_relative_procs) DRelativeProc s3).
(** parser.rs:1020-1087 the entries without anything after the path *)
Definition entry_bare (x : walk) (absolute : bool) (path_len : nat) (name : text) (sizes : list (option expr)) (s : pst) : tres :=
  let c := w_place x in let ev := w_events x in
  let bare := fun (it : option N) (s1 : pst) =>
    if text_eqb name (lit "var") then done ev (register DNoEffectItem s1)
    else match c_var c with
    | Some t =>
        match flag_of name with
        | Some _ => done ev (register DNoEffectItem s1)
        | None => done (ev ++ [EMember F (c_type c) name (MVar (with_suffix F t sizes) it (initializer F sizes))]) s1
        end
    | None =>
    match kind_of name with
    | Some _ => done ev (register DNoEffectItem s1)
    | None =>
    match c_proc c with
    | Some _ => done ev (register DNoBody s1)
    | None => done (ev ++ [EAdd F (c_type c) name (slashes (c_type c) + path_len)]) (warn (w_relative x) DRelativeType s1)
    end end end in
  match c_var c with
  | Some _ => reqT sp s1 <- input_specifier s with ev; bare (fst sp) s1
  | None => bare None s
  end.

Section BODY.
(** tree_entries in a block *)
Variable block : place -> tst -> tres.
(** parser.rs:914-952 a block: what is before it is entered *)
Definition entry_block (x : walk) (absolute : bool) (path_len : nat) (name : text) (s : pst) : tres :=
  let x1 := enter absolute path_len name {| w_place := w_place x; w_relative := w_relative x; w_events := w_events x; w_pst := s |} in
  block (w_place x1) {| t_pst := warn (w_relative x1) DRelativeType (w_pst x1); t_events := w_events x1 |}.
(** parser.rs:910-1089 from the token after the path on *)
Definition entry_rest (x : walk) (absolute : bool) (path_len : nat) (name : text) (sizes : list (option expr)) (s : pst) : tres :=
  match toks s with
  | TPunct _ PLBrace :: r => entry_block x absolute path_len name (with_toks F r s)
  | TPunct _ PAssign :: r => entry_value (w_place x) name sizes (w_events x) (warn (w_relative x) DRelativeType (with_toks F r s))
  | TPunct _ PLParen :: r => entry_proc (w_place x) absolute name (w_events x) (with_toks F r s)
  | _ => entry_bare x absolute path_len name sizes s
  end.
(** parser.rs:790-1089 tree_entry *)
Definition entry (c : place) (s : tst) : tres :=
  reqT ap s1 <- entry_path (t_pst s) with t_events s;
  let '(absolute, path) := ap in
  let away := absolute && match c_type c with [] => false | _ => true end in
  let c1 := if away then {| c_type := []; c_proc := c_proc c; c_var := c_var c |} else c in
  let s2 := warn away DNested s1 in
  match pop path with
  | None => done (t_events s) (register DNoName s2)
  | Some (traverse, last) =>
      let path_len := List.length path in
      let x := fold_left (fun x each => enter absolute path_len each x) traverse
                 {| w_place := c1; w_relative := false; w_events := t_events s; w_pst := s2 |} in
      reqT name s3 <- last_name last (w_pst x) with w_events x;
      match c_var (w_place x) with
      | Some _ => reqT sizes s4 <- var_suffix s3 with w_events x; entry_rest x absolute path_len name sizes s4
      | None => entry_rest x absolute path_len name [] s3
      end
  end.
End BODY.
(** parser.rs:664-699 tree_entries; [nested]: up to a closing brace instead of the end.  The end of the tokens ends a block as well
    (parser.rs:689), and then the parser looks at the token after it (parser.rs:944) and panics (parser.rs:520). *)
Fixpoint entries (n : nat) (nested : bool) (c : place) (s : tst) : tres :=
  match n with
  | O => TStuck
  | S n' =>
      match toks (t_pst s) with
      | [] => if nested then TPanic s else TOk s
      | TPunct _ PSemicolon :: r => entries n' nested c {| t_pst := with_toks F r (t_pst s); t_events := t_events s |}
      | t :: r =>
          if nested && match t with TPunct _ PRBrace => true | _ => false end
          then TOk {| t_pst := with_toks F r (t_pst s); t_events := t_events s |}
          else match entry (entries n' true) c s with
               | TOk s' => entries n' nested c s'
               | x => x
               end
      end
  end.
(** parser.rs:660-662 root, 440-452 run, for the tokens of a file *)
Definition parse_file (ts : list tok) : tres :=
  let ts' := filter (fun t => negb (is_doc F t)) ts in
  entries (S (List.length ts')) false root_place {| t_pst := {| toks := ts'; diags := [] |}; t_events := [] |}.
(** parser.rs:1238-1263: the code that [register_proc] gets for a body; [None]: there is none, and an error is registered *)
Definition code_of (b : list tok) : option (block F) := match parse_body F b with Some (o, _, _) => o | None => None end.
End TREE.
