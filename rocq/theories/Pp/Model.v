(** Model of crates/dreammaker/src/preprocessor.rs.
    What surrounds the preprocessor (file system, lexer, expression parser and evaluator, [Display] of tokens) is a record of
    functions, [world].  Not modelled: annotations, the write-only [danger_idents], texts and places of diagnostics,
    read errors after a successful open, and overflow of [in_interp_string] at 2^32. *)
From Coq Require Import List ZArith NArith Bool Arith String.
From Verif Require Import Common.Text Common.Order Common.Decimal Loc.Model Lexer.Punct.
From Verif Require Lexer.Model.
Import ListNotations.
Open Scope nat_scope.

(** the outcome of a call: [Panic] is a panic, [Stuck] means that the fuel of the model did not suffice *)
Inductive res (A : Type) : Type := Ok (a : A) | Panic | Stuck.
Arguments Ok {A}. Arguments Panic {A}. Arguments Stuck {A}.
Definition bind {A B : Type} (x : res A) (k : A -> res B) : res B :=
  match x with Ok a => k a | Panic => Panic | Stuck => Stuck end.
Notation "'do' x <- e ; f" := (bind e (fun x => f)) (at level 200, x pattern, e at level 100, f at level 200).

(** preprocessor.rs:19-20 *)
Definition MAX_RECURSION_DEPTH : nat := 32.

(** preprocessor.rs:845-861: what the extension of a file says *)
Inductive file_type : Set := FDmm | FDmf | FDms | FDm | FUnknownExt | FNoExt.

(** the directives, preprocessor.rs:761-764 and the arms of the match at 770-1094 *)
Inductive dir : Set :=
  | DEndif | DElse | DIfdef | DIfndef | DIf | DElif | DInclude | DDefine | DUndef | DWarn | DError | DPragma | DOther.
Definition directive (i : text) : dir :=
  if text_eqb i (lit "endif") then DEndif else if text_eqb i (lit "else") then DElse
  else if text_eqb i (lit "ifdef") then DIfdef else if text_eqb i (lit "ifndef") then DIfndef
  else if text_eqb i (lit "if") then DIf else if text_eqb i (lit "elif") then DElif
  else if text_eqb i (lit "include") then DInclude else if text_eqb i (lit "define") then DDefine
  else if text_eqb i (lit "undef") then DUndef else if text_eqb i (lit "warn") then DWarn
  else if text_eqb i (lit "error") then DError else if text_eqb i (lit "pragma") then DPragma else DOther.

(** the diagnostics *)
Inductive perr : Set :=
  | EUnexpectedEof | EUnexpectedToken | EUnmatchedEndif | EUnmatchedElse | EUnmatchedElif | EUnterminated
  | EBadCondition | EUnknownExtension | ENoExtension | EOpen | EDuplicateInclude | ENotFound | EVariadicNotLast
  | EParamName | EParamComma | EDocTarget | ERedefined | ENotDefined | EWarnDirective | EErrorDirective
  | EUnknownDirective | ERecursion | EArgCount | EStringify.

Section PP.
Context {F P : Type}.
Notation token := (Lexer.Model.token F).
Notation ltok := (loc * token)%type.
(** [LocatedToken]s of docs.rs comments: kind, target, text *)
Definition doc : Type := (Lexer.Model.comment_kind * Lexer.Model.doc_target * text)%type.

Notation TPunct := (Lexer.Model.TPunct F).
Notation TIdent := (Lexer.Model.TIdent F).
Notation TString := (Lexer.Model.TString F).
Notation TInterpBegin := (Lexer.Model.TInterpBegin F).
Notation TInterpPart := (Lexer.Model.TInterpPart F).
Notation TInterpEnd := (Lexer.Model.TInterpEnd F).
Notation TResource := (Lexer.Model.TResource F).
Notation TInt := (Lexer.Model.TInt F).
Notation TFloat := (Lexer.Model.TFloat F).
Notation TDoc := (Lexer.Model.TDoc F).

(** preprocessor.rs:25-37 [Define] *)
Inductive define : Type :=
  | Constant (subst : list token) (docs : list doc)
  | Function (params : list text) (subst : list token) (variadic : bool) (docs : list doc).

(** preprocessor.rs:169-247 [DefineMap]: the HashMap is an association list without empty stacks; a stack has its top first *)
Definition define_map : Type := list (text * list (loc * define)).
Fixpoint dm_stack (m : define_map) (k : text) : list (loc * define) :=
  match m with
  | [] => []
  | (k', s) :: m' => if text_eqb k' k then s else dm_stack m' k
  end.
(** preprocessor.rs:202-205 contains_key *)
Definition dm_contains (m : define_map) (k : text) : bool := match dm_stack m k with [] => false | _ => true end.
(** preprocessor.rs:207-210 get *)
Definition dm_get (m : define_map) (k : text) : option (loc * define) := hd_error (dm_stack m k).
(** preprocessor.rs:212-224 insert *)
Fixpoint dm_insert (m : define_map) (k : text) (v : loc * define) : define_map :=
  match m with
  | [] => [(k, [v])]
  | (k', s) :: m' => if text_eqb k' k then (k', v :: s) :: m' else (k', s) :: dm_insert m' k v
  end.
(** preprocessor.rs:226-236 remove *)
Fixpoint dm_remove (m : define_map) (k : text) : option (loc * define) * define_map :=
  match m with
  | [] => (None, [])
  | (k', s) :: m' =>
      if text_eqb k' k then
        match s with
        | [] => (None, m')
        | [v] => (Some v, m')
        | v :: s' => (Some v, (k', s') :: m')
        end
      else let '(r, m'') := dm_remove m' k in (r, (k', s) :: m'')
  end.

(** preprocessor.rs:270-282 [Include] *)
Inductive include : Type :=
  | IFile (path : P) (toks : list ltok)
  | IExpansion (location : loc) (toks : list token).

(** preprocessor.rs:357-386 [Ifdef] *)
Record ifdef : Type := { i_loc : loc; i_active : bool; i_chain : bool }.
(** preprocessor.rs:365-371 *)
Definition ifdef_new (l : loc) (active : bool) : ifdef := {| i_loc := l; i_active := active; i_chain := active |}.
(** preprocessor.rs:372-378 *)
Definition ifdef_else (i : ifdef) (l : loc) : ifdef := {| i_loc := l; i_active := negb (i_chain i); i_chain := true |}.
(** preprocessor.rs:379-385 *)
Definition ifdef_else_if (i : ifdef) (l : loc) (active : bool) : ifdef :=
  {| i_loc := l; i_active := negb (i_chain i) && active; i_chain := i_chain i || active |}.

(** what the preprocessor uses of the rest of the program *)
Record world : Type := {
  w_path_eq : forall a b : P, {a = b} + {a <> b};
  (** [path.parent().unwrap().join(&text)]; [None] = the unwrap panics *)
  w_join : P -> text -> option P;
  w_empty_path : P;
  (** [Path::exists], [Path::extension], [Context::register_file] of the path relative to the environment,
      [File::open] followed by the lexer *)
  w_exists : P -> bool;
  w_type : P -> file_type;
  w_file_id : P -> Z;
  w_open : P -> option (list ltok);
  w_display_path : P -> text;
  (** [Display for Token] *)
  w_display : token -> text;
  (** parser::parse_expression and constants::preprocessor_evaluate; [None] = an error *)
  w_evaluate : list ltok -> define_map -> option bool
}.
Variable W : world.

(** preprocessor.rs:388-418 [Preprocessor]; stacks have their top first; the two interval trees are kept as the lists of
    insertions made, newest first (Itree.Props tells what such a tree holds) *)
Record state : Type := {
  env_file : P;
  stack : list include;
  include_locations : list (Z * loc);
  multiple_locations : list Z;
  last_input_loc : loc;
  output : list ltok;
  ifdef_stack : list ifdef;
  ifdef_history : list ((loc * loc) * bool);
  history : list ((loc * loc) * (text * define));
  defines : define_map;
  maps : list P; skins : list P; scripts : list P;
  in_interp : N;
  docs_in : list (loc * doc);
  errs : list perr
}.
Definition set_stack (v : list include) (s : state) : state :=
  {| env_file := env_file s; stack := v; include_locations := include_locations s; multiple_locations := multiple_locations s; last_input_loc := last_input_loc s; output := output s; ifdef_stack := ifdef_stack s; ifdef_history := ifdef_history s; history := history s; defines := defines s; maps := maps s; skins := skins s; scripts := scripts s; in_interp := in_interp s; docs_in := docs_in s; errs := errs s |}.
Definition set_include_locations (v : list (Z * loc)) (s : state) : state :=
  {| env_file := env_file s; stack := stack s; include_locations := v; multiple_locations := multiple_locations s; last_input_loc := last_input_loc s; output := output s; ifdef_stack := ifdef_stack s; ifdef_history := ifdef_history s; history := history s; defines := defines s; maps := maps s; skins := skins s; scripts := scripts s; in_interp := in_interp s; docs_in := docs_in s; errs := errs s |}.
Definition set_multiple (v : list Z) (s : state) : state :=
  {| env_file := env_file s; stack := stack s; include_locations := include_locations s; multiple_locations := v; last_input_loc := last_input_loc s; output := output s; ifdef_stack := ifdef_stack s; ifdef_history := ifdef_history s; history := history s; defines := defines s; maps := maps s; skins := skins s; scripts := scripts s; in_interp := in_interp s; docs_in := docs_in s; errs := errs s |}.
Definition set_loc (v : loc) (s : state) : state :=
  {| env_file := env_file s; stack := stack s; include_locations := include_locations s; multiple_locations := multiple_locations s; last_input_loc := v; output := output s; ifdef_stack := ifdef_stack s; ifdef_history := ifdef_history s; history := history s; defines := defines s; maps := maps s; skins := skins s; scripts := scripts s; in_interp := in_interp s; docs_in := docs_in s; errs := errs s |}.
Definition set_output (v : list ltok) (s : state) : state :=
  {| env_file := env_file s; stack := stack s; include_locations := include_locations s; multiple_locations := multiple_locations s; last_input_loc := last_input_loc s; output := v; ifdef_stack := ifdef_stack s; ifdef_history := ifdef_history s; history := history s; defines := defines s; maps := maps s; skins := skins s; scripts := scripts s; in_interp := in_interp s; docs_in := docs_in s; errs := errs s |}.
Definition set_ifdefs (v : list ifdef) (h : list ((loc * loc) * bool)) (s : state) : state :=
  {| env_file := env_file s; stack := stack s; include_locations := include_locations s; multiple_locations := multiple_locations s; last_input_loc := last_input_loc s; output := output s; ifdef_stack := v; ifdef_history := h; history := history s; defines := defines s; maps := maps s; skins := skins s; scripts := scripts s; in_interp := in_interp s; docs_in := docs_in s; errs := errs s |}.
Definition set_defines (v : define_map) (h : list ((loc * loc) * (text * define))) (s : state) : state :=
  {| env_file := env_file s; stack := stack s; include_locations := include_locations s; multiple_locations := multiple_locations s; last_input_loc := last_input_loc s; output := output s; ifdef_stack := ifdef_stack s; ifdef_history := ifdef_history s; history := h; defines := v; maps := maps s; skins := skins s; scripts := scripts s; in_interp := in_interp s; docs_in := docs_in s; errs := errs s |}.
Definition set_resources (m k d : list P) (s : state) : state :=
  {| env_file := env_file s; stack := stack s; include_locations := include_locations s; multiple_locations := multiple_locations s; last_input_loc := last_input_loc s; output := output s; ifdef_stack := ifdef_stack s; ifdef_history := ifdef_history s; history := history s; defines := defines s; maps := m; skins := k; scripts := d; in_interp := in_interp s; docs_in := docs_in s; errs := errs s |}.
Definition set_interp (v : N) (s : state) : state :=
  {| env_file := env_file s; stack := stack s; include_locations := include_locations s; multiple_locations := multiple_locations s; last_input_loc := last_input_loc s; output := output s; ifdef_stack := ifdef_stack s; ifdef_history := ifdef_history s; history := history s; defines := defines s; maps := maps s; skins := skins s; scripts := scripts s; in_interp := v; docs_in := docs_in s; errs := errs s |}.
Definition set_docs (v : list (loc * doc)) (s : state) : state :=
  {| env_file := env_file s; stack := stack s; include_locations := include_locations s; multiple_locations := multiple_locations s; last_input_loc := last_input_loc s; output := output s; ifdef_stack := ifdef_stack s; ifdef_history := ifdef_history s; history := history s; defines := defines s; maps := maps s; skins := skins s; scripts := scripts s; in_interp := in_interp s; docs_in := v; errs := errs s |}.
(** [Context::register_error]; newest first *)
Definition register (e : perr) (s : state) : state :=
  {| env_file := env_file s; stack := stack s; include_locations := include_locations s; multiple_locations := multiple_locations s; last_input_loc := last_input_loc s; output := output s; ifdef_stack := ifdef_stack s; ifdef_history := ifdef_history s; history := history s; defines := defines s; maps := maps s; skins := skins s; scripts := scripts s; in_interp := in_interp s; docs_in := docs_in s; errs := e :: errs s |}.

(** preprocessor.rs:427-458 [new]: the environment file is on the stack; [defs] are the built-in macros *)
Definition init (env : P) (toks : list ltok) (defs : define_map) (l0 : loc) : state :=
  {| env_file := env; stack := [IFile env toks]; include_locations := []; multiple_locations := []; last_input_loc := l0; output := []; ifdef_stack := []; ifdef_history := []; history := []; defines := defs; maps := []; skins := []; scripts := []; in_interp := 0%N; docs_in := []; errs := [] |}.

(** preprocessor.rs:328-354 [IncludeStack::next] *)
Fixpoint stack_next (st : list include) : option ltok * list include :=
  match st with
  | [] => (None, [])
  | IFile p (t :: ts) :: rest => (Some t, IFile p ts :: rest)
  | IExpansion l (t :: ts) :: rest => (Some (l, t), IExpansion l ts :: rest)
  | _ :: rest => stack_next rest
  end.
(** preprocessor.rs:730-732 inner_next *)
Definition inner_next (s : state) : option ltok * state :=
  let '(t, st) := stack_next (stack s) in (t, set_stack st s).
(** preprocessor.rs:313-320 top_file_path *)
Fixpoint top_file (st : list include) : option P :=
  match st with
  | [] => None
  | IFile p _ :: _ => Some p
  | _ :: rest => top_file rest
  end.
Definition top_file_path (s : state) : P := match top_file (stack s) with Some p => p | None => w_empty_path W end.
(** preprocessor.rs:580-587 in_environment *)
Definition in_environment (s : state) : bool :=
  match top_file (stack s) with Some p => if w_path_eq W p (env_file s) then true else false | None => false end.
(** preprocessor.rs:589-594 is_defined *)
Definition is_defined (s : state) (name : text) : bool :=
  if text_eqb name (lit "__MAIN__") then in_environment s else dm_contains (defines s) name.
(** preprocessor.rs:604-606 is_disabled *)
Definition is_disabled (s : state) : bool := existsb (fun i => negb (i_active i)) (ifdef_stack s).
(** preprocessor.rs:608-613 pop_ifdef *)
Definition pop_ifdef (s : state) : option ifdef * state :=
  match ifdef_stack s with
  | [] => (None, s)
  | i :: rest => (Some i, set_ifdefs rest (((i_loc i, last_input_loc s), i_active i) :: ifdef_history s) s)
  end.
Definition push_ifdef (i : ifdef) (s : state) : state := set_ifdefs (i :: ifdef_stack s) (ifdef_history s) s.
(** preprocessor.rs:725-728 push_output *)
Definition push_output (t : token) (s : state) : state := set_output (output s ++ [(last_input_loc s, t)]) s.
Definition doc_token (d : doc) : token := let '(k, t, x) := d in TDoc k t x.
(** preprocessor.rs:668-676 flush_docs *)
Definition flush_docs (s : state) : state :=
  match docs_in s with
  | [] => s
  | ds => set_docs [] (set_output (output s ++ map (fun d => (fst d, doc_token (snd d))) ds) s)
  end.

(** the [next!] macro, preprocessor.rs:737-748; an error returned by real_next is registered by its caller (650, 1554) *)
Definition next (s : state) (k : loc -> token -> state -> res state) : res state :=
  match inner_next s with
  | (Some (l, t), s') => k l t s'
  | (None, s') => Ok (register EUnexpectedEof s')
  end.
Definition fail (e : perr) (s : state) : res state := Ok (register e s).

(** number of tokens on the stack: an upper bound for the number of times [next!] succeeds in a row *)
Definition weight (i : include) : nat := match i with IFile _ ts => List.length ts | IExpansion _ ts => List.length ts end.
Definition available (s : state) : nat := fold_right (fun i n => weight i + n) 0 (stack s).

(** preprocessor.rs:938-980: the parameter list of a macro, after the opening parenthesis *)
Inductive params_result : Type := PDone (params : list text) (variadic : bool) (s : state) | PFail (e : perr) (s : state) | PStuck.
Fixpoint read_params (fuel : nat) (params : list text) (variadic : bool) (s : state) : params_result :=
  match fuel with
  | O => PStuck
  | S fuel' =>
      if variadic then PFail EVariadicNotLast s
      else
        match inner_next s with
        | (None, s1) => PFail EUnexpectedEof s1
        | (Some (_, t), s1) =>
            let cont (params : list text) (variadic : bool) :=
              match inner_next s1 with
              | (None, s2) => PFail EUnexpectedEof s2
              | (Some (_, t2), s2) =>
                  match t2 with
                  | Lexer.Model.TPunct _ PComma => read_params fuel' params variadic s2
                  | Lexer.Model.TPunct _ PRParen => PDone params variadic s2
                  | Lexer.Model.TPunct _ PEllipsis =>
                      match inner_next s2 with
                      | (None, s3) => PFail EUnexpectedEof s3
                      | (Some (_, Lexer.Model.TPunct _ PRParen), s3) => PDone params true s3
                      | (Some _, s3) => PFail EVariadicNotLast s3
                      end
                  | _ => PFail EParamComma s2
                  end
              end in
            match t with
            | Lexer.Model.TIdent _ name _ => cont (params ++ [name]) variadic
            | Lexer.Model.TPunct _ PEllipsis => cont (params ++ [lit "__VA_ARGS__"]) true
            | _ => PFail EParamName s1
            end
        end
  end.
(** preprocessor.rs:986-999 and 1008-1023: a documentation comment inside a #define *)
Definition define_doc (d : doc) (s : state) : state :=
  match snd (fst d) with Lexer.Model.Enclosing => s | Lexer.Model.Following => register EDocTarget s end.
(** preprocessor.rs:1005-1027: the rest of the line *)
Fixpoint read_subst (fuel : nat) (subst : list token) (docs : list doc) (s : state) : option (option (list token * list doc) * state) :=
  match fuel with
  | O => None
  | S fuel' =>
      match inner_next s with
      | (None, s1) => Some (None, register EUnexpectedEof s1)
      | (Some (_, t), s1) =>
          match t with
          | Lexer.Model.TPunct _ PNewline => Some (Some (subst, docs), s1)
          | Lexer.Model.TDoc _ k d x => read_subst fuel' subst (docs ++ [(k, d, x)]) (define_doc (k, d, x) s1)
          | other => read_subst fuel' (subst ++ [other]) docs s1
          end
      end
  end.
(** preprocessor.rs:1029-1067: the definition is complete *)
Definition add_define (name : text) (l : loc) (d : define) (s : state) : state :=
  if negb (text_eqb name (lit "DEBUG")) || in_environment s then
    let s' := set_defines (dm_insert (defines s) name (l, d)) (history s) s in
    match dm_get (defines s) name with
    | Some _ => if text_eqb name (lit "FILE_DIR") then s' else register ERedefined s'
    | None => s'
    end
  else s.
Definition yield_newline (s : state) : res state := Ok (push_output (TPunct PNewline) s).
Definition finish_define (name : text) (l : loc) (params : list text) (variadic : bool) (r : option (option (list token * list doc) * state))
  : res state :=
  match r with
  | None => Stuck
  | Some (None, s) => Ok s
  | Some (Some (subst, docs), s) =>
      yield_newline (add_define name l (match params with [] => Constant subst docs | _ => Function params subst variadic docs end) s)
  end.
(** preprocessor.rs:919-1068 #define, enabled *)
Definition do_define (s0 : state) : res state :=
  let docs := map snd (docs_in s0) in
  let s := set_docs [] s0 in
  next s (fun l t s1 =>
    match t with
    | Lexer.Model.TIdent _ name ws =>
        next s1 (fun _ t2 s2 =>
          match t2 with
          | Lexer.Model.TPunct _ PLParen =>
              if ws then finish_define name l [] false (read_subst (S (available s2)) [t2] docs s2)
              else match read_params (S (available s2)) [] false s2 with
                   | PStuck => Stuck
                   | PFail e s3 => fail e s3
                   | PDone params variadic s3 => finish_define name l params variadic (read_subst (S (available s3)) [] docs s3)
                   end
          | Lexer.Model.TPunct _ PNewline => finish_define name l [] false (Some (Some ([], docs), s2))
          | Lexer.Model.TDoc _ k d x =>
              finish_define name l [] false (read_subst (S (available s2)) [] (docs ++ [(k, d, x)]) (define_doc (k, d, x) s2))
          | other => finish_define name l [] false (read_subst (S (available s2)) [other] docs s2)
          end)
    | _ => fail EUnexpectedToken s1
    end).
(** preprocessor.rs:909-917: skip the line of a disabled #define *)
Fixpoint skip_line (fuel : nat) (s : state) : option (bool * state) :=
  match fuel with
  | O => None
  | S fuel' =>
      match inner_next s with
      | (None, s1) => Some (false, register EUnexpectedEof s1)
      | (Some (_, Lexer.Model.TPunct _ PNewline), s1) => Some (true, s1)
      | (Some _, s1) => skip_line fuel' s1
      end
  end.

(** preprocessor.rs:597-600 move_to_history; 1070-1085 #undef *)
Definition do_undef (s : state) : res state :=
  next s (fun _ t s1 =>
    match t with
    | Lexer.Model.TIdent _ name _ =>
        next s1 (fun _ t2 s2 =>
          match t2 with
          | Lexer.Model.TPunct _ PNewline =>
              match dm_remove (defines s2) name with
              | (Some (l, d), m) => yield_newline (set_defines m (((l, last_input_loc s2), (name, d)) :: history s2) s2)
              | (None, m) => yield_newline (register ENotDefined (set_defines m (history s2) s2))
              end
          | _ => fail EUnexpectedToken s2
          end)
    | _ => fail EUnexpectedToken s1
    end).

(** std: HashMap::get on the include locations *)
Fixpoint loc_of (m : list (Z * loc)) (id : Z) : option loc :=
  match m with
  | [] => None
  | (i, l) :: m' => if Z.eqb i id then Some l else loc_of m' id
  end.
(** preprocessor.rs:681-723 prepare_include_file, and 882-893 *)
Definition include_file (path : P) (s : state) : state :=
  match w_open W path with
  | None => register EOpen s
  | Some toks =>
      let id := w_file_id W path in
      let enter s := set_stack (IFile path toks :: stack s) (push_output (TPunct PNewline) s) in
      match loc_of (include_locations s) id with
      | Some _ => if existsb (Z.eqb id) (multiple_locations s) then enter s else register EDuplicateInclude s
      | None => enter (set_include_locations ((id, last_input_loc s) :: include_locations s) s)
      end
  end.
(** preprocessor.rs:837-895: one candidate that exists *)
Definition include_candidate (path : P) (s : state) : state :=
  match w_type W path with
  | FDmm => set_resources (maps s ++ [path]) (skins s) (scripts s) s
  | FDmf => set_resources (maps s) (skins s ++ [path]) (scripts s) s
  | FDms => set_resources (maps s) (skins s) (scripts s ++ [path]) s
  | FDm => include_file path s
  | FUnknownExt => register EUnknownExtension s
  | FNoExt => register ENoExtension s
  end.
(** preprocessor.rs:815 [str::replace] of one character *)
Definition slashes (t : text) : text := map (fun c => if N.eqb c 92 then 47%N else c) t.
(** preprocessor.rs:811-905 #include, enabled *)
Definition do_include (s : state) : res state :=
  next s (fun _ t s1 =>
    match t with
    | Lexer.Model.TString _ path_str =>
        next s1 (fun _ t2 s2 =>
          match t2 with
          | Lexer.Model.TPunct _ PNewline =>
              match w_join W (top_file_path s2) (slashes path_str), w_join W (env_file s2) (slashes path_str) with
              | Some c1, Some c2 =>
                  if w_exists W c1 then Ok (include_candidate c1 s2)
                  else if w_exists W c2 then Ok (include_candidate c2 s2)
                  else Ok (register ENotFound s2)
              | _, _ => Panic
              end
          | _ => fail EUnexpectedToken s2
          end)
    | _ => fail EUnexpectedToken s1
    end).

(** preprocessor.rs:779-792 #ifdef, #ifndef ([neg] for the latter) *)
Definition do_ifdef (neg : bool) (s : state) : res state :=
  next s (fun _ t s1 =>
    match t with
    | Lexer.Model.TIdent _ name _ =>
        next s1 (fun _ t2 s2 =>
          match t2 with
          | Lexer.Model.TPunct _ PNewline =>
              yield_newline (push_ifdef (ifdef_new (last_input_loc s2) (xorb neg (is_defined s2 name))) s2)
          | _ => fail EUnexpectedToken s2
          end)
    | _ => fail EUnexpectedToken s1
    end).
(** preprocessor.rs:1087-1106 #warn, #error *)
Definition do_message (e : perr) (s : state) : res state :=
  next s (fun _ t s1 =>
    match t with
    | Lexer.Model.TString _ _ => yield_newline (register e s1)
    | _ => fail EUnexpectedToken s1
    end).
(** preprocessor.rs:1108-1116 #pragma *)
Definition do_pragma (s : state) : res state :=
  next s (fun l t s1 =>
    match t with
    | Lexer.Model.TIdent _ i _ =>
        yield_newline (if text_eqb i (lit "multiple") then set_multiple (lfile l :: multiple_locations s1) s1 else s1)
    | _ => fail EUnexpectedToken s1
    end).

(** preprocessor.rs:766-1140: the directive after a #; [ev] is [evaluate] *)
Definition do_directive (ev : state -> res (bool * state)) (disabled : bool) (s : state) : res state :=
  next s (fun _ t s1 =>
    match t with
    | Lexer.Model.TIdent _ name _ =>
        match directive name with
        | DEndif => match pop_ifdef s1 with (None, s2) => fail EUnmatchedEndif s2 | (Some _, s2) => yield_newline s2 end
        | DElse =>
            match pop_ifdef s1 with
            | (None, s2) => fail EUnmatchedElse s2
            | (Some last, s2) => yield_newline (push_ifdef (ifdef_else last (last_input_loc s2)) s2)
            end
        | DIfdef => do_ifdef false s1
        | DIfndef => do_ifdef true s1
        | DIf =>
            do (enabled, s2) <- ev s1;
            yield_newline (push_ifdef (ifdef_new (last_input_loc s2) enabled) s2)
        | DElif =>
            match pop_ifdef s1 with
            | (None, s2) => fail EUnmatchedElif s2
            | (Some last, s2) =>
                do (enabled, s3) <- ev s2;
                yield_newline (push_ifdef (ifdef_else_if last (last_input_loc s3) enabled) s3)
            end
        | DInclude => if disabled then yield_newline s1 else do_include s1
        | DDefine =>
            if disabled then
              match skip_line (S (available s1)) s1 with
              | None => Stuck
              | Some (true, s2) => yield_newline s2
              | Some (false, s2) => Ok s2
              end
            else do_define s1
        | DUndef => if disabled then yield_newline s1 else do_undef s1
        | DWarn => if disabled then yield_newline s1 else do_message EWarnDirective s1
        | DError => if disabled then yield_newline s1 else do_message EErrorDirective s1
        | DPragma => if disabled then yield_newline s1 else do_pragma s1
        | DOther => fail EUnknownDirective s1
        end
    | _ => fail EUnexpectedToken s1
    end).

(** preprocessor.rs:1265-1294: the arguments of a macro call, after the opening parenthesis; [None] in the pair = end of file *)
Fixpoint read_args (fuel : nat) (args : list (list token)) (this : list token) (parens : nat) (s : state)
  : option (option (list (list token)) * state) :=
  match fuel with
  | O => None
  | S fuel' =>
      match inner_next s with
      | (None, s1) => Some (None, register EUnexpectedEof s1)
      | (Some (_, t), s1) =>
          match t with
          | Lexer.Model.TPunct _ PLParen => read_args fuel' args (this ++ [t]) (S parens) s1
          | Lexer.Model.TPunct _ PRParen =>
              match parens with
              | O => Some (Some (args ++ [this]), s1)
              | S p => read_args fuel' args (this ++ [t]) p s1
              end
          | Lexer.Model.TPunct _ PComma =>
              match parens with
              | O => read_args fuel' (args ++ [this]) [] 0 s1
              | S _ => read_args fuel' args (this ++ [t]) parens s1
              end
          | _ => read_args fuel' args (this ++ [t]) parens s1
          end
      end
  end.
(** std [join] of slices of tokens *)
Fixpoint join_args (args : list (list token)) : list token :=
  match args with
  | [] => []
  | [a] => a
  | a :: rest => a ++ TPunct PComma :: join_args rest
  end.
(** preprocessor.rs:1297-1306: a variadic macro takes what is left as its last argument *)
Definition fit_args (nparams : nat) (variadic : bool) (args : list (list token)) : list (list token) :=
  if variadic then
    if nparams <? List.length args then firstn (nparams - 1) args ++ [join_args (skipn (nparams - 1) args)]
    else if List.length args + 1 =? nparams then args ++ [[]]
    else args
  else args.
(** std [position] *)
Fixpoint position (params : list text) (i : text) : option nat :=
  match params with
  | [] => None
  | p :: ps => if text_eqb p i then Some 0 else option_map S (position ps i)
  end.
Definition param_arg (params : list text) (args : list (list token)) (i : text) : option (list token) :=
  match position params i with Some n => Some (nth n args []) | None => None end.

(** i32 [Display] *)
Definition show_int (i : Z) : text := match i with
  | Z0 => Verif.Common.Decimal.print_N 0
  | Zpos p => Verif.Common.Decimal.print_N (Npos p)
  | Zneg p => 45%N :: Verif.Common.Decimal.print_N (Npos p)
  end.
(** preprocessor.rs:1405-1417: the text of a stringified argument *)
Fixpoint stringify (acc : text) (arg : list token) : text :=
  match arg with
  | [] => acc
  | t :: rest => stringify ((match acc with [] => acc | _ => acc ++ [32%N] end) ++ w_display W t) rest
  end.
(** the last element of the expansion, taken off it *)
Definition pop_back (l : list token) : option (token * list token) :=
  match rev l with [] => None | t :: r => Some (t, rev r) end.
(** preprocessor.rs:1339-1401: token paste; [second] is the token after ## *)
Definition do_paste (params : list text) (args : list (list token)) (expansion : list token) (second : option token) : list token :=
  let first := pop_back expansion in
  let front := match first with Some (_, r) => r | None => expansion end in
  match first, second with
  | Some (Lexer.Model.TIdent _ a ws1, _), Some (Lexer.Model.TIdent _ b ws) =>
      match param_arg params args b with
      | Some arg =>
          match arg with
          | Lexer.Model.TIdent _ c ws' :: rest => front ++ TIdent (a ++ c) ws' :: rest
          | Lexer.Model.TInt _ n :: rest => front ++ TIdent (a ++ show_int n) ws :: rest
          | other :: rest => front ++ TIdent a ws1 :: other :: rest
          | [] => front ++ [TIdent a ws1]
          end
      | None => front ++ [TIdent (a ++ b) ws]
      end
  | _, Some (Lexer.Model.TIdent _ b ws) =>
      expansion ++ (match param_arg params args b with Some arg => arg | None => [TIdent b ws] end)
  | _, Some t => expansion ++ [t]
  | _, None => expansion
  end.
(** preprocessor.rs:1327-1446: the body with the arguments pasted in; [None] = "can't stringify" *)
Fixpoint paste (params : list text) (args : list (list token)) (input expansion : list token) : option (list token) :=
  match input with
  | [] => Some expansion
  | t :: rest =>
      match t with
      | Lexer.Model.TIdent _ i ws =>
          paste params args rest (expansion ++ match param_arg params args i with Some arg => arg | None => [t] end)
      | Lexer.Model.TPunct _ PTokenPaste =>
          match rest with
          | [] => Some (do_paste params args expansion None)
          | t2 :: rest2 => paste params args rest2 (do_paste params args expansion (Some t2))
          end
      | Lexer.Model.TPunct _ PHash =>
          match rest with
          | Lexer.Model.TIdent _ i _ :: rest2 =>
              match param_arg params args i with
              | Some arg => paste params args rest2 (expansion ++ [TString (stringify [] arg)])
              | None => None
              end
          | _ => None
          end
      | _ => paste params args rest (expansion ++ [t])
      end
  end.

(** [in_interp_string] after a token; [None] = subtraction overflow *)
Definition count_interp (t : token) (s : state) : res state :=
  match t with
  | Lexer.Model.TInterpBegin _ _ => Ok (set_interp (in_interp s + 1)%N s)
  | Lexer.Model.TInterpEnd _ _ => if (in_interp s =? 0)%N then Panic else Ok (set_interp (in_interp s - 1)%N s)
  | _ => Ok s
  end.
(** preprocessor.rs:1243-1452: a function-like macro *)
Definition call_macro (ident : text) (params : list text) (subst : list token) (variadic : bool) (s : state) : res state :=
  next s (fun _ t s1 =>
    match t with
    | Lexer.Model.TPunct _ PLParen =>
        match read_args (S (available s1)) [] [] 0 s1 with
        | None => Stuck
        | Some (None, s2) => Ok s2
        | Some (Some args0, s2) =>
            let args := fit_args (List.length params) variadic args0 in
            if List.length args =? List.length params then
              match paste params args subst [] with
              | Some expansion => Ok (set_stack (IExpansion (last_input_loc s2) expansion :: stack s2) s2)
              | None => fail EStringify s2
              end
            else fail EArgCount s2
        end
    | other => do s2 <- count_interp other (push_output (TIdent ident false) s1); Ok (push_output other s2)
    end).

(** lexer.rs:311-319 Token::is_whitespace *)
Definition tok_whitespace (t : token) : bool :=
  match t with
  | Lexer.Model.TPunct _ p => match p with PTab | PNewline | PSpace => true | _ => false end
  | _ => false
  end.
(** preprocessor.rs:1196-1213: is the output [... defined (] *)
Definition after_defined (out : list ltok) : bool :=
  match rev out with
  | (_, Lexer.Model.TPunct _ PLParen) :: (_, Lexer.Model.TIdent _ i _) :: _ => text_eqb i (lit "defined")
  | _ => false
  end.
(** u32 as i32 *)
Definition as_i32 (z : Z) : Z := if (z <? 2 ^ 31)%Z then z else (z - 2 ^ 32)%Z.
(** preprocessor.rs:1466-1471 *)
Definition emit (t : token) (s : state) : state := push_output t (if tok_whitespace t then s else flush_docs s).

(** preprocessor.rs:1143-1458: an identifier that is not ifdef'd out *)
Definition do_ident (ident : text) (ws : bool) (s0 : state) : res state :=
  let s := flush_docs s0 in
  if text_eqb ident (lit "__FILE__") then
    Ok (push_output (TString (match top_file (stack s) with Some p => w_display_path W p | None => [] end)) s)
  else if text_eqb ident (lit "__LINE__") then Ok (push_output (TInt (as_i32 (lline (last_input_loc s)))) s)
  else if after_defined (output s) then Ok (push_output (TIdent ident ws) s)
  else
    match dm_get (defines s) ident with
    | None => Ok (emit (TIdent ident ws) s)
    | Some (_, d) =>
        if MAX_RECURSION_DEPTH <? List.length (stack s) then Ok (emit (TIdent ident ws) (register ERecursion s))
        else
          match d with
          | Constant subst _ => Ok (set_stack (IExpansion (last_input_loc s) subst :: stack s) s)
          | Function params subst variadic _ => call_macro ident params subst variadic s
          end
    end.

(** preprocessor.rs:734-1473 real_next *)
Definition real_next (ev : state -> res (bool * state)) (read : token) (inside_condition : bool) (s : state) : res state :=
  let disabled := negb inside_condition && is_disabled s in
  match read with
  | Lexer.Model.TPunct _ PHash => do_directive ev disabled s
  | _ =>
      if disabled then Ok s
      else
        match read with
        | Lexer.Model.TIdent _ ident ws => do_ident ident ws s
        | Lexer.Model.TDoc _ k Lexer.Model.Following x => Ok (set_docs (docs_in s ++ [(last_input_loc s, (k, Lexer.Model.Following, x))]) s)
        | _ => do s1 <- count_interp read s; Ok (emit read s1)
        end
  end.

(** preprocessor.rs:615-645 evaluate_inner, with 647-656 evaluate; [pump] is the loop of 618-628 *)
Definition evaluate (pump : state -> res state) (s : state) : res (bool * state) :=
  do s1 <- pump s;
  if is_disabled s1 then Ok (false, set_output [] s1)
  else
    match w_evaluate W (output s1) (defines s1) with
    | Some b => Ok (b, set_output [] s1)
    | None => Ok (false, register EBadCondition (set_output [] s1))
    end.
Fixpoint pump (fuel : nat) (s : state) : res state :=
  match fuel with
  | O => Stuck
  | S fuel' =>
      match inner_next s with
      | (None, s1) => Ok s1
      | (Some (l, t), s1) =>
          let s2 := set_loc l s1 in
          match t with
          | Lexer.Model.TPunct _ PNewline => Ok s2
          | _ => do s3 <- real_next (evaluate (pump fuel')) t true s2; pump fuel' s3
          end
      end
  end.

(** preprocessor.rs:1500-1504: at the end every open conditional is closed *)
Fixpoint close_ifdefs (n : nat) (s : state) : state :=
  match n with
  | O => s
  | S n' => match pop_ifdef s with (None, s1) => s1 | (Some _, s1) => close_ifdefs n' (register EUnterminated s1) end
  end.
(** preprocessor.rs:1476-1508 [Iterator::next], called until it returns None: the tokens produced and the last state *)
Fixpoint run (fuel : nat) (s : state) : res (list ltok * state) :=
  match fuel with
  | O => Stuck
  | S fuel' =>
      match output s with
      | t :: out => do (ts, s') <- run fuel' (set_output out s); Ok (t :: ts, s')
      | [] =>
          match inner_next s with
          | (None, s1) => Ok ([], close_ifdefs (List.length (ifdef_stack s1)) s1)
          | (Some (l, t), s1) => do s2 <- real_next (evaluate (pump fuel')) t false (set_loc l s1); run fuel' s2
          end
      end
  end.
End PP.
