(** What a file declares, as a grammar over tokens, written without reference to the parser.  [x_at x ts rest]: the tokens [ts] begin
    with the phrase [x], and [rest] is what follows it.  Expressions are those of Parse/Spec.v; paths, sizes and input types those of
    Stmt/Spec.v. *)
From Coq Require Import List NArith ZArith Bool String.
From Verif Require Import Common.Text Lexer.Punct Lexer.Model Parse.Ast Parse.Spec Stmt.Ast Stmt.Spec Tree.Ast.
Import ListNotations.
Open Scope nat_scope.

(** ** Where a path leads *)
(** words that are no names of types *)
Definition VAR : text := lit "var".
Definition PROC : text := lit "proc".
Definition VERB : text := lit "verb".
Definition FINAL : text := lit "final".
Definition plain (w : text) : Prop := w <> VAR /\ w <> PROC /\ w <> VERB.
(** words between [var] and the name of a variable that are not part of its type *)
Definition var_words : list (text * N) :=
  [ (lit "global", 1%N); (lit "static", 1%N); (lit "const", 4%N); (lit "tmp", 8%N); (lit "final", 16%N); (lit "SpacemanDMM_final", 16%N);
    (lit "SpacemanDMM_private", 32%N); (lit "SpacemanDMM_protected", 64%N) ].
Inductive var_part : list text -> N -> list text -> Prop :=
  | Vp_nil : var_part [] 0%N []
  | Vp_word w f q n t : In (w, f) var_words -> var_part q n t -> var_part (w :: q) (N.lor f n) t
  | Vp_type w q n t : w <> VAR -> ~ In w (map fst var_words) -> var_part q n t -> var_part (w :: q) n (w :: t).
(** [proc] or [verb], and perhaps [final]; if there are several of them the last counts *)
Inductive proc_part : list text -> procdecl -> Prop :=
  Pp front w verb fs :
    match front with f :: _ => f = PROC \/ f = VERB | [] => True end -> Forall (fun x => x = PROC \/ x = VERB \/ x = FINAL) front ->
    (w, verb) = (PROC, false) \/ (w, verb) = (VERB, true) -> Forall (eq FINAL) fs ->
    proc_part (front ++ w :: fs) {| d_verb := verb; d_final := match fs with [] => false | _ => true end |}.
(** A path from the root, of types, [proc] or [verb], and [var]; after a second [var] what was after the first does not count *)
Inductive leads : list text -> place -> Prop :=
  | Le_type ts : Forall plain ts -> leads ts {| c_type := ts; c_proc := None; c_var := None |}
  | Le_proc ts ws d : Forall plain ts -> proc_part ws d -> leads (ts ++ ws) {| c_type := ts; c_proc := Some d; c_var := None |}
  | Le_var p ts d old q n t :
      leads p {| c_type := ts; c_proc := d; c_var := None |} -> match old with o :: _ => o = VAR | [] => True end -> var_part q n t ->
      leads (p ++ old ++ VAR :: q) {| c_type := ts; c_proc := d; c_var := Some {| v_flags := n; v_path := t |} |}.

Section SPEC.
Variable F : Type.
(** the configuration wants absolute paths for types, for procedures *)
Variables no_relative_types no_relative_procs : bool.
Notation tok := (token F).
Notation expr := (expr F).
Notation P p := (TPunct F p).
Notation W w ws := (TIdent F (lit w) ws).

(** ** Paths of entries *)
(** [true]: absolute *)
Inductive route_at : bool -> list text -> list tok -> list tok -> Prop :=
  | Ro_relative ns ts rest : names_at F ns ts rest -> route_at false ns ts rest
  | Ro_absolute ns ts rest : names_at F ns ts rest -> route_at true ns (P PSlash :: ts) rest.
(** The operators that can be overloaded; [operator] and such an operator are one name. *)
Definition overloadable : list punct :=
  [ PMod; PModAssign; PFloatMod; PFloatModAssign; PBitAnd; PBitAndAssign; PMul; PPow; PMulAssign; PSlash; PDivAssign; PAdd; PPlusPlus;
    PAddAssign; PSub; PMinusMinus; PSubAssign; PLess; PLShift; PLShiftAssign; PLessEq; PLessOrGreater; PGreater; PGreaterEq; PRShift;
    PRShiftAssign; PBitXor; PBitXorAssign; PBitOr; PBitOrAssign; PBitNot; PEquiv; PAssignInto ].
Definition OPERATOR : text := lit "operator".
Definition no_operator (ts : list tok) : Prop :=
  (forall p, In p overloadable -> not_punct F p ts) /\ not_punct F PLBracket ts /\ forall r, ts <> TString F [] :: r.
(** the last name, and what belongs to it *)
Inductive last_at : text -> text -> list tok -> list tok -> Prop :=
  | La_name w ts : (w = OPERATOR -> no_operator ts) -> last_at w w ts ts
  | La_punct p rest : In p overloadable -> last_at OPERATOR (OPERATOR ++ value p) (P p :: rest) rest
  | La_index rest : not_punct F PAssign rest -> last_at OPERATOR (OPERATOR ++ lit "[]") (P PLBracket :: P PRBracket :: rest) rest
  | La_index_assign rest : last_at OPERATOR (OPERATOR ++ lit "[]=") (P PLBracket :: P PRBracket :: P PAssign :: rest) rest
  | La_string rest : last_at OPERATOR (OPERATOR ++ [34; 34]%N) (TString F [] :: rest) rest.
Definition head_at (absolute : bool) (ns : list text) (w : text) (ts rest : list tok) : Prop :=
  exists w0 mid, route_at absolute (ns ++ [w0]) ts mid /\ last_at w0 w mid rest.

(** ** Variables and parameters *)
(** [as] type, [in] list *)
Inductive input_at : option N -> option expr -> list tok -> list tok -> Prop :=
  | In_none a ts rest : opt_as F a ts rest -> not_punct F PIn rest -> input_at a None ts rest
  | In_some a e ts mid rest : opt_as F a ts (P PIn :: mid) -> expr_at F e mid rest -> not_word F (lit "as") rest -> input_at a (Some e) ts rest.
Inductive default_at : option expr -> list tok -> list tok -> Prop :=
  | Df_none ts : not_punct F PAssign ts -> default_at None ts ts
  | Df_some e ts rest : expr_at F e ts rest -> default_at (Some e) (P PAssign :: ts) rest.
(** The words in front of the type of a parameter: those of variables, but it can be neither [global] nor [static]. *)
Inductive param_type : list text -> N -> list text -> Prop :=
  | Pt_path p : match p with w :: _ => ~ In w (map fst var_words) | [] => True end -> param_type p 0%N p
  | Pt_word w f p n t : In (w, f) var_words -> f <> 1%N -> param_type p n t -> param_type (w :: p) (N.lor f n) t.
Inductive param_at : param F -> list tok -> list tok -> Prop :=
  | Pm_more rest :
      param_at {| q_type := {| v_flags := 0; v_path := [] |}; q_name := lit "..."; q_default := None; q_input := None; q_in := None |}
        (P PEllipsis :: rest) rest
  | Pm_name p name n t sz d a l ts t1 t2 t3 rest :
      path_at F (p ++ [name]) ts t1 -> match p with w :: _ => w <> VAR | [] => True end -> param_type p n t ->
      sizes_at F sz t1 t2 -> default_at d t2 t3 -> input_at a l t3 rest -> not_punct F PSemicolon rest ->
      param_at {| q_type := {| v_flags := n; v_path := list_type F sz t |}; q_name := name; q_default := d; q_input := a; q_in := l |} ts rest.
(** [as] an input type or a path; only where the procedure is new *)
Inductive type_path_at : list text -> list tok -> list tok -> Prop :=
  | Tp_end ts : not_punct F PSlash ts -> type_path_at [] ts ts
  | Tp_name i ws p ts rest : type_path_at p ts rest -> type_path_at (i :: p) (P PSlash :: TIdent F i ws :: ts) rest.
Inductive return_at : option procdecl -> option rettype -> list tok -> list tok -> Prop :=
  | Rt_none d ts : not_word F (lit "as") ts -> return_at d None ts ts
  | Rt_input d n ws ts rest : itype_at F n ts rest -> return_at (Some d) (Some (RInput n)) (W "as" ws :: ts) rest
  | Rt_path d p ws ts rest : p <> [] -> type_path_at p ts rest -> return_at (Some d) (Some (RPath p)) (W "as" ws :: ts) rest.

(** ** Bodies: groups in parentheses, braces and brackets are kept together, and may be closed by their own kind only *)
Definition pairs : list (punct * punct) := [(PLParen, PRParen); (PLBrace, PRBrace); (PLBracket, PRBracket)].
Definition opens (t : tok) : Prop := exists p q, In (p, q) pairs /\ t = P p.
Inductive tree : list tok -> Prop :=
  | Tr_token t : ~ opens t -> tree [t]
  | Tr_group p q l : In (p, q) pairs -> trees (eq (P q)) l -> tree (P p :: l ++ [P q])
(** any number of them, none of which begins with a token of the set *)
with trees : (tok -> Prop) -> list tok -> Prop :=
  | Ts_nil A : trees A []
  | Ts_cons A t g l : tree (t :: g) -> ~ A t -> trees A l -> trees A (t :: g ++ l).
(** The body of a procedure: none; in braces; or up to the end of the line *)
Inductive body_at : list tok -> list tok -> list tok -> Prop :=
  | Bo_none ts rest : ended F ts rest -> body_at [P PSemicolon] ts rest
  | Bo_braces l rest : trees (eq (P PRBrace)) l -> body_at (P PLBrace :: l ++ [P PRBrace]) (P PLBrace :: l ++ P PRBrace :: rest) rest
  | Bo_line l mid rest : l <> [] -> (forall r, l <> P PLBrace :: r) -> trees (fun t => t = P PSemicolon \/ t = P PRBrace) l -> ended F mid rest ->
      body_at (l ++ [P PSemicolon]) (l ++ mid) rest.

(** ** Entries *)
(** What an entry declares: the types on the way to it, and a member of the last of them *)
Inductive decl : Type := DType (p : list text) | DMember (at_ : list text) (name : text) (m : member F).
(** sizes are read after the name only among variables *)
Inductive suffix_at (c : place) : list (option expr) -> list tok -> list tok -> Prop :=
  | Su_var t sz ts rest : c_var c = Some t -> sizes_at F sz ts rest -> suffix_at c sz ts rest
  | Su_none ts : c_var c = None -> suffix_at c [] ts ts.
Definition sized (sz : list (option expr)) (t : vartype) : vartype := {| v_flags := v_flags t; v_path := list_type F sz (v_path t) |}.
(** no type has been entered *)
Definition outside (pre : list text) : Prop := match pre with [] => True | w :: _ => ~ plain w end.
(** the names [ns] after [pre] name a type *)
Definition names_type (pre ns : list text) : Prop := Forall plain pre /\ match ns with w :: _ => plain w | [] => False end.
Definition types_ok (absolute : bool) (pre ns : list text) : Prop := no_relative_types = true -> absolute = false -> ~ names_type pre ns.
Definition bare (ts : list tok) : Prop := not_punct F PLBrace ts /\ not_punct F PAssign ts /\ not_punct F PLParen ts.

(** [pre]: the names around the entry, from the root *)
Inductive entry_at : list text -> list decl -> list tok -> list tok -> Prop :=
  (** [a/b { ... }] *)
  | E_block pre a ns w c c' sz ds ts t1 t2 rest :
      head_at a ns w ts t1 -> (a = true -> outside pre) -> leads (pre ++ ns) c -> suffix_at c sz t1 (P PLBrace :: t2) ->
      leads (pre ++ ns ++ [w]) c' -> types_ok a pre (ns ++ [w]) ->
      entries_at (pre ++ ns ++ [w]) true ds t2 rest ->
      entry_at pre (DType (c_type c') :: ds) ts rest
  (** [a/b = e;] *)
  | E_value pre a ns w c sz e it l ts t1 t2 t3 t4 rest :
      head_at a ns w ts t1 -> (a = true -> outside pre) -> leads (pre ++ ns) c -> suffix_at c sz t1 (P PAssign :: t2) ->
      types_ok a pre ns -> expr_at F e t2 t3 -> input_at it l t3 t4 -> ended F t4 rest ->
      entry_at pre [DType (c_type c);
        DMember (c_type c) w match c_var c with Some t => MVar (sized sz t) it (Some e) | None => MSet e end] ts rest
  (** [a/b( ... ) ...] *)
  | E_proc pre a ns w c sz ps rt b ts t1 t2 t3 t4 rest :
      head_at a ns w ts t1 -> (a = true -> outside pre) -> leads (pre ++ ns) c -> suffix_at c sz t1 (P PLParen :: t2) ->
      (no_relative_procs = true -> a = true) ->
      items_at F param_at ps t2 t3 -> return_at (c_proc c) rt t3 t4 -> body_at b t4 rest ->
      entry_at pre [DType (c_type c); DMember (c_type c) w (MProc (c_proc c) ps rt b)] ts rest
  (** [var/a/b] *)
  | E_var pre a ns w c t sz it l ts t1 t2 rest :
      head_at a ns w ts t1 -> (a = true -> outside pre) -> leads (pre ++ ns) c -> c_var c = Some t -> sizes_at F sz t1 t2 -> bare t2 ->
      w <> VAR -> ~ In w (map fst var_words) -> input_at it l t2 rest ->
      entry_at pre [DType (c_type c); DMember (c_type c) w (MVar (sized sz t) it (new_list F sz))] ts rest
  (** [a/b] *)
  | E_type pre a ns w ts rest :
      head_at a ns w ts rest -> (a = true -> outside pre) -> Forall plain (pre ++ ns) -> plain w -> bare rest -> types_ok a pre ns ->
      entry_at pre [DType (pre ++ ns ++ [w])] ts rest

(** [true]: up to a closing brace *)
with entries_at : list text -> bool -> list decl -> list tok -> list tok -> Prop :=
  | Es_end pre : entries_at pre false [] [] []
  | Es_brace pre rest : entries_at pre true [] (P PRBrace :: rest) rest
  | Es_semicolon pre b ds ts rest : entries_at pre b ds ts rest -> entries_at pre b ds (P PSemicolon :: ts) rest
  | Es_entry pre b d ds ts mid rest : entry_at pre d ts mid -> entries_at pre b ds mid rest -> entries_at pre b (d ++ ds) ts rest.

(** ** What the declarations amount to: the types, in the order in which they first occur, and the members *)
Fixpoint extensions (p l : list text) : list (list text) := match l with [] => [] | w :: l' => (p ++ [w]) :: extensions (p ++ [w]) l' end.
Definition ancestry (p : list text) : list (list text) := extensions [] p.
Definition types_named (ds : list decl) : list (list text) := flat_map (fun d => match d with DType p => ancestry p | DMember _ _ _ => [] end) ds.
Definition members_of (ds : list decl) : list (list text * text * member F) :=
  flat_map (fun d => match d with DType _ => [] | DMember p n m => [(p, n, m)] end) ds.
(** What the calls of the builder add and declare *)
Definition adds (ev : list (event F)) : list (list text) := flat_map (fun e => match e with EAdd _ p w _ => [p ++ [w]] | EMember _ _ _ _ => [] end) ev.
Definition mems (ev : list (event F)) : list (list text * text * member F) := flat_map (fun e => match e with EAdd _ _ _ _ => [] | EMember _ p n m => [(p, n, m)] end) ev.
End SPEC.
(** the elements of [l] that are not in [seen], each where it is for the first time *)
Definition types_dec := list_eq_dec (list_eq_dec N.eq_dec).
Fixpoint fresh (seen l : list (list text)) : list (list text) :=
  match l with [] => [] | x :: l' => if in_dec types_dec x seen then fresh seen l' else x :: fresh (x :: seen) l' end.

