(** What the language server should offer at a place (C72), said with the paths of types (Objtree.Spec) and without the searches of the
    program. *)
From Coq Require Import List Arith NArith Bool String Relations.
From Verif Require Import Common.Text Objtree.Model Objtree.Spec Parse.Ast Lsp.Completion.
Import ListNotations.
Open Scope nat_scope.

Section SPEC.
Variables V D : Type.
Variable t : objtree V D.
Variable vars : nat -> list (text * option (list text)).
Variable params : V -> list (text * list text).
Variable is_verb : D -> bool.
Variable macros : list text.
Variable fits : text -> text -> bool.

(** ** Places *)
(** The type that a path names: everything that begins with [list] is a list. *)
Definition listed (path : list text) (i : nat) : Prop :=
  (exists rest, path = lit "list" :: rest) /\ at_ t i [lit "list"] \/ (forall rest, path <> lit "list" :: rest) /\ at_ t i path.
(** The first annotation of a kind, or none *)
Definition first_with (P : note -> Prop) (notes : list note) (n : note) : Prop :=
  exists pre post, notes = pre ++ n :: post /\ P n /\ forall m, In m pre -> ~ P m.
Definition none_with (P : note -> Prop) (notes : list note) : Prop := forall m, In m notes -> ~ P m.
Definition is_body (n : note) : Prop := exists path idx, n = ProcBody path idx.
Definition is_block (n : note) : Prop := exists path, n = TreeBlock path.
Definition is_sequence (n : note) : Prop := exists idx, n = InSequence idx.
(** A path without the last component, if that is one of some words *)
Definition trimmed (words path path' : list text) : Prop :=
  (exists w, In w words /\ path = path' ++ [w]) \/ (path' = path /\ forall rest w, path = rest ++ [w] -> ~ In w words).
(** The place is in a value of a procedure: [path/name], value [idx]. *)
Definition in_proc (notes : list note) (path : list text) (name : text) (idx : nat) : Prop := first_with is_body notes (ProcBody (path ++ [name]) idx).
(** the type whose procedure it is; an empty path is not made by the parser *)
Inductive proc_type (notes : list note) : nat -> Prop :=
  | pt_proc path name idx owner i : in_proc notes path name idx -> trimmed [lit "proc"; lit "verb"] path owner -> listed owner i -> proc_type notes i
  | pt_empty idx : first_with is_body notes (ProcBody [] idx) -> proc_type notes 0.
(** the type around the place: that of the procedure, or that of the block *)
Inductive around (notes : list note) : nat -> Prop :=
  | around_proc i : proc_type notes i -> around notes i
  | around_block path owner i : (forall j, ~ proc_type notes j) -> first_with is_block notes (TreeBlock path) ->
      trimmed [lit "proc"; lit "verb"; lit "var"] path owner -> listed owner i -> around notes i.
(** the same, or the root if there is none *)
Definition here (notes : list note) (i : nat) : Prop := around notes i \/ (forall j, ~ around notes j) /\ i = 0.

(** ** Variables and their types *)
(** The parameters of the value of the procedure that the place is in *)
Definition parameters_here (notes : list note) (ps : list (text * list text)) : Prop :=
  exists path name idx i p v, in_proc notes path name idx /\ here notes i /\ procs_of t i name = Some p /\ nth_error (p_values p) idx = Some v /\ ps = params v.
(** The declaration of a variable is that of the nearest type upwards that declares it. *)
Definition declared (i : nat) (x : text) (path : list text) : Prop :=
  nearest t (fun j => match get x (vars j) with Some d => d | None => None end) i (Some path).
Definition local_x (x : text) (n : note) : Prop := exists path, n = LocalVarScope path x.
(** The type of the variable [x] at the place: of a local variable, of a parameter, of a variable of the type *)
Inductive var_type (notes : list note) (x : text) : nat -> Prop :=
  | vt_local path i : first_with (local_x x) notes (LocalVarScope path x) -> listed path i -> var_type notes x i
  | vt_param pre path post i : none_with (local_x x) notes -> parameters_here notes (pre ++ (x, path) :: post) -> ~ In x (map fst pre) -> listed path i -> var_type notes x i
  | vt_field i path j : none_with (local_x x) notes -> (forall ps, parameters_here notes ps -> ~ In x (map fst ps)) -> here notes i -> declared i x path -> listed path j -> var_type notes x j.
(** The first name before a dot *)
Definition begins (notes : list note) (x : text) (i : nat) : Prop :=
  (x = lit "args" /\ at_ t i [lit "list"]) \/ (x = lit "global" /\ i = 0) \/ (x = lit "src" /\ around notes i) \/ (x = lit "usr" /\ at_ t i [lit "mob"]) \/
  ((x = lit "caller" \/ x = lit "callee") /\ at_ t i [lit "callee"]) \/
  (~ In x (map lit ["args"; "global"; "src"; "usr"; "caller"; "callee"]%string) /\ var_type notes x i).
(** The type of [a.b.c] *)
Inductive scoped (notes : list note) : list text -> nat -> Prop :=
  | sc_none i : around notes i -> scoped notes [] i
  | sc_first x i : begins notes x i -> scoped notes [x] i
  | sc_field ps x i path j : ps <> [] -> scoped notes ps i -> declared i x path -> listed path j -> scoped notes (ps ++ [x]) j.

(** ** Members *)
(** [j] is [i] or above it; the root may be left out unless it is [i]. *)
Definition reach (rootless : bool) : nat -> nat -> Prop := clos_refl_trans _ (fun a b => inherits t a b /\ (rootless = true -> b <> 0)).
Definition has (proc : bool) (j : nat) (x : text) : Prop := if proc then procs_of t j x <> None else get x (vars j) <> None.
(** [j] is the nearest type upwards with such a member. *)
Definition closest (rootless proc : bool) (i : nat) (x : text) (j : nat) : Prop :=
  reach rootless i j /\ has proc j x /\ forall k, reach rootless i k -> has proc k x -> reach rootless j k.
(** The types in a type *)
Definition inner (i : nat) (x : text) : Prop := exists cs j, at_ t i cs /\ at_ t j (cs ++ [x]).

(** ** What is offered *)
Definition words : list text := map lit
  ["."; ".."; "args"; "as"; "break"; "call"; "callee"; "caller"; "catch"; "continue"; "del"; "do"; "else"; "for"; "global"; "goto"; "if"; "new"; "null"; "return"; "set"; "spawn"; "src"; "switch"; "throw";
   "try"; "usr"; "var"; "while"]%string.
(** for a name with nothing before it *)
Inductive unscoped_offer (notes : list note) (q : text) : entry -> Prop :=
  | uo_word path name idx x : in_proc notes path name idx -> In x words -> fits x q = true -> unscoped_offer notes q (Keyword x)
  | uo_local path x : In (LocalVarScope path x) notes -> fits x q = true -> unscoped_offer notes q (LocalVar x)
  | uo_param ps path x : parameters_here notes ps -> In (x, path) ps -> fits x q = true -> unscoped_offer notes q (ParamVar x)
  | uo_macro x : In x macros -> fits x q = true -> unscoped_offer notes q (Macro x)
  | uo_var i x j : here notes i -> closest false false i x j -> fits x q = true -> unscoped_offer notes q (Member false j x None)
  | uo_proc i x j : here notes i -> closest false true i x j -> fits x q = true -> unscoped_offer notes q (Member true j x (Some x)).
(** for a name after [a.b.c.] *)
Inductive scoped_offer (notes : list note) (priors : list text) (q : text) : entry -> Prop :=
  | so_var i x j : scoped notes priors i -> closest true false i x j -> fits x q = true -> scoped_offer notes priors q (Member false j x None)
  | so_proc i x j : scoped notes priors i -> closest true true i x j -> fits x q = true -> scoped_offer notes priors q (Member true j x (Some x)).
(** in the definition of a type: the definition of an override calls the parent. *)
Fixpoint joined (sep : text) (l : list text) : text := match l with [] => [] | [a] => a | a :: l' => a ++ sep ++ joined sep l' end.
Definition override_of (x : text) (ps : list (text * list text)) : text :=
  x ++ lit "(" ++ joined (lit ", ") (map (fun e => joined (lit "/") (snd e ++ [fst e])) ps) ++ lit ")" ++ [10; 9]%N ++ lit ". = ..()" ++ [10; 9]%N.
Inductive tree_offer (exact : bool) (i : nat) (q : text) : entry -> Prop :=
  | to_word x : In x [lit "proc"; lit "var"; lit "verb"] -> fits x q = true -> tree_offer exact i q (Keyword x)
  | to_type x : exact = true -> inner i x -> fits x q = true -> tree_offer exact i q (Subtype x)
  | to_var x j : i <> 0 -> closest false false i x j -> fits x q = true -> tree_offer exact i q (Member false j x (Some (x ++ lit " = ")))
  | to_proc x j p vs v : i <> 0 -> closest false true i x j -> procs_of t j x = Some p -> p_values p = vs ++ [v] -> fits x q = true ->
      tree_offer exact i q (Member true j x (Some (override_of x (params v)))).

(** ** Paths *)
(** The part of the path up to the component that is pointed at *)
Definition cut {A : Type} (notes : list note) (parts parts' : list A) : Prop :=
  (exists idx, first_with is_sequence notes (InSequence idx) /\ parts' = firstn (S idx) parts) \/ (none_with is_sequence notes /\ parts' = parts).
(** Walking as far as the path leads, from the type [/c1/c2/...] *)
Inductive walks : list text -> list (pathop * text) -> list text -> list (pathop * text) -> Prop :=
  | walks_end cs : walks cs [] cs []
  | walks_word cs op x rest : x = lit "proc" \/ x = lit "verb" -> walks cs ((op, x) :: rest) cs ((op, x) :: rest)
  | walks_stop cs op x rest : x <> lit "proc" -> x <> lit "verb" -> (forall j, ~ step t cs op x j) -> walks cs ((op, x) :: rest) cs ((op, x) :: rest)
  | walks_on cs op x j ds rest es left : x <> lit "proc" -> x <> lit "verb" -> step t cs op x j -> at_ t j ds -> walks ds rest es left -> walks cs ((op, x) :: rest) es left.
(** a path that begins with [/list/] is looked at from there on *)
Definition unlisted (parts parts' : list (pathop * text)) : Prop :=
  (parts = (PathSlash, lit "list") :: parts' /\ parts' <> []) \/ (parts' = parts /\ forall rest, parts = (PathSlash, lit "list") :: rest -> rest = []).
(** where it begins *)
Definition starts (notes : list note) (parts : list (pathop * text)) (cs : list text) : Prop :=
  (parts = [] /\ cs = []) \/ (exists x rest, parts = (PathSlash, x) :: rest /\ cs = []) \/ (exists x rest i, parts = (PathDot, x) :: rest /\ here notes i /\ at_ t i cs).
Definition leads (notes : list note) (parts : list (pathop * text)) (i : nat) (left : list (pathop * text)) : Prop :=
  exists a b cs es, cut notes parts a /\ unlisted a b /\ starts notes b cs /\ walks cs b es left /\ at_ t i es.
Definition at_word (w : text) (left : list (pathop * text)) : Prop := exists op rest, left = (op, w) :: rest.
(** for the next component of a path: after a type, and after [/proc] or [/verb] *)
Inductive path_offer (notes : list note) (parts : list (pathop * text)) (q : text) : entry -> Prop :=
  | po_word i left x : leads notes parts i left -> ~ at_word (lit "proc") left -> ~ at_word (lit "verb") left -> In x [lit "proc"; lit "verb"] -> fits x q = true -> path_offer notes parts q (Keyword x)
  | po_type i left x : leads notes parts i left -> ~ at_word (lit "proc") left -> ~ at_word (lit "verb") left -> inner i x -> fits x q = true -> path_offer notes parts q (Subtype x)
  | po_proc i op w rest x j p d : leads notes parts i ((op, w) :: rest) -> w = lit "proc" \/ w = lit "verb" ->
      (forall op' name rest' k, rest = (op', name) :: rest' -> subtype t i k -> procs_of t k name = None) ->
      closest true true i x j -> procs_of t j x = Some p -> p_decl p = Some d -> (is_verb d = true <-> w = lit "verb") -> fits x q = true -> path_offer notes parts q (Member true j x None).
(** ** Paths of definitions *)
Definition beyond_var (parts rest : list text) : Prop := exists pre, parts = pre ++ lit "var" :: rest /\ ~ In (lit "var") pre.
Definition without_lists (parts parts' : list text) : Prop := exists n, parts = repeat (lit "list") n ++ parts' /\ forall rest, parts' <> lit "list" :: rest.
(** what stands before a path that is not absolute *)
Inductive prefix_here (notes : list note) : list text -> Prop :=
  | ph_none : none_with is_block notes -> prefix_here notes []
  | ph_var path rest : first_with is_block notes (TreeBlock path) -> beyond_var path rest -> prefix_here notes rest
  | ph_block path : first_with is_block notes (TreeBlock path) -> ~ In (lit "var") path -> prefix_here notes path.
Inductive full_path (notes : list note) (absolute : bool) (parts : list text) : list text -> Prop :=
  | fp_var a b c : cut notes parts a -> beyond_var a b -> without_lists b c -> full_path notes absolute parts c
  | fp_absolute a c : cut notes parts a -> ~ In (lit "var") a -> absolute = true -> without_lists a c -> full_path notes absolute parts c
  | fp_relative a c pre : cut notes parts a -> ~ In (lit "var") a -> absolute = false -> without_lists a c -> prefix_here notes pre -> full_path notes absolute parts (pre ++ c).
(** The type that a path names, or the type of as much of it as names one *)
Definition nearly (path : list text) (exact : bool) (i : nat) : Prop :=
  if exact then listed path i
  else (forall j, ~ listed path j) /\ exists k, at_ t i (firstn k path) /\ k < List.length path /\ forall j, ~ at_ t j (firstn (S k) path).

(** ** The request *)
Inductive note_offer (notes : list note) : note -> entry -> Prop :=
  | no_tree absolute parts q path exact i e : full_path notes absolute parts path -> nearly path exact i -> tree_offer exact i q e -> note_offer notes (TreePath absolute (parts ++ [q])) e
  | no_type parts op q e : path_offer notes parts q e -> note_offer notes (TypePath (parts ++ [(op, q)])) e
  | no_unscoped q e : unscoped_offer notes q e -> note_offer notes (Unscoped q) e
  | no_scoped priors q e : scoped_offer notes priors q e -> note_offer notes (Scoped priors q) e
  | no_missing priors e : scoped_offer notes priors [] e -> note_offer notes (ScopedMissingIdent priors) e
  | no_incomplete_type parts e : path_offer notes parts [] e -> note_offer notes (IncompleteTypePath parts) e
  | no_incomplete_tree absolute parts path exact i e : full_path notes absolute parts path -> nearly path exact i -> tree_offer exact i [] e -> note_offer notes (IncompleteTreePath absolute parts) e.
(** Something is missing at the place. *)
Definition urgent (n : note) : Prop :=
  (exists ps, n = ScopedMissingIdent ps) \/ (exists ps, n = IncompleteTypePath ps) \/ (exists a ps, n = IncompleteTreePath a ps).
Definition usable (n : note) : Prop :=
  urgent n \/ (exists a ps, n = TreePath a ps) \/ (exists ps, n = TypePath ps) \/ (exists q, n = Unscoped q) \/ (exists ps q, n = Scoped ps q).
Inductive offered (notes : list note) : entry -> Prop :=
  | of_urgent n e : first_with urgent notes n -> note_offer notes n e -> offered notes e
  | of_usable n e : none_with urgent notes -> In n notes -> note_offer notes n e -> offered notes e
  | of_body path name idx e : none_with usable notes -> in_proc notes path name idx -> unscoped_offer notes [] e -> offered notes e
  | of_tree i e : none_with usable notes -> (forall path name idx, ~ in_proc notes path name idx) -> here notes i -> tree_offer true i [] e -> offered notes e.
End SPEC.
