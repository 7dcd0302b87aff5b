(** Completion.  Models crates/dm-langserver/src/completion.rs (cited without file name) and of crates/dm-langserver/src/main.rs (cited as
    main.rs) find_type_context 836-872, find_unscoped_var 874-923, find_scoped_type 925-973 and the request Completion 1957-2036.

    Simplifications: the documentation and the details of the items are left out, and so are the locations of local variables.  Which texts match
    a query (symbol_search.rs contains, C30) is a parameter.  A search upwards that does not end, because a type is its own ancestor, finds
    nothing here. *)
From Coq Require Import List Arith NArith Bool String.
From Verif Require Import Common.Text Objtree.Model Parse.Ast.
Import ListNotations.
Open Scope nat_scope.

(** annotation.rs Annotation, as far as it is looked at; calls and variables are not told apart *)
Inductive note : Type :=
  | TreeBlock (path : list text) | ProcBody (path : list text) (idx : nat) | LocalVarScope (ty : list text) (name : text) | InSequence (idx : nat)
  | TreePath (absolute : bool) (parts : list text) | TypePath (parts : list (pathop * text)) | Unscoped (query : text) | Scoped (priors : list text) (query : text)
  | ScopedMissingIdent (priors : list text) | IncompleteTypePath (parts : list (pathop * text)) | IncompleteTreePath (absolute : bool) (parts : list text)
  | OtherNote.
(** an item that is offered, with the text to insert if it is not the name *)
Inductive entry : Type :=
  | Keyword (x : text) | LocalVar (x : text) | ParamVar (x : text) | Macro (x : text) | Subtype (x : text)
  | Member (proc : bool) (on : nat) (x : text) (insert : option text).

Section COMPLETION.
Variables V D : Type.
Variable t : objtree V D.
(** the variables of a type with the type of their declaration, if they are declared there; the parameters of a procedure with their types *)
Variable vars : nat -> list (text * option (list text)).
Variable params : V -> list (text * list text).
Variable is_verb : D -> bool.
Variable macros : list text.
(** [contains(name, query)] *)
Variable fits : text -> text -> bool.
Notation size := (S (List.length (graph t))).

(** macros.rs 2-11 if_annotation: the first annotation of a kind *)
Fixpoint first {A : Type} (f : note -> option A) (notes : list note) : option A :=
  match notes with [] => None | n :: ns => match f n with Some a => Some a | None => first f ns end end.
Definition proc_body (n : note) : option (list text * nat) := match n with ProcBody p i => Some (p, i) | _ => None end.
Definition tree_block (n : note) : option (list text) := match n with TreeBlock p => Some p | _ => None end.
Definition in_sequence (n : note) : option nat := match n with InSequence i => Some i | _ => None end.
Definition split_last {A : Type} (l : list A) : option (list A * A) := match rev l with [] => None | x :: r => Some (rev r, x) end.
Definition without_last (words : list text) (path : list text) : list text :=
  match split_last path with Some (rest, w) => if existsb (text_eqb w) words then rest else path | None => path end.

(** main.rs 836-872 *)
Definition find_type_context (notes : list note) : option nat * option (text * nat) :=
  let '(found, proc_name) :=
    match first proc_body notes with
    | Some (path, idx) =>
        let '(name, path') := match split_last path with Some (rest, name) => (Some (name, idx), rest) | None => (None, path) end in
        (type_by_path t (without_last [lit "proc"; lit "verb"] path'), name)
    | None => (None, None)
    end in
  match found with
  | Some i => (Some i, proc_name)
  | None => (match first tree_block notes with Some path => type_by_path t (without_last [lit "proc"; lit "verb"; lit "var"] path) | None => None end, proc_name)
  end.
Definition procs (i : nat) : list (text * type_proc V D) := match node_at t i with Some n => n_procs n | None => [] end.
Definition parameters (ty : nat) (proc_name : option (text * nat)) : list (text * list text) :=
  match proc_name with
  | Some (name, idx) => match procs_of t ty name with Some p => match nth_error (p_values p) idx with Some v => params v | None => [] end | None => [] end
  | None => []
  end.
(** objtree.rs 204-219 *)
Definition declaration (i : nat) (x : text) : option (list text) :=
  match search size (parent_type t) (fun j => match get x (vars j) with Some d => d | None => None end) i with Some d => d | None => None end.
(** main.rs 874-923, 947-959: the declared type of a variable *)
Definition local_named (x : text) (n : note) : option (list text) := match n with LocalVarScope ty name => if text_eqb name x then Some ty else None | _ => None end.
Definition unscoped_type (notes : list note) (ty : option nat) (proc_name : option (text * nat)) (x : text) : option nat :=
  let i := match ty with Some i => i | None => 0 end in
  match first (local_named x) notes with
  | Some path => type_by_path t path
  | None =>
      match List.find (fun e => text_eqb (fst e) x) (parameters i proc_name) with
      | Some e => type_by_path t (snd e)
      | None =>
          match search size (parent_type t) (fun j => match get x (vars j) with Some _ => Some j | None => None end) i with
          | Some (Some j) => match declaration j x with Some path => type_by_path t path | None => None end
          | _ => None
          end
      end
  end.
(** main.rs 925-973 *)
Fixpoint fields (next : option nat) (priors : list text) : option nat :=
  match priors with
  | [] => next
  | x :: ps => match next with Some i => fields (match declaration i x with Some path => type_by_path t path | None => None end) ps | None => None end
  end.
Definition find_scoped_type (notes : list note) (priors : list text) : option nat :=
  let '(next, proc_name) := find_type_context notes in
  match priors with
  | [] => next
  | x :: ps =>
      fields (if text_eqb x (lit "args") then find t (lit "/list")
              else if text_eqb x (lit "global") then Some 0
              else if text_eqb x (lit "src") then next
              else if text_eqb x (lit "usr") then find t (lit "/mob")
              else if text_eqb x (lit "caller") || text_eqb x (lit "callee") then find t (lit "/callee")
              else unscoped_type notes next proc_name x) ps
  end.

(** 131-172 combine_tree_path *)
Fixpoint after_var (parts : list text) : option (list text) :=
  match parts with [] => None | w :: ps => if text_eqb w (lit "var") then Some ps else after_var ps end.
Fixpoint drop_lists (parts : list text) : list text := match parts with w :: ps => if text_eqb w (lit "list") then drop_lists ps else parts | [] => [] end.
Definition selected {A : Type} (notes : list note) (parts : list A) : list A := match first in_sequence notes with Some idx => firstn (S idx) parts | None => parts end.
Definition combine_tree_path (notes : list note) (absolute : bool) (parts : list text) : list text :=
  let parts := selected notes parts in
  let '(absolute, parts) := match after_var parts with Some ps => (true, ps) | None => (absolute, parts) end in
  let parts := drop_lists parts in
  let prefix := if absolute then [] else match first tree_block notes with Some p => match after_var p with Some ps => ps | None => p end | None => [] end in
  prefix ++ parts.

(** 174-241 follow_type_path: the type, whether it is followed by proc or by verb, and the procedure *)
Fixpoint follow (i : nat) (parts : list (pathop * text)) : nat * option (bool * option procref) :=
  match parts with
  | [] => (i, None)
  | (op, x) :: ps =>
      match proc_kind x with
      | Some kind => (i, Some (kind, match ps with (_, name) :: _ => match get_proc t size i name with Some p => p | None => None end | [] => None end))
      | None => match navigate t size i op x with Some (Some j) => follow j ps | _ => (i, None) end
      end
  end.
Definition follow_type_path (notes : list note) (parts : list (pathop * text)) : option (nat * option (bool * option procref)) :=
  let parts := selected notes parts in
  let parts := match parts with (PathSlash, w) :: ((_ :: _) as rest) => if text_eqb w (lit "list") then rest else parts | _ => parts end in
  match parts with
  | [] => Some (0, None)
  | (PathColon, _) :: _ => None
  | (PathSlash, _) :: _ => Some (follow 0 parts)
  | (PathDot, _) :: _ => Some (follow (match fst (find_type_context notes) with Some i => i | None => 0 end) parts)
  end.

(** the names that match, and what is offered for them *)
Definition named (query : text) (make : text -> entry) (names : list text) : list entry := map make (filter (fun x => fits x query) names).
(** [!skip.insert(..)]: what is not in [skip] *)
Definition skipped (skip : list (bool * text)) (proc : bool) (x : text) : bool := existsb (fun e => Bool.eqb (fst e) proc && text_eqb (snd e) x) skip.
Section EACH.
Variables (query : text) (var_insert : text -> option text) (proc_insert : text -> type_proc V D -> option text) (with_vars : bool) (wanted : type_proc V D -> bool).
Fixpoint each_var (ty : nat) (l : list (text * option (list text))) (skip : list (bool * text)) : list (bool * text) * list entry :=
  match l with
  | [] => (skip, [])
  | (x, _) :: l' =>
      if skipped skip false x then each_var ty l' skip
      else let '(skip', es) := each_var ty l' ((false, x) :: skip) in (skip', (if fits x query then [Member false ty x (var_insert x)] else []) ++ es)
  end.
Fixpoint each_proc (ty : nat) (l : list (text * type_proc V D)) (skip : list (bool * text)) : list (bool * text) * list entry :=
  match l with
  | [] => (skip, [])
  | (x, p) :: l' =>
      if skipped skip true x then each_proc ty l' skip
      else let '(skip', es) := each_proc ty l' ((true, x) :: skip) in (skip', (if wanted p && fits x query then [Member true ty x (proc_insert x p)] else []) ++ es)
  end.
(** the loop over the parents *)
Fixpoint members (skip : list (bool * text)) (tys : list nat) : list entry :=
  match tys with
  | [] => []
  | ty :: tys' =>
      let '(skip1, es1) := if with_vars then each_var ty (vars ty) skip else (skip, []) in
      let '(skip2, es2) := each_proc ty (procs ty) skip1 in
      es1 ++ es2 ++ members skip2 tys'
  end.
End EACH.
Definition upwards (next : nat -> option nat) (i : nat) : list nat := match line size next i with Some l => l | None => [] end.
(** objtree.rs 279-288 *)
Definition parent_without_root (i : nat) : option nat := match parent_type t i with Some O => None | p => p end.

(** 101-129 items_ty *)
Definition items (query : text) (tys : list nat) : list entry := members query (fun _ => None) (fun x _ => Some x) true (fun _ => true) [] tys.
(** 243-321 tree_completions *)
Fixpoint signature (sep : text) (ps : list (text * list text)) : text :=
  match ps with
  | [] => []
  | (x, path) :: ps' =>
      (fix words (sep : text) (ws : list text) : text := match ws with [] => sep ++ x | w :: ws' => sep ++ w ++ words (lit "/") ws' end) sep path ++ signature (lit ", ") ps'
  end.
(** objtree.rs 117 main_value: the last value *)
Definition override_text (x : text) (p : type_proc V D) : text :=
  x ++ lit "(" ++ match last (map Some (p_values p)) None with Some v => signature [] (params v) | None => [] end ++ lit ")" ++ [10; 9]%N ++ lit ". = ..()" ++ [10; 9]%N.
Definition child_items (i : nat) (query : text) : list entry := named query Subtype (match node_at t i with Some n => map fst (n_children n) | None => [] end).
Definition tree_completions (exact : bool) (ty : nat) (query : text) : list entry :=
  named query Keyword [lit "proc"; lit "var"; lit "verb"] ++
  (if exact then child_items ty query else []) ++
  (if match node_at t ty with Some n => match n_path n with [] => true | _ => false end | None => true end then []
   else members query (fun x => Some (x ++ lit " = ")) (fun x p => Some (override_text x p)) true (fun _ => true) [] (upwards (parent_type t) ty)).
(** 323-387 path_completions *)
Definition path_completions (notes : list note) (parts : list (pathop * text)) (query : text) : list entry :=
  match follow_type_path notes parts with
  | Some (ty, None) => named query Keyword [lit "proc"; lit "verb"] ++ child_items ty query
  | Some (ty, Some (kind, None)) =>
      members query (fun _ => None) (fun _ _ => None) false (fun p => match p_decl p with Some d => Bool.eqb (is_verb d) kind | None => false end) [] (upwards parent_without_root ty)
  | _ => []
  end.
(** 14-50 PROC_KEYWORDS *)
Definition proc_keywords : list text := map lit
  ["args"; "global"; "src"; "usr"; "caller"; "callee"; "null"; "as"; "."; ".."; "new"; "call"; "return"; "throw"; "while"; "do"; "if"; "else"; "for"; "var"; "set"; "spawn"; "switch"; "try"; "catch";
   "continue"; "break"; "goto"; "del"]%string.
(** 389-466 unscoped_completions *)
Definition unscoped_completions (notes : list note) (query : text) : list entry :=
  let '(ty, proc_name) := find_type_context notes in
  let i := match ty with Some i => i | None => 0 end in
  (match proc_name with Some _ => named query Keyword proc_keywords | None => [] end) ++
  named query LocalVar (flat_map (fun n => match n with LocalVarScope _ name => [name] | _ => [] end) notes) ++
  named query ParamVar (map fst (parameters i proc_name)) ++
  named query Macro macros ++
  items query (upwards (parent_type t) i).
(** 468-484 scoped_completions *)
Definition scoped_completions (notes : list note) (priors : list text) (query : text) : list entry :=
  match find_scoped_type notes priors with Some i => items query (upwards parent_without_root i) | None => [] end.

(** main.rs 1957-2036: what the annotations at the place ask for, one after the other; [None]: no annotation of these kinds.  Panics where a path
    is empty, which the parser never makes. *)
Definition tree_answer (notes : list note) (absolute : bool) (parts : list text) (query : text) : list entry :=
  let '(exact, ty) := type_by_path_approx t (combine_tree_path notes absolute parts) in tree_completions exact ty query.
Inductive answer : Type := Nothing_ | Adds (es : list entry) | Replaces (es : list entry).
Definition answer_to (notes : list note) (n : note) : answer :=
  match n with
  | TreePath absolute parts => match split_last parts with Some (ps, query) => Adds (tree_answer notes absolute ps query) | None => Adds [] end
  | TypePath parts => match split_last parts with Some (ps, (_, query)) => Adds (path_completions notes ps query) | None => Adds [] end
  | Unscoped query => Adds (unscoped_completions notes query)
  | Scoped priors query => Adds (scoped_completions notes priors query)
  | ScopedMissingIdent priors => Replaces (scoped_completions notes priors [])
  | IncompleteTypePath parts => Replaces (path_completions notes parts [])
  | IncompleteTreePath absolute parts => Replaces (tree_answer notes absolute parts [])
  | _ => Nothing_
  end.
Fixpoint answers (notes : list note) (so_far : option (list entry)) (ns : list note) : option (list entry) :=
  match ns with
  | [] => so_far
  | n :: ns' =>
      match answer_to notes n with
      | Nothing_ => answers notes so_far ns'
      | Adds es => answers notes (Some (match so_far with Some l => l ++ es | None => es end)) ns'
      | Replaces es => Some es
      end
  end.
Definition completion (notes : list note) : list entry :=
  match answers notes None notes with
  | Some es => es
  | None =>
      let '(ty, proc_name) := find_type_context notes in
      match proc_name with
      | Some _ => unscoped_completions notes []
      | None => tree_completions true (match ty with Some i => i | None => 0 end) []
      end
  end.
End COMPLETION.
