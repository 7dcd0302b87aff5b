(** The object tree: types and procedures, and how they are found.  Models crates/dreammaker/src/objtree.rs (cited without file
    name).  Locations, documentation, symbol ids and variables other than [parent_type] are left out (variables: Const/Tree.v). *)
From Coq Require Import List Arith NArith Bool String.
From Verif Require Import Common.Text Objtree.Ispath Parse.Ast.
Import ListNotations.
Open Scope nat_scope.

(** ** BTreeMap with texts as keys: the sorted list of its entries *)
Fixpoint text_ltb (a b : text) : bool :=
  match a, b with
  | _, [] => false
  | [], _ :: _ => true
  | x :: a', y :: b' => (x <? y)%N || ((x =? y)%N && text_ltb a' b')
  end.
Definition get {A : Type} (k : text) (l : list (text * A)) : option A :=
  match find (fun e => text_eqb (fst e) k) l with Some e => Some (snd e) | None => None end.
Fixpoint bt_insert {A : Type} (k : text) (v : A) (l : list (text * A)) : list (text * A) :=
  match l with
  | [] => [(k, v)]
  | e :: l' => if text_eqb (fst e) k then (fst e, v) :: l' else if text_ltb k (fst e) then (k, v) :: l else e :: bt_insert k v l'
  end.
(** IndexMap: a new key goes to the end *)
Fixpoint ix_insert {A : Type} (k : text) (v : A) (l : list (text * A)) : list (text * A) :=
  match l with
  | [] => [(k, v)]
  | e :: l' => if text_eqb (fst e) k then (fst e, v) :: l' else e :: ix_insert k v l'
  end.
Fixpoint set_nth {A : Type} (n : nat) (x : A) (l : list A) : list A :=
  match l, n with
  | [], _ => []
  | _ :: l', O => x :: l'
  | y :: l', S n' => y :: set_nth n' x l'
  end.

Section OBJTREE.
(** ProcValue and ProcDeclaration *)
Variables V D : Type.

(** 103-115 TypeProc *)
Record type_proc : Type := { p_values : list V; p_decl : option D }.
(** What the variable [parent_type] of a type holds when the parents are assigned: a string, a path, anything else (including an
    expression that cannot be evaluated), or neither expression nor constant; and whether it has an expression *)
Inductive pvalue : Type := PString (s : text) | PPath (p : list text) | POther | PMissing.
Record pvar : Type := { pv_value : pvalue; pv_expr : bool }.
(** 120-139 Type *)
Record node : Type := {
  n_path : text; n_procs : list (text * type_proc); n_pvar : option pvar;
  n_parent_path : option nat; n_parent_type : option nat; n_children : list (text * nat) }.
(** 717-722 ObjectTree *)
Record objtree : Type := { graph : list node; types : list (text * nat); redirected : list nat }.

(** 834-859 ObjectTreeBuilder::default *)
Definition root_node : node := {| n_path := []; n_procs := []; n_pvar := None; n_parent_path := None; n_parent_type := None; n_children := [] |}.
Definition empty_tree : objtree := {| graph := [root_node]; types := []; redirected := [] |}.
Definition update (t : objtree) (i : nat) (n : node) : objtree :=
  {| graph := set_nth i n (graph t); types := types t; redirected := redirected t |}.

(** 1021-1056 subtype_or_add.  [None]: a panic (no such parent) *)
Definition subtype_or_add (t : objtree) (parent : nat) (child : text) : option (objtree * nat) :=
  match nth_error (graph t) parent with
  | None => None
  | Some n =>
      match get child (n_children n) with
      | Some target => Some (t, target)
      | None =>
          let path := n_path n ++ SLASH :: child in
          let idx := List.length (graph t) in
          let new := {| n_path := path; n_procs := []; n_pvar := None; n_parent_path := Some parent; n_parent_type := None; n_children := [] |} in
          let n' := {| n_path := n_path n; n_procs := n_procs n; n_pvar := n_pvar n; n_parent_path := n_parent_path n;
                       n_parent_type := n_parent_type n; n_children := bt_insert child idx (n_children n) |} in
          Some ({| graph := set_nth parent n' (graph t) ++ [new]; types := bt_insert path idx (types t); redirected := redirected t |}, idx)
      end
  end.
(** 1058-1124 insert_var and its callers, 1148-1213 register_var, as far as [parent_type] is concerned *)
Definition set_parent_type_var (t : objtree) (ty : nat) (v : pvar) : option objtree :=
  match nth_error (graph t) ty with
  | None => None
  | Some n => Some (update t ty {| n_path := n_path n; n_procs := n_procs n; n_pvar := Some v; n_parent_path := n_parent_path n;
                                   n_parent_type := n_parent_type n; n_children := n_children n |})
  end.
(** 1218-1297 register_proc.  [decl]: whether this is a definition ([/proc/name]) rather than an override *)
Definition register_proc (t : objtree) (ty : nat) (name : text) (decl : option D) (v : V) : option objtree :=
  match nth_error (graph t) ty with
  | None => None
  | Some n =>
      let p := match get name (n_procs n) with Some p => p | None => {| p_values := []; p_decl := None |} end in
      let d := match p_decl p with Some d => Some d | None => decl end in
      let vs := match decl with Some _ => match p_values p with [] => [v] | _ => v :: p_values p end | None => p_values p ++ [v] end in
      Some (update t ty {| n_path := n_path n; n_procs := ix_insert name {| p_values := vs; p_decl := d |} (n_procs n); n_pvar := n_pvar n;
                           n_parent_path := n_parent_path n; n_parent_type := n_parent_type n; n_children := n_children n |})
  end.

(** ** Parents *)
(** str::rfind of a slash, and what is before it *)
Fixpoint before_last_slash (s : text) : option text :=
  match s with
  | [] => None
  | c :: s' => match before_last_slash s' with Some a => Some (c :: a) | None => if (c =? SLASH)%N then Some [] else None end
  end.
Definition no_parent : list text := map lit ["/datum"; "/list"; "/alist"; "/savefile"; "/world"; "/vector"; "/pixloc"; "/callee"]%string.
(** the diagnostics, for the type with this path *)
Inductive preport : Type := NotAllowed (path : text) | BadValue (path : text) | BadParent (path parent : text).
(** 935-994: the path of the parent, and what is reported; [None]: a panic *)
Definition parent_path_of (path : text) (v : option pvar) : option (text * list preport) :=
  if text_eqb path (lit "/atom") then Some (lit "/datum", [])
  else if text_eqb path (lit "/turf") || text_eqb path (lit "/area") then Some (lit "/atom", [])
  else if text_eqb path (lit "/obj") || text_eqb path (lit "/mob") then Some (lit "/atom/movable", [])
  else
    match before_last_slash path with
    | None => None
    | Some before =>
        let default := match before with [] => if text_eqb path (lit "/client") then [] else lit "/datum" | _ => before end in
        Some match v with
             | None => (default, [])
             | Some v =>
                 match pv_value v with
                 | PString s => (s, [])
                 | PPath p => (render p, [])
                 | POther => (default, [BadValue path])
                 | PMissing => if text_eqb path (lit "/client") then ([], []) else (default, [BadValue path])
                 end
             end
    end.
(** 901-1011: the body of the loop *)
Definition parent_for (t : objtree) (path : text) (n : node) : option (nat * list preport) :=
  if existsb (text_eqb path) no_parent then
    Some (0, match n_pvar n with Some v => if pv_expr v then [NotAllowed path] else [] | None => [] end)
  else
    match parent_path_of path (n_pvar n) with
    | None => None
    | Some (parent, out) =>
        if text_eqb path (lit "/client") && match parent with [] => true | _ => false end then Some (0, out)
        else match get parent (types t) with
             | Some i => Some (i, out)
             | None => Some (0, out ++ [BadParent path parent])
             end
    end.
Definition with_parent_type (n : node) (p : nat) : node :=
  {| n_path := n_path n; n_procs := n_procs n; n_pvar := n_pvar n; n_parent_path := n_parent_path n; n_parent_type := Some p; n_children := n_children n |}.
Fixpoint assign_loop (order : list (text * nat)) (out : list preport) (t : objtree) : option (objtree * list preport) :=
  match order with
  | [] => Some (t, out)
  | (path, i) :: order' =>
      match nth_error (graph t) i with
      | None => None
      | Some n =>
          match parent_for t path n with
          | None => None
          | Some (p, more) =>
              let t' := {| graph := set_nth i (with_parent_type n p) (graph t); types := types t;
                           redirected := match n_parent_path n with
                                         | Some q => if q =? p then redirected t else redirected t ++ [i]
                                         | None => redirected t ++ [i]
                                         end |} in
              assign_loop order' (out ++ more) t'
          end
      end
  end.
(** 901-1013 assign_parent_types *)
Definition assign_parent_types (t : objtree) : option (objtree * list preport) := assign_loop (types t) [] t.

(** ** Questions *)
Section QUERIES.
Variable t : objtree.
Definition node_at (i : nat) : option node := nth_error (graph t) i.
(** 740-745 find *)
Definition find (path : text) : option nat := match path with [] => Some 0 | _ => get path (types t) end.
(** 262-268 parent_path; the root has none *)
Definition parent_path (i : nat) : option nat :=
  match node_at i with Some n => match n_path n with [] => None | _ => n_parent_path n end | None => None end.
(** 271-277 parent_type; an index that leads nowhere is no parent *)
Definition parent_type (i : nat) : option nat :=
  match node_at i with
  | Some n => match n_parent_type n with Some p => match node_at p with Some _ => Some p | None => None end | None => None end
  | None => None
  end.
(** 290-294 child; 301-305 children *)
Definition child (i : nat) (name : text) : option nat := match node_at i with Some n => get name (n_children n) | None => None end.
Definition children (i : nat) : list nat := match node_at i with Some n => map snd (n_children n) | None => [] end.

(** Going from parent to parent until [f] has an answer.  [None]: it does not end within this many steps. *)
Fixpoint search {A : Type} (fuel : nat) (next : nat -> option nat) (f : nat -> option A) (i : nat) : option (option A) :=
  match fuel with
  | O => None
  | S fuel' =>
      match f i with
      | Some a => Some (Some a)
      | None => match next i with Some p => search fuel' next f p | None => Some None end
      end
  end.
(** All that come before the end: 333-339 visit_parent_types, 341-355 iter_parent_types, 358-364 visit_parent_paths *)
Fixpoint line (fuel : nat) (next : nat -> option nat) (i : nat) : option (list nat) :=
  match fuel with
  | O => None
  | S fuel' => match next i with Some p => option_map (cons i) (line fuel' next p) | None => Some [i] end
  end.
Fixpoint all_of {A : Type} (l : list (option (list A))) : option (list A) :=
  match l with
  | [] => Some []
  | Some a :: l' => option_map (app a) (all_of l')
  | None :: _ => None
  end.
(** 308-313 recurse *)
Fixpoint recurse (fuel : nat) (i : nat) : option (list nat) :=
  match fuel with
  | O => None
  | S fuel' => option_map (cons i) (all_of (map (recurse fuel') (children i)))
  end.
(** 316-331 recurse_types *)
Definition has_parent (i : nat) (c : nat) : bool :=
  match node_at c with Some n => match n_parent_type n with Some p => p =? i | None => false end | None => false end.
Fixpoint recurse_types (fuel : nat) (i : nat) : option (list nat) :=
  match fuel with
  | O => None
  | S fuel' => option_map (cons i) (all_of (map (recurse_types fuel') (filter (has_parent i) (children i) ++ filter (has_parent i) (redirected t))))
  end.
(** 437-446 is_subtype_of *)
Definition is_subtype_of (fuel : nat) (i parent : nat) : option bool :=
  option_map (fun r => match r with Some _ => true | None => false end) (search fuel parent_type (fun j => if j =? parent then Some tt else None) i).

(** 367-400 navigate *)
Definition first_some (f : nat -> option (option nat)) : list nat -> option (option nat) :=
  fix go l := match l with
              | [] => Some None
              | c :: l' => match f c with None => None | Some (Some r) => Some (Some r) | Some None => go l' end
              end.
Fixpoint colon (fuel : nat) (name : text) (i : nat) : option (option nat) :=
  match fuel with
  | O => None
  | S fuel' => match child i name with Some c => Some (Some c) | None => first_some (colon fuel' name) (children i) end
  end.
Definition navigate (fuel : nat) (i : nat) (op : pathop) (name : text) : option (option nat) :=
  match op with
  | PathSlash => Some (child i name)
  | PathDot => search fuel parent_path (fun j => child j name) i
  | PathColon => colon fuel name i
  end.

(** 563-568 ProcRef: the type, the name and the number of the value *)
Definition procref : Type := (nat * text * nat)%type.
Definition procs_of (i : nat) (name : text) : option type_proc := match node_at i with Some n => get name (n_procs n) | None => None end.
(** the last value; [idx: proc.value.len() - 1] *)
Definition visible (i : nat) (name : text) : option procref :=
  match procs_of i name with Some p => Some (i, name, List.length (p_values p) - 1) | None => None end.
(** 457-472 get_proc; 474-486 get_proc_declaration *)
Definition get_proc (fuel : nat) (i : nat) (name : text) : option (option procref) := search fuel parent_type (fun j => visible j name) i.
Definition get_proc_declaration (fuel : nat) (i : nat) (name : text) : option (option D) :=
  search fuel parent_type (fun j => match procs_of j name with Some p => p_decl p | None => None end) i.
(** 600-611 parent_proc *)
Definition parent_proc (fuel : nat) (r : procref) : option (option procref) :=
  match r with
  | (i, name, S k) => Some (Some (i, name, k))
  | (i, name, O) => match parent_type i with Some p => get_proc fuel p name | None => Some None end
  end.
(** following [..()] as long as there is one *)
Fixpoint call_chain (fuel steps : nat) (r : procref) : option (list procref) :=
  match steps with
  | O => None
  | S steps' =>
      match parent_proc fuel r with
      | None => None
      | Some None => Some [r]
      | Some (Some r') => option_map (cons r) (call_chain fuel steps' r')
      end
  end.
(** 629-641 recurse_children; 646-657 recurse_children_within: from the type [src] *)
Definition recurse_children_within (fuel : nat) (r : procref) (src : nat) : option (list procref) :=
  option_map (fun l => List.concat (map (fun j => match visible j (snd (fst r)) with Some x => [x] | None => [] end) l)) (recurse_types fuel src).
Definition recurse_children (fuel : nat) (r : procref) : option (list procref) := recurse_children_within fuel r (fst (fst r)).

(** 402-434 navigate_path *)
Inductive nav : Type := NType (i : nat) | NGroup (i : nat) (verb : bool) | NProc (r : procref) (verb : bool).
Definition proc_kind (name : text) : option bool :=
  if text_eqb name (lit "proc") then Some false else if text_eqb name (lit "verb") then Some true else None.
Fixpoint navigate_from (fuel : nat) (i : nat) (pieces : list (pathop * text)) : option (option nav) :=
  match pieces with
  | [] => Some (Some (NType i))
  | (op, name) :: rest =>
      match proc_kind name with
      | Some kind =>
          match rest with
          | (_, name') :: _ => option_map (option_map (fun r => NProc r kind)) (get_proc fuel i name')
          | [] => Some (Some (NGroup i kind))
          end
      | None => match navigate fuel i op name with
                | None => None
                | Some None => Some None
                | Some (Some j) => navigate_from fuel j rest
                end
      end
  end.
Definition navigate_path (fuel : nat) (i : nat) (pieces : list (pathop * text)) : option (option nav) :=
  navigate_from fuel (match pieces with (PathSlash, _) :: _ => 0 | _ => i end) pieces.

(** 757-796 type_by_path_approx *)
Fixpoint by_path (current : nat) (first : bool) (path : list text) : bool * nat :=
  match path with
  | [] => (true, current)
  | each :: path' =>
      match child current each with
      | Some target => if text_eqb each (lit "list") && first then (true, target) else by_path target false path'
      | None => (false, current)
      end
  end.
Definition type_by_path_approx (path : list text) : bool * nat := by_path 0 true path.
Definition type_by_path (path : list text) : option nat := let '(exact, i) := type_by_path_approx path in if exact then Some i else None.
End QUERIES.

(** ** Histories *)
(** What the parser does to the tree: types, variables [parent_type] and procedures are added; at the end the parents are
    assigned (895-899 finish).  Names have no slash in them. *)
Inductive built : objtree -> Prop :=
  | built_empty : built empty_tree
  | built_type t parent name t' i : built t -> slash_free name -> subtype_or_add t parent name = Some (t', i) -> built t'
  | built_var t ty v t' : built t -> set_parent_type_var t ty v = Some t' -> built t'
  | built_proc t ty name d v t' : built t -> register_proc t ty name d v = Some t' -> built t'.
Definition finished (t : objtree) (out : list preport) : Prop := exists t0, built t0 /\ assign_parent_types t0 = Some (t, out).
End OBJTREE.
Arguments p_values {V D}. Arguments p_decl {V D}.
Arguments n_path {V D}. Arguments n_procs {V D}. Arguments n_pvar {V D}. Arguments n_parent_path {V D}. Arguments n_parent_type {V D}. Arguments n_children {V D}.
Arguments graph {V D}. Arguments types {V D}. Arguments redirected {V D}.
Arguments subtype_or_add {V D}. Arguments set_parent_type_var {V D}. Arguments register_proc {V D}. Arguments update {V D}.
Arguments parent_for {V D}. Arguments with_parent_type {V D}. Arguments assign_loop {V D}. Arguments assign_parent_types {V D}.
Arguments node_at {V D}. Arguments find {V D}. Arguments parent_path {V D}. Arguments parent_type {V D}. Arguments child {V D}. Arguments children {V D}.
Arguments recurse {V D}. Arguments has_parent {V D}. Arguments recurse_types {V D}. Arguments is_subtype_of {V D}. Arguments colon {V D}. Arguments navigate {V D}.
Arguments procs_of {V D}. Arguments visible {V D}. Arguments get_proc {V D}. Arguments get_proc_declaration {V D}. Arguments parent_proc {V D}. Arguments call_chain {V D}.
Arguments recurse_children_within {V D}. Arguments recurse_children {V D}. Arguments navigate_from {V D}. Arguments navigate_path {V D}. Arguments by_path {V D}.
Arguments type_by_path_approx {V D}. Arguments type_by_path {V D}. Arguments built {V D}. Arguments finished {V D}.
