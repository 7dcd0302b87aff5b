(** The workspace's symbols and the object tree explorer.  Models crates/dm-langserver/src/main.rs (cited without file name).

    Simplifications: the fields of a symbol that are always empty (tags, deprecated) are left out; a range is the location it is made from; what
    the url library makes of a text, and the url of the file of a location (353-361), are parameters, with [None] for an error, whose message is
    left out.  The tables of Unicode are parameters as in Lsp/SymbolSearch.v.  Variables of types are given as lists, types and procedures by the
    object tree of Objtree/Model.v, and their locations and documentation by functions. *)
From Coq Require Import List Arith NArith Bool String.
From Verif Require Import Common.Text Objtree.Ispath Objtree.Model.
From Verif Require Lsp.SymbolSearch.
Import ListNotations.
Open Scope nat_scope.

(** lsp_types::SymbolKind, those that are used *)
Inductive icon : Type := IConstant | IClass | IField | IFunction | IConstructor | IMethod.
(** An answer, an error, or a panic *)
Inductive outcome (A : Type) : Type := Done (a : A) | Refused | Panicked.
Arguments Done {A}. Arguments Refused {A}. Arguments Panicked {A}.

(** slice::sort_by with the names compared: stable *)
Section SORT.
Variable A : Type.
Variable key : A -> text.
Fixpoint sort_in (x : A) (l : list A) : list A :=
  match l with
  | [] => [x]
  | y :: l' => if text_ltb (key y) (key x) then y :: sort_in x l' else x :: l
  end.
Fixpoint sort_by (l : list A) : list A := match l with [] => [] | x :: l' => sort_in x (sort_by l') end.
End SORT.
Arguments sort_in {A}. Arguments sort_by {A}.

Section EXPLORER.
Variables V D Loc Doc Url : Type.
Variables (lower : chr -> list chr) (alphanumeric : chr -> bool) (str_lower : text -> text).
Variable t : objtree V D.
(** dreammaker/src/objtree.rs 130 location and docs of a type; 95-101 of the value of a procedure; 76-82 of a declaration; 67-74 TypeVar: the
    location of the declaration, if there is one, and whether it says const; location and documentation of the value *)
Variable type_site : nat -> Loc * Doc.
Variable value_site : V -> Loc * Doc.
Variable decl_loc : D -> Loc.
Variable is_verb : D -> bool.
Record tvar : Type := { v_decl : option (Loc * bool); v_site : Loc * Doc }.
Variable vars : nat -> list (text * tvar).
(** the macros: where they begin, their names and their documentation; [None]: no environment has been read *)
Variable defines : option (list (Loc * text * Doc)).
(** Location::is_builtins; BuiltinDocs::ReferenceHash; Url::parse; file_url 353-361 *)
Variable builtin : Loc -> bool.
Variable hash : Doc -> option text.
Variable parse_url : text -> option Url.
Variable file_url : Loc -> option Url.
Definition place : Type := (Url * Loc)%type.

(** 373-397 convert_location *)
Definition convert_location (loc : Loc) (docs : Doc) (if_builtin : list text) : option place :=
  match (if builtin loc
         then parse_url (lit "dm://docs/reference.dm#" ++ match hash docs with Some h => h | None => List.concat if_builtin end)
         else file_url loc) with
  | Some u => Some (u, loc)
  | None => None
  end.

(** dreammaker/src/objtree.rs 1041: path_last_slash is the length of the parent's path; 146-156 name and parent_path_str *)
Definition last_slash (n : node V D) : nat :=
  match n_parent_path n with Some p => match node_at t p with Some m => List.length (n_path m) | None => 0 end | None => 0 end.
Definition is_root (n : node V D) : bool := match n_path n with [] => true | _ => false end.
Definition name_of (n : node V D) : text := if is_root n then [] else skipn (S (last_slash n)) (n_path n).
Definition parent_path_str (n : node V D) : text := firstn (last_slash n) (n_path n).

(** 2633-2635 is_constructor_name *)
Definition is_constructor_name (name : text) : bool := text_eqb name (lit "New") || text_eqb name (lit "init") || text_eqb name (lit "Initialize").
(** 471-479 and 1533-1539 *)
Definition proc_icon (n : node V D) (name : text) : icon := if is_root n then IFunction else if is_constructor_name name then IConstructor else IMethod.

(** ** 1459-1553 WorkspaceSymbol *)
Record symbol : Type := { s_name : text; s_icon : icon; s_place : place; s_in : option text }.
Definition push (r : outcome (list symbol)) (name : text) (i : icon) (at_ : option place) (container : option text) : outcome (list symbol) :=
  match r with
  | Done l => match at_ with Some p => Done (l ++ [{| s_name := name; s_icon := i; s_place := p; s_in := container |}]) | None => Refused end
  | _ => r
  end.
(** 1469-1486 *)
Definition visit_define (q : SymbolSearch.query) (r : outcome (list symbol)) (e : Loc * text * Doc) : outcome (list symbol) :=
  let '(start, name, docs) := e in
  if SymbolSearch.matches_define lower alphanumeric q name
  then push r name IConstant (convert_location start docs [lit "/DM/preprocessor/"; name]) None
  else r.
(** 1504-1522 *)
Definition visit_var (q : SymbolSearch.query) (n : node V D) (r : outcome (list symbol)) (e : text * tvar) : outcome (list symbol) :=
  let '(name, tv) := e in
  match v_decl tv with
  | Some (loc, _) =>
      if SymbolSearch.matches_var lower alphanumeric q name
      then push r name IField (convert_location loc (snd (v_site tv)) [n_path n; lit "/var/"; name]) (Some (n_path n))
      else r
  | None => r
  end.
(** 1524-1549; objtree.rs 118-120 main_value: the last value, and a panic if there is none *)
Definition visit_proc (q : SymbolSearch.query) (n : node V D) (r : outcome (list symbol)) (e : text * type_proc V D) : outcome (list symbol) :=
  let '(name, pv) := e in
  match p_decl pv with
  | Some d =>
      if SymbolSearch.matches_proc lower alphanumeric q name
      then match r, rev (p_values pv) with
           | Done _, [] => Panicked
           | _, [] => r
           | _, v :: _ => push r name (proc_icon n name) (convert_location (decl_loc d) (snd (value_site v)) [n_path n; lit "/proc/"; name]) (Some (n_path n))
           end
      else r
  | None => r
  end.
(** 1488-1550 *)
Definition visit_type (q : SymbolSearch.query) (r : outcome (list symbol)) (e : nat * node V D) : outcome (list symbol) :=
  let '(i, n) := e in
  let r1 := if SymbolSearch.matches_type lower alphanumeric str_lower q (name_of n) (n_path n) && negb (is_root n)
            then push r (name_of n) IClass (convert_location (fst (type_site i)) (snd (type_site i)) [n_path n]) (Some (parent_path_str n))
            else r in
  if negb (SymbolSearch.matches_on_type q) then r1
  else fold_left (visit_proc q n) (n_procs n) (fold_left (visit_var q n) (vars i) r1).
(** 736-739 iter_types *)
Definition iter_types : list (nat * node V D) := combine (seq 0 (List.length (graph t))) (graph t).
Definition workspace_symbol (q : text) : outcome (option (list symbol)) :=
  match SymbolSearch.parse lower alphanumeric str_lower q with
  | None => Done None
  | Some q =>
      match fold_left (visit_type q) iter_types (match defines with Some l => fold_left (visit_define q) l (Done []) | None => Done [] end) with
      | Done l => Done (Some l)
      | Refused => Refused
      | Panicked => Panicked
      end
  end.

(** ** 400-500 the object tree explorer *)
(** extras.rs ObjectTreeVar, ObjectTreeProc, ObjectTreeType; the icon of a type is always a class *)
Record evar : Type := { ev_name : text; ev_icon : icon; ev_place : option place; ev_declared : bool }.
Record eproc : Type := { ep_name : text; ep_icon : icon; ep_place : option place; ep_verb : option bool }.
Inductive etype : Type :=
  EType (name : text) (at_ : option place) (evars : list evar) (eprocs : list eproc) (children : list etype) (n_vars n_procs n_children : nat).
Definition et_name (e : etype) : text := let '(EType name _ _ _ _ _ _ _) := e in name.
Definition et_place (e : etype) : option place := let '(EType _ p _ _ _ _ _ _) := e in p.
Definition et_vars (e : etype) : list evar := let '(EType _ _ v _ _ _ _ _) := e in v.
Definition et_procs (e : etype) : list eproc := let '(EType _ _ _ p _ _ _ _) := e in p.
Definition et_children (e : etype) : list etype := let '(EType _ _ _ _ c _ _ _) := e in c.
Definition et_counts (e : etype) : nat * nat * nat := let '(EType _ _ _ _ _ a b c) := e in (a, b, c).
Definition with_members (e : etype) (v : list evar) (p : list eproc) : etype := let '(EType name at_ _ _ c x y z) := e in EType name at_ v p c x y z.
Definition with_children (e : etype) (c : list etype) : etype := let '(EType name at_ v p _ x y z) := e in EType name at_ v p c x y z.

(** 421-435 objtree_stub *)
Definition objtree_stub (i : nat) (n : node V D) : etype :=
  EType (name_of n) (convert_location (fst (type_site i)) (snd (type_site i)) [n_path n]) [] [] []
        (List.length (vars i)) (List.length (n_procs n)) (List.length (n_children n)).
(** 441-462 *)
Definition var_row (n : node V D) (e : text * tvar) : evar :=
  let '(name, tv) := e in
  {| ev_name := name;
     ev_icon := if match v_decl tv with Some (_, c) => c | None => false end then IConstant else IField;
     ev_place := convert_location (fst (v_site tv)) (snd (v_site tv)) [n_path n; lit "/var/"; name];
     ev_declared := match v_decl tv with Some _ => true | None => false end |}.
(** 465-485: one row for each value; only the first says whether this is a verb *)
Fixpoint value_rows (n : node V D) (name : text) (verb : option bool) (values : list V) : list eproc :=
  match values with
  | [] => []
  | v :: values' =>
      {| ep_name := name; ep_icon := proc_icon n name;
         ep_place := convert_location (fst (value_site v)) (snd (value_site v)) [n_path n; lit "/proc/"; name]; ep_verb := verb |}
      :: value_rows n name None values'
  end.
Definition proc_rows (n : node V D) (e : text * type_proc V D) : list eproc :=
  value_rows n (fst e) (option_map is_verb (p_decl (snd e))) (p_values (snd e)).
(** 437-489 objtree_with_vars_and_procs *)
Definition objtree_with_vars_and_procs (i : nat) (n : node V D) : etype :=
  with_members (objtree_stub i n) (sort_by ev_name (map (var_row n) (vars i))) (sort_by ep_name (flat_map (proc_rows n) (n_procs n))).
(** an index that leads nowhere would be a panic; [None] *)
Fixpoint every {A : Type} (l : list (option A)) : option (list A) :=
  match l with
  | [] => Some []
  | Some a :: l' => option_map (cons a) (every l')
  | None :: _ => None
  end.
(** 491-501 objtree_recurse.  [None]: not within this depth *)
Fixpoint objtree_recurse (fuel : nat) (i : nat) : option etype :=
  match fuel, node_at t i with
  | S fuel', Some n =>
      option_map (fun l => with_children (objtree_with_vars_and_procs i n) (sort_by et_name l)) (every (map (objtree_recurse fuel') (children t i)))
  | _, _ => None
  end.
(** 503-513 objtree_with_placeholders *)
Definition objtree_with_placeholders (i : nat) : option etype :=
  match node_at t i with
  | Some n =>
      option_map (fun l => with_children (objtree_with_vars_and_procs i n) (sort_by et_name l))
        (every (map (fun j => option_map (objtree_stub j) (node_at t j)) (children t i)))
  | None => None
  end.
(** 2412-2419 QueryObjectTree *)
Definition query_object_tree (path : text) : outcome etype :=
  match Model.find t path with
  | None => Refused
  | Some i => match objtree_with_placeholders i with Some e => Done e | None => Panicked end
  end.
(** 402-419 update_objtree: that there is a new tree, for a client that asks for it, or the whole of it *)
Inductive notification : Type := NewTree | WholeTree (e : etype).
Definition update_objtree (fuel : nat) (object_tree_2 object_tree : bool) : option (list notification) :=
  if object_tree_2 then Some [NewTree]
  else if object_tree then option_map (fun e => [WholeTree e]) (objtree_recurse fuel 0)
  else Some [].
End EXPLORER.
Arguments v_decl {Loc Doc}. Arguments v_site {Loc Doc}.
Arguments s_name {Loc Url}. Arguments s_icon {Loc Url}. Arguments s_place {Loc Url}. Arguments s_in {Loc Url}.
Arguments ev_name {Loc Url}. Arguments ev_icon {Loc Url}. Arguments ev_place {Loc Url}. Arguments ev_declared {Loc Url}.
Arguments ep_name {Loc Url}. Arguments ep_icon {Loc Url}. Arguments ep_place {Loc Url}. Arguments ep_verb {Loc Url}.
Arguments et_name {Loc Url}. Arguments et_place {Loc Url}. Arguments et_vars {Loc Url}. Arguments et_procs {Loc Url}. Arguments et_children {Loc Url}. Arguments et_counts {Loc Url}.
Arguments WholeTree {Loc Url}. Arguments NewTree {Loc Url}.
