(** Evaluating the variables of the object tree.  Models crates/dreammaker/src/constants.rs (cited without file name), with
    objtree.rs and ast.rs for types, variables and their declarations. *)
From Coq Require Import List NArith ZArith Bool String.
From Verif Require Import Common.Text Parse.Ast Const.Model.
Import ListNotations.
Open Scope nat_scope.

Section TREE.
Variable F : Type.
Variable fl : f32 F.
Notation constant := (constant F).
Notation expr := (expr F).

(** objtree.rs:62-67 VarDeclaration, ast.rs:1386-1390 VarType: what counts here *)
Record decl : Type := { d_const : bool; d_static : bool; d_protected : bool; d_path : list text }.
(** ast.rs:651-654 is_const_evaluable *)
Definition evaluable (d : decl) : bool := d_const d || negb (d_static d || d_protected d).
(** objtree.rs:69-84 TypeVar with VarValue.  [v_const]: the constant that is there from the beginning (in the built-in types).  The
    two mutable fields, [constant] and [being_evaluated], are kept apart from the tree (type [cells]). *)
Record var : Type := { v_decl : option decl; v_expr : option expr; v_const : option constant }.
(** objtree.rs:127-143 Type; a path is the list of its parts *)
Record type_ : Type := { ty_path : list text; ty_parent : option nat; ty_vars : list (text * var) }.
Definition tree : Type := list type_.
Definition cells : Type := nat -> text -> option constant * bool.

Variable T : tree.
(** What does not change: procedures (1062-1084 proc_ref_lookup), the type that a relative path leads to (objtree.rs:404-434
    navigate_path), the file system and rgb(). *)
Variable navigate : nat -> list (pathop * text) -> option (list text).
Variable proc_of : nat -> text -> option (list text).
Variable file_exists : option (text -> option bool).
Variable rgb : arguments_t F -> option text.

Definition vars_of (ty : nat) : list (text * var) := match nth_error T ty with Some t => ty_vars t | None => [] end.
Definition assoc {A : Type} (i : text) (l : list (text * A)) : option A :=
  match find (fun e => text_eqb (fst e) i) l with Some e => Some (snd e) | None => None end.
Definition var_of (ty : nat) (i : text) : option var := assoc i (vars_of ty).
Definition parent_of (ty : nat) : option nat := match nth_error T ty with Some t => ty_parent t | None => None end.
(** objtree.rs:745-750 find *)
Definition find_type (p : text) : option nat :=
  let fix go n (l : list type_) := match l with [] => None | t :: l' => if text_eqb (show_path (ty_path t)) p then Some n else go (S n) l' end in
  go 0 T.
(** objtree.rs:204-219 get_var_declaration.  [None]: it does not end *)
Fixpoint walk_decl (fuel : nat) (ty : nat) (i : text) : option (option decl) :=
  match fuel with
  | O => None
  | S fuel' =>
      match match var_of ty i with Some v => v_decl v | None => None end with
      | Some d => Some (Some d)
      | None => match parent_of ty with Some p => walk_decl fuel' p i | None => Some None end
      end
  end.
Definition get_decl : nat -> text -> option (option decl) := walk_decl (S (List.length T)).

Definition store (s : cells) (ty : nat) (i : text) (x : option constant * bool) : cells :=
  fun ty' i' => if (ty' =? ty) && text_eqb i' i then x else s ty' i'.
(** 523-526 ConstLookup *)
Inductive const_lookup : Type := Found (c : constant) | Continue (p : option nat).

(** 1046-1060 recursive_lookup: [fuel] bounds the number of parents *)
Fixpoint climb (fuel : nat) (look : nat -> cells -> eres cells const_lookup) (ty : nat) (s : cells) : eres cells constant :=
  match fuel with
  | O => EStuck
  | S fuel' =>
      match look ty s with
      | EOk (Found c) s' => EOk c s'
      | EOk (Continue (Some p)) s' => climb fuel' look p s'
      | EOk (Continue None) s' => EErr EOther s'
      | EErr e s' => EErr e s'
      | EStuck => EStuck
      end
  end.
Definition env_at {St : Type} (look : nat -> text -> bool -> St -> eres St constant) (ty : nat) : env F St :=
  {| e_tree := Some {| t_lookup := look; t_find := find_type; t_navigate := navigate ty; t_proc := proc_of;
       t_type := match nth_error T ty with Some t => ty_path t | None => [] end;
       t_parent := match parent_of ty with Some p => option_map ty_path (nth_error T p) | None => None end; t_self := ty |};
     e_defined := None; e_fexists := file_exists; e_rgb := rgb |}.
Definition hint_of (d : decl) : option (list text) := match d_path d with [] => None | p => Some p end.
(** 528-607 constant_ident_lookup; [fuel] bounds the depth of evaluations within evaluations *)
Fixpoint lookup (fuel : nat) (ty : nat) (i : text) (must_be_const : bool) (s : cells) : eres cells const_lookup :=
  match fuel with
  | O => EStuck
  | S fuel' =>
      match get_decl ty i with
      | None => EStuck
      | Some None => EOk (Continue None) s
      | Some (Some d) =>
          match var_of ty i with
          | None => EOk (Continue (parent_of ty)) s
          | Some v =>
              match fst (s ty i) with
              | Some c => EOk (Found c) s
              | None =>
                  match v_expr v with
                  | Some e =>
                      if snd (s ty i) then EErr (ERecursive i) s
                      else if negb (evaluable d) then EErr (ENotEvaluable i) s
                      else if negb (d_const d) && must_be_const then EErr (ENotConst i) s
                      else
                        match ev_expr F fl (env_at (fun ty' i' m => climb (S (List.length T)) (fun p => lookup fuel' p i' m) ty') ty) e (hint_of d)
                                (store s ty i (None, true)) with
                        | EOk c s' => EOk (Found c) (store s' ty i (Some c, false))
                        | EErr x s' => EErr x s'
                        | EStuck => EStuck
                        end
                  | None => let c := CNull (Some (d_path d)) in EOk (Found c) (store s ty i (Some c, snd (s ty i)))
                  end
              end
          end
      end
  end.

(** 501-521 evaluate_all *)
Definition slots : list (nat * text) :=
  List.concat (map (fun ty => map (fun e => (ty, fst e)) (vars_of ty)) (seq 0 (List.length T))).
Definition wanted (ty : nat) (i : text) : option bool :=
  match get_decl ty i with
  | None => None
  | Some None => Some true
  | Some (Some d) => Some (evaluable d && (d_const d || negb (ty =? 0)))
  end.
(** the errors that were reported, each with the variable whose turn it was *)
Definition reports : Type := list (nat * text * cerr).
Fixpoint take_turns (fuel : nat) (order : list (nat * text)) (out : reports) (s : cells) : option (reports * cells) :=
  match order with
  | [] => Some (out, s)
  | (ty, i) :: order' =>
      match wanted ty i with
      | None => None
      | Some false => take_turns fuel order' out s
      | Some true =>
          match lookup fuel ty i false s with
          | EStuck => None
          | EErr e s' => take_turns fuel order' (out ++ [(ty, i, e)]) s'
          | EOk (Found _) s' => take_turns fuel order' out s'
          | EOk (Continue _) s' => take_turns fuel order' (out ++ [(ty, i, EOther)]) s'
          end
      end
  end.
Definition initial : cells := fun ty i => (match var_of ty i with Some v => v_const v | None => None end, false).
(** [None]: it does not end *)
Definition evaluate_all : option (reports * cells) := take_turns (S (List.length slots)) slots [] initial.
End TREE.
Arguments Found {F}. Arguments Continue {F}.
Arguments v_decl {F}. Arguments v_expr {F}. Arguments v_const {F}. Arguments ty_path {F}. Arguments ty_parent {F}. Arguments ty_vars {F}.
