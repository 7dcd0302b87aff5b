(** The check of variable definitions.  Models crates/dreamchecker/src/lib.rs 1226-1300 (cited without file name). *)
From Coq Require Import List Arith NArith Bool String.
From Verif Require Import Common.Text Objtree.Model Checker.CallTree Checker.Kwargs.
Import ListNotations.
Open Scope nat_scope.

Section VARDEFS.
Variables V D L : Type.
Variable t : objtree V D.
(** objtree.rs 62-83 VarDeclaration and TypeVar, as far as they are looked at; [tv_builtin]: the location of the value is in the
    builtin file *)
Record declaration : Type := { d_loc : L; d_final : bool; d_private : bool }.
Record typevar : Type := { tv_loc : L; tv_builtin : bool; tv_decl : option declaration }.
(** the variables of each type, an IndexMap *)
Variable vars : nat -> list (text * typevar).

(** The errors: about which type, which variable, whose declaration, with the location of the error and of the note *)
Inductive reason : Type := Redeclares | OverridesFinal | OverridesPrivate.
Record report : Type := { v_why : reason; v_type : nat; v_name : text; v_parent : nat; v_loc : L; v_note : L }.

(** 1243-1297: the body of the loop over the variables *)
Definition check_var (ty parent : nat) (e : text * typevar) : list report :=
  let '(name, v) := e in
  if text_eqb name (lit "vars") then []
  else if text_eqb (path_of t ty) (lit "/client") && text_eqb name (lit "parent_type") then []
  else
    match get name (vars parent) with
    | None => []
    | Some pv =>
        match tv_decl pv with
        | None => []
        | Some d =>
            let r why loc := {| v_why := why; v_type := ty; v_name := name; v_parent := parent; v_loc := loc; v_note := d_loc d |} in
            let rest := (if d_final d then [r OverridesFinal (tv_loc v)] else []) ++ (if d_private d then [r OverridesPrivate (tv_loc v)] else []) in
            match tv_decl v with
            | Some my => if tv_builtin v then [] else r Redeclares (d_loc my) :: rest
            | None => rest
            end
        end
    end.
(** 1234-1242: the loop over the parents *)
Fixpoint check_parents (ty : nat) (parents : list nat) : list report :=
  match parents with
  | [] => []
  | p :: ps => if is_root t p then []
               else if text_eqb (path_of t p) (path_of t ty) then check_parents ty ps
               else flat_map (check_var ty p) (vars ty) ++ check_parents ty ps
  end.
(** 1231-1300 check_var_defs.  [None]: it does not end, because a type is its own ancestor *)
Definition check_type (ty : nat) : option (list report) := option_map (check_parents ty) (line (S (List.length (graph t))) (parent_type t) ty).
Definition check_var_defs : option (list report) := all_of (map check_type (seq 0 (List.length (graph t)))).
End VARDEFS.
Arguments d_loc {L}. Arguments d_final {L}. Arguments d_private {L}. Arguments tv_loc {L}. Arguments tv_builtin {L}. Arguments tv_decl {L}.
Arguments v_why {L}. Arguments v_type {L}. Arguments v_name {L}. Arguments v_parent {L}. Arguments v_loc {L}. Arguments v_note {L}. Arguments check_var_defs {V D L}.
