(** How the types of variables and input types are shown.  Models crates/dreammaker/src/ast.rs (cited without file name): Display for InputType
    507-523, to_typepath 562-586, iter and Display of VarTypeFlags 661-722, Display for VarType 1410-1419; the reading of names, flag_of and
    var_type, is that of Stmt/Model.v, input_type_of that of Parse/Ast.v; the loop of parser.rs input_type 1449-1473.

    Simplifications: words instead of tokens; bits are numbers. *)
From Coq Require Import List Arith NArith Bool String.
From Verif Require Import Common.Text Parse.Ast Stmt.Ast.
From Verif Require Stmt.Model.
Import ListNotations.
Open Scope N_scope.

(** bitflags: contains, difference *)
Definition contains (b e : N) : bool := N.eqb (N.land b e) e.
Definition difference (b e : N) : N := N.ldiff b e.
(** 700-722 *)
Definition show_flags (f : N) : text :=
  (if contains f 1 then lit "static/" else []) ++ (if contains f 4 then lit "const/" else []) ++ (if contains f 8 then lit "tmp/" else []) ++ (if contains f 16 then lit "final/" else []) ++
  (if contains f 32 then lit "SpacemanDMM_private/" else []) ++ (if contains f 64 then lit "SpacemanDMM_protected/" else []).
(** 661-697: the iterator *)
Definition next_flag (f : N) : option (text * N) :=
  if contains f 1 then Some (lit "static", difference f 1)
  else if contains f 4 then Some (lit "const", difference f 4)
  else if contains f 8 then Some (lit "tmp", difference f 8)
  else if contains f 16 then Some (lit "final", difference f 16)
  else if contains f 32 then Some (lit "SpacemanDMM_private", difference f 32)
  else if contains f 64 then Some (lit "SpacemanDMM_protected", difference f 64)
  else None.
Fixpoint flag_names (fuel : nat) (f : N) : list text :=
  match fuel with O => [] | S fuel' => match next_flag f with Some (w, f') => w :: flag_names fuel' f' | None => [] end end.
(** 1410-1419 *)
Definition show_var_type (t : vartype) : text := show_flags (v_flags t) ++ flat_map (fun w => w ++ lit "/") (v_path t).
(** 507-523 *)
Fixpoint show_entries (first : bool) (b : N) (entries : list (text * N)) : text :=
  match entries with
  | [] => if first then lit "()" else []
  | (w, e) :: entries' => if contains b e then (if first then [] else lit "|") ++ w ++ show_entries false b entries' else show_entries first b entries'
  end.
Definition show_input_type (b : N) : text := show_entries true b input_types.
(** parser.rs 1449-1473: the bits, and whether every word is an input type *)
Definition read_input_type (words : list text) : N * bool :=
  fold_left (fun r w => match input_type_of w with Some v => (N.lor (fst r) v, snd r) | None => (fst r, false) end) words (0, true).
(** 562-586 *)
Definition to_typepath (b : N) : option text :=
  if N.eqb b 0 then None
  else if N.eqb b 1 then Some (lit "/mob")
  else if N.eqb b 2 then Some (lit "/obj")
  else if N.eqb b 32 then Some (lit "/turf")
  else if N.eqb b 256 then Some (lit "/area")
  else if N.eqb b 2147483648 then Some (lit "/list")
  else if N.eqb (difference b 3) 0 then Some (lit "/atom/movable")
  else if N.eqb (difference b 291) 0 then Some (lit "/atom")
  else None.
