(** What the constants of an object tree are (C47).  Expressions are evaluated by [ev_expr] of Const/Model.v, given the values of
    the variables they mention; how those are found is specified here. *)
From Coq Require Import List NArith ZArith Bool String.
From Verif Require Import Common.Text Parse.Ast Const.Model Const.Related Const.Tree.
Import ListNotations.
Open Scope nat_scope.

Section SPEC.
Variable F : Type.
Variable fl : f32 F.
Variable T : tree F.
Variable navigate : nat -> list (pathop * text) -> option (list text).
Variable proc_of : nat -> text -> option (list text).
Variable file_exists : option (text -> option bool).
Variable rgb : arguments_t F -> option text.
Notation constant := (constant F).
Notation var_of := (var_of F T).
Notation parent_of := (parent_of F T).

(** The type that variable [i] of type [ty] belongs to: the nearest one, from [ty] upwards, that has it *)
Inductive owner : nat -> text -> nat -> Prop :=
  | owner_here ty i v : var_of ty i = Some v -> owner ty i ty
  | owner_up ty i p o : var_of ty i = None -> parent_of ty = Some p -> owner p i o -> owner ty i o.
(** Its declaration: the nearest one *)
Inductive declared : nat -> text -> decl -> Prop :=
  | declared_here ty i v d : var_of ty i = Some v -> v_decl v = Some d -> declared ty i d
  | declared_up ty i p d : (forall v, var_of ty i = Some v -> v_decl v = None) -> parent_of ty = Some p -> declared p i d -> declared ty i d.

(** The surroundings of an expression in type [ty] when the values of variables are [known] *)
Definition given (known : nat -> text -> bool -> option constant) (ty : nat) : env F unit :=
  env_at F T navigate proc_of file_exists rgb (fun ty' i m s => lift (known ty' i m) s) ty.

(** A constant can be evaluated before the game runs, and so can any variable that is neither static nor protected. *)
Definition may_evaluate (d : decl) : Prop := d_const d = true \/ (d_static d = false /\ d_protected d = false).
(** Type [ty] has a variable [i] of its own, whose value turns out to be [c] in at most [n] rounds: in each round, the expressions
    that mention only variables with known values are evaluated.  [strict]: a variable used as [a.b] has to be constant. *)
Fixpoint value (strict : bool) (n : nat) (ty : nat) (i : text) (c : constant) : Prop :=
  match n with
  | O => False
  | S n' =>
      exists v d, var_of ty i = Some v /\ declared ty i d /\
      match v_const v, v_expr v with
      | Some c', _ => c = c'
      | None, None => c = CNull (Some (d_path d))
      | None, Some e =>
          may_evaluate d /\
          exists known,
            (forall ty' i' m c', known ty' i' m = Some c' ->
               exists o, owner ty' i' o /\ value strict n' o i' c' /\ (strict = true -> m = true -> forall d', declared o i' d' -> d_const d' = true)) /\
            ev_expr F fl (given known ty) e (match d_path d with [] => None | p => Some p end) tt = EOk c tt
      end
  end.
(** Every expression in the tree is free of [a.b]. *)
Definition fieldless : Prop := forall ty i v e, var_of ty i = Some v -> v_expr v = Some e -> no_field F e = true.
(** No type inherits from itself. *)
Definition acyclic : Prop := well_founded (fun p ty => parent_of ty = Some p).
End SPEC.
