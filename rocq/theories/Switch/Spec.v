(** Specification for C21, over the real meaning of the bounds. *)
From Coq Require Import List ZArith QArith.
From Verif Require Import Switch.Model.
Import ListNotations.

(** [x <= n] and [n <= x] for a float bound and an integer *)
Definition f_le (x : f32) (n : Z) : Prop :=
  match x with Fin q => (q <= inject_Z n)%Q | NInf => True | PInf => False | NaN => False end.
Definition le_f (n : Z) (x : f32) : Prop :=
  match x with Fin q => (inject_Z n <= q)%Q | PInf => True | NInf => False | NaN => False end.

(** the integers [rand] can return *)
Definition rand_returns (args : list value) (n : Z) : Prop :=
  match args with
  | [Some lo; Some hi] => f_le lo n /\ le_f n hi
  | [Some hi] => (0 <= n)%Z /\ le_f n hi
  | _ => False
  end.

(** the case's condition is known and holds of [n] *)
Definition triggers (c : case) (n : Z) : Prop :=
  match c with
  | Exact (Some v) => f_le v n /\ le_f n v
  | Range (Some lo) (Some hi) => f_le lo n /\ le_f n hi
  | _ => False
  end.

(** the values the case and rand expressions evaluate to *)
Definition case_values (c : case) : list f32 :=
  match c with
  | Exact (Some v) => [v; v]
  | Range (Some lo) (Some hi) => [lo; hi]
  | _ => []
  end.
Definition upper (c : case) : option f32 :=
  match c with
  | Exact (Some v) => Some v
  | Range (Some _) (Some hi) => Some hi
  | _ => None
  end.
(** strictly inside the i32 range *)
Definition in_range (x : f32) : Prop :=
  match x with Fin q => (inject_Z I32_MIN < q)%Q /\ (q < inject_Z I32_MAX)%Q | _ => False end.
Definition below_max (x : f32) : Prop :=
  match x with Fin q => (q < inject_Z I32_MAX)%Q | NInf => True | _ => False end.
