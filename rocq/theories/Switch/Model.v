(** Model of crates/dreamchecker/src/switch_rand_range.rs. *)
From Coq Require Import List ZArith QArith Qround Lia Bool.
Import ListNotations.
Open Scope Z_scope.

(** f32 values as the function sees them after constant folding: a finite value is a rational. *)
Inductive f32 := Fin (q : Q) | PInf | NInf | NaN.

Definition I32_MIN : Z := - 2 ^ 31.
Definition I32_MAX : Z := 2 ^ 31 - 1.
(** [as i32] saturates, NaN becomes 0 *)
Definition saturate (z : Z) : Z := Z.max I32_MIN (Z.min I32_MAX z).
(** [x.ceil() as i32], [x.floor() as i32] *)
Definition ceil_i32 (x : f32) : Z :=
  match x with Fin q => saturate (Qceiling q) | PInf => I32_MAX | NInf => I32_MIN | NaN => 0 end.
Definition floor_i32 (x : f32) : Z :=
  match x with Fin q => saturate (Qfloor q) | PInf => I32_MAX | NInf => I32_MIN | NaN => 0 end.

(** The result of [simple_evaluate(..).ok()?.to_float()?] of an expression: [None] when it is not a
    compile-time number.  Expression evaluation itself is not modelled here. *)
Definition value := option f32.

(** ast.rs Case *)
Inductive case := Exact (v : value) | Range (lo hi : value).

(** lines 71-88 get_case_range *)
Definition get_case_range (c : case) : option (f32 * f32) :=
  match c with
  | Exact (Some v) => Some (v, v)
  | Range (Some lo) (Some hi) => Some (lo, hi)
  | _ => None
  end.

(** lines 90-117 get_rand_range on the argument list of [rand(..)] *)
Definition get_rand_range (args : list value) : option (Z * Z) :=
  match args with
  | [Some lo; Some hi] => Some (ceil_i32 lo, floor_i32 hi)
  | [Some hi] => Some (ceil_i32 (Fin 0), floor_i32 hi)
  | _ => None
  end.

(** lines 24-41: the first loop.  Result: the ranges pushed, and the cases reported as never
    triggering (their position and rounded range). *)
Fixpoint classify (rs re : Z) (i : nat) (cases : list case) : list (Z * Z) * list (nat * (Z * Z)) :=
  match cases with
  | [] => ([], [])
  | c :: cs =>
      let '(pushed, reported) := classify rs re (S i) cs in
      match get_case_range c with
      | None => (pushed, reported)
      | Some (lo, hi) =>
          let start := ceil_i32 lo in
          let fin := floor_i32 hi in
          if (start <=? re) && (rs <=? fin) then ((start, fin) :: pushed, reported)
          else (pushed, (i, (start, fin)) :: reported)
      end
  end.

(** line 48 [sort_by_key(|a| a.0)]: a stable sort (insertion sort here) *)
Fixpoint insert_by_start (x : Z * Z) (l : list (Z * Z)) : list (Z * Z) :=
  match l with
  | [] => [x]
  | y :: l' => if fst x <=? fst y then x :: l else y :: insert_by_start x l'
  end.
Definition sort_by_start (l : list (Z * Z)) : list (Z * Z) := fold_right insert_by_start [] l.

(** lines 49-56 the sweep; [None] = [end + 1] overflows i32 (panic in debug builds) *)
Fixpoint sweep (first_uncovered : Z) (l : list (Z * Z)) : option Z :=
  match l with
  | [] => Some first_uncovered
  | (start, fin) :: l' =>
      if first_uncovered <? start then Some first_uncovered
      else if fin =? I32_MAX then None
      else sweep (Z.max first_uncovered (fin + 1)) l'
  end.

(** the diagnostics: reported cases, and the value no branch triggers for *)
Record report := { never : list (nat * (Z * Z)); gap : option Z }.

(** lines 10-69 check_switch_rand_range; [None] = panic *)
Definition check_switch_rand_range (args : list value) (cases : list case) (has_default : bool)
  : option report :=
  match get_rand_range args with
  | None => Some {| never := []; gap := None |}
  | Some (rs, re) =>
      let '(pushed, reported) := classify rs re 0 cases in
      if has_default then Some {| never := reported; gap := None |}
      else match sweep rs (sort_by_start pushed) with
           | None => None
           | Some fu => Some {| never := reported; gap := if fu <=? re then Some fu else None |}
           end
  end.
