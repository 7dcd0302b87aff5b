(** Specification for C06-C08. *)
From Coq Require Import List ZArith Bool Ascii.
Import ListNotations.
Open Scope Z_scope.

(** The digit a letter denotes: a..z are 0..25, A..Z are 26..51. *)
Definition letter_value (c : ascii) : Z :=
  let n := Z.of_N (N_of_ascii c) in if n <=? 90 then n - 65 + 26 else n - 97.
Definition is_letter (c : ascii) : Prop :=
  let n := Z.of_N (N_of_ascii c) in 97 <= n <= 122 \/ 65 <= n <= 90.

(** Positional value in base 52, most significant letter first. *)
Fixpoint word_value (s : list ascii) : Z :=
  match s with
  | [] => 0
  | c :: s' => letter_value c * 52 ^ Z.of_nat (length s') + word_value s'
  end.

(** Is [key] representable with [len] letters? *)
Definition fits (len key : Z) : Prop := 0 <= key < 52 ^ len.

(** The BYOND coordinates of a level in reading order: top row (greatest y) first, each row from
    x = 1. *)
Definition reading_order (dim_x dim_y : nat) : list (Z * Z) :=
  flat_map (fun row => map (fun col => (Z.of_nat col + 1, Z.of_nat dim_y - Z.of_nat row)) (seq 0 dim_x))
           (seq 0 dim_y).

Definition in_level (dim_x dim_y : nat) (c : Z * Z) : Prop :=
  1 <= fst c <= Z.of_nat dim_x /\ 1 <= snd c <= Z.of_nat dim_y.
Definition in_map (dim_x dim_y dim_z : nat) (c : Z * Z * Z) : Prop :=
  in_level dim_x dim_y (fst c) /\ 1 <= snd c <= Z.of_nat dim_z.
