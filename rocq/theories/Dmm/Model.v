(** Model of crates/dmm-tools/src/dmm.rs: keys, coordinates, grid. *)
From Coq Require Import List ZArith Lia Bool Ascii String.
Import ListNotations.
Open Scope Z_scope.

(** dmm.rs:18 *)
Definition MAX_KEY_LENGTH : Z := 3.

(** dmm.rs:22 KeyType = u16: the values [0, 65535]. *)
Definition KEY_MAX : Z := 65535.

(** dmm.rs:443 BASE_52 *)
Definition BASE_52 : list ascii :=
  list_ascii_of_string "abcdefghijklmnopqrstuvwxyzABCDEFGHIJKLMNOPQRSTUVWXYZ".

(** dmm.rs:434-437: the digit loop of FormatKey::fmt; [n] digits remain, [current] is their place *)
Fixpoint format_digits (n : nat) (current key : Z) : option (list ascii) :=
  match n with
  | O => Some []
  | S n' =>
      match nth_error BASE_52 (Z.to_nat ((key / current) mod 52)) with
      | None => None
      | Some c =>
          match format_digits n' (current / 52) key with
          | None => None
          | Some cs => Some (c :: cs)
          end
      end
  end.

(** dmm.rs:423-441 FormatKey::fmt; [None] = panic.  [key_length - 1] underflows for 0 and the
    [usize] power overflows from 2^64. *)
Definition format_key (key_length key : Z) : option (list ascii) :=
  if (key_length <? MAX_KEY_LENGTH) && (52 ^ key_length <=? key) then None
  else if key_length <? 1 then None
  else if 2 ^ 64 <=? 52 ^ (key_length - 1) then None
  else format_digits (Z.to_nat key_length) (52 ^ (key_length - 1)) key.

(** dmm.rs:445-453 base_52_reverse; [None] = Err *)
Definition base_52_reverse (c : ascii) : option Z :=
  let n := Z.of_N (N_of_ascii c) in
  if (97 <=? n) && (n <=? 122) then Some (n - 97)
  else if (65 <=? n) && (n <=? 90) then Some (26 + n - 65)
  else None.

(** dmm.rs:455-463 advance_key; [None] = Err (checked u16 arithmetic) *)
Definition advance_key (current next_digit : Z) : option Z :=
  if KEY_MAX <? current * 52 then None
  else if KEY_MAX <? current * 52 + next_digit then None
  else Some (current * 52 + next_digit).

(** How read.rs (lines 70-78 and 250-262) reads a key from its letters: from 0, one
    [advance_key (base_52_reverse ch)] per letter. *)
Fixpoint read_key_from (current : Z) (s : list ascii) : option Z :=
  match s with
  | [] => Some current
  | c :: s' =>
      match base_52_reverse c with
      | None => None
      | Some d => match advance_key current d with
                  | None => None
                  | Some k => read_key_from k s'
                  end
      end
  end.
Definition read_key (s : list ascii) : option Z := read_key_from 0 s.

(** dmm.rs:235-246 adjust_key_length on the dictionary's keys *)
Definition adjust_key_length (key_length : Z) (keys : list Z) : Z :=
  match keys with
  | [] => key_length
  | k :: ks =>
      let max_key := fold_left Z.max ks k in
      if 2704 <=? max_key then 3
      else if 52 <=? max_key then 2
      else 1
  end.

(** dmm.rs:410-417 Key::invalid, Key::next ([None] = u16 overflow) *)
Definition key_invalid : Z := KEY_MAX.
Definition key_next (k : Z) : option Z := if k + 1 <=? KEY_MAX then Some (k + 1) else None.

(** ** Coordinates and grid *)

(** dmm.rs:51-65 Coord2::to_raw (dim_y, dim_x); [None] = failed assertion.  Raw indices are
    (row, column).  Dimensions are below 2^31 in the theorems, so [as i32] is exact. *)
Definition to_raw2 (c : Z * Z) (dim : nat * nat) : option (nat * nat) :=
  let '(x, y) := c in
  let '(dy, dx) := dim in
  if (1 <=? x) && (x <=? Z.of_nat dx) then
    if (1 <=? y) && (y <=? Z.of_nat dy) then
      Some ((dy - Z.to_nat y)%nat, (Z.to_nat x - 1)%nat)
    else None
  else None.

(** dmm.rs:67-72 Coord2::from_raw *)
Definition from_raw2 (r : nat * nat) (dim : nat * nat) : Z * Z :=
  (Z.of_nat (snd r) + 1, Z.of_nat (fst dim) - Z.of_nat (fst r)).

(** dmm.rs:118-142 Coord3::to_raw (dim_z, dim_y, dim_x) *)
Definition to_raw3 (c : Z * Z * Z) (dim : nat * nat * nat) : option (nat * nat * nat) :=
  let '(x, y, z) := c in
  let '(dz, dy, dx) := dim in
  if (1 <=? x) && (x <=? Z.of_nat dx) then
    if (1 <=? y) && (y <=? Z.of_nat dy) then
      if (1 <=? z) && (z <=? Z.of_nat dz) then
        Some ((Z.to_nat z - 1)%nat, (dy - Z.to_nat y)%nat, (Z.to_nat x - 1)%nat)
      else None
    else None
  else None.

(** dmm.rs:144-154 Coord3::from_raw *)
Definition from_raw3 (r : nat * nat * nat) (dim : nat * nat * nat) : Z * Z * Z :=
  let '(z, y, x) := r in
  let '(_, dy, _) := dim in
  (Z.of_nat x + 1, Z.of_nat dy - Z.of_nat y, Z.of_nat z + 1).

Section Grid.
  Context {A : Type}.

  (** ndarray Array2/Array3 in standard (row-major) layout: dimensions and flat contents. *)
  Record grid2 := { g2_dim : nat * nat; g2_data : list A }.
  Record grid3 := { g3_dim : nat * nat * nat; g3_data : list A }.

  Definition grid2_ok (g : grid2) : Prop := List.length (g2_data g) = (fst (g2_dim g) * snd (g2_dim g))%nat.
  Definition grid3_ok (g : grid3) : Prop :=
    let '(dz, dy, dx) := g3_dim g in List.length (g3_data g) = (dz * dy * dx)%nat.

  (** ndarray indexing: panics ([None]) outside the shape *)
  Definition index2 (g : grid2) (r : nat * nat) : option A :=
    let '(y, x) := r in
    let '(dy, dx) := g2_dim g in
    if (y <? dy)%nat && (x <? dx)%nat then nth_error (g2_data g) (y * dx + x) else None.

  Definition index3 (g : grid3) (r : nat * nat * nat) : option A :=
    let '(z, y, x) := r in
    let '(dz, dy, dx) := g3_dim g in
    if (z <? dz)%nat && (y <? dy)%nat && (x <? dx)%nat
    then nth_error (g3_data g) ((z * dy + y) * dx + x) else None.

  (** dmm.rs:277-284 Index<Coord3> for Map *)
  Definition map_index (g : grid3) (c : Z * Z * Z) : option A :=
    match to_raw3 c (g3_dim g) with Some r => index3 g r | None => None end.

  (** dmm.rs:297-304 Index<Coord2> for ZLevel *)
  Definition level_index (g : grid2) (c : Z * Z) : option A :=
    match to_raw2 c (g2_dim g) with Some r => index2 g r | None => None end.

  (** dmm.rs:259-263 z_level ([index_axis(Axis(0), z)]); panics outside *)
  Definition z_level (g : grid3) (z : nat) : option grid2 :=
    let '(dz, dy, dx) := g3_dim g in
    if (z <? dz)%nat
    then Some {| g2_dim := (dy, dx); g2_data := firstn (dy * dx) (skipn (z * (dy * dx)) (g3_data g)) |}
    else None.

  (** dmm.rs:265-270 iter_levels: (z + 1, level z) for each z *)
  Definition iter_levels (g : grid3) : list (Z * option grid2) :=
    let '(dz, _, _) := g3_dim g in map (fun z => (Z.of_nat z + 1, z_level g z)) (seq 0 dz).

  (** ndarray indexed_iter: raw indices in row-major order with the elements *)
  Definition indexed_iter (g : grid2) : list ((nat * nat) * A) :=
    let '(dy, dx) := g2_dim g in
    combine (flat_map (fun y => map (fun x => (y, x)) (seq 0 dx)) (seq 0 dy)) (g2_data g).

  (** dmm.rs:288-293 iter_top_down *)
  Definition iter_top_down (g : grid2) : list ((Z * Z) * A) :=
    map (fun p => (from_raw2 (fst p) (g2_dim g), snd p)) (indexed_iter g).

  (** dmm.rs:249-252 dim_xyz *)
  Definition dim_xyz (g : grid3) : nat * nat * nat :=
    let '(dz, dy, dx) := g3_dim g in (dx, dy, dz).
End Grid.
Arguments grid2 : clear implicits.
Arguments grid3 : clear implicits.
