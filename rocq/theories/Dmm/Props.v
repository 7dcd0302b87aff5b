(** C06 key codec, C07 key length, C08 coordinates. *)
From Coq Require Import List ZArith Bool Ascii String.
From Verif Require Import Dmm.Model Dmm.Spec Dmm.KeyProofs Dmm.GridProofs.
Import ListNotations.
Open Scope Z_scope.

(** C06. Formatting succeeds exactly for the keys that fit, gives exactly [len] letters whose
    base-52 value is the key, and reading them back gives the key. *)
Theorem C06_format_then_read :
  forall len key, 1 <= len <= 12 -> 0 <= key <= KEY_MAX ->
  (format_key len key <> None <-> fits len key) /\
  (forall s, format_key len key = Some s ->
     Z.of_nat (List.length s) = len /\ Forall is_letter s /\ word_value s = key /\ read_key s = Some key).
Proof. exact format_key_lemma. Qed.
Print Assumptions C06_format_then_read.

Theorem C06_format_injective :
  forall len k1 k2 s, 1 <= len <= 12 -> 0 <= k1 <= KEY_MAX -> 0 <= k2 <= KEY_MAX ->
  format_key len k1 = Some s -> format_key len k2 = Some s -> k1 = k2.
Proof. exact format_key_inj. Qed.
Print Assumptions C06_format_injective.

(** Reading any text succeeds exactly when it is all letters with a value of at most 65535, and
    then gives that value: nothing wraps. *)
Theorem C06_read_exact :
  forall s v, read_key s = Some v <-> Forall is_letter s /\ v = word_value s /\ v <= KEY_MAX.
Proof. exact read_key_lemma. Qed.
Print Assumptions C06_read_exact.

Open Scope string_scope.
Example C06_demo : format_key 3 65534 = Some (list_ascii_of_string "ymo") /\
  read_key (list_ascii_of_string "ymo") = Some 65534 /\ format_key 2 2703 = Some (list_ascii_of_string "ZZ") /\
  format_key 2 2704 = None /\ read_key (list_ascii_of_string "ymq") = None /\
  read_key (list_ascii_of_string "a1") = None.
Proof. repeat split; vm_compute; reflexivity. Qed.
Close Scope string_scope.

(** C07. After adjusting, every key of a non-empty dictionary formats; with any shorter length some
    key does not. *)
Theorem C07_adjusted_length_fits_and_is_minimal :
  forall old keys, keys <> [] -> (forall k, In k keys -> 0 <= k <= KEY_MAX) ->
  let len := adjust_key_length old keys in
  1 <= len <= 3 /\
  (forall k, In k keys -> format_key len k <> None) /\
  (forall len', len' < len -> exists k, In k keys /\ format_key len' k = None).
Proof. exact adjust_lemma. Qed.
Print Assumptions C07_adjusted_length_fits_and_is_minimal.

Example C07_demo : adjust_key_length 1 [5; 52; 7] = 2 /\ adjust_key_length 3 [51] = 1 /\
  adjust_key_length 1 [2704; 3] = 3.
Proof. repeat split. Qed.

(** C08. For every map: indexing by a BYOND coordinate succeeds exactly inside the map; distinct
    coordinates are distinct cells and every cell (level, row from the top, column) has the
    coordinate with inverted y; iterating the levels gives z = 1.. in order, and iterating a level
    visits the coordinates in reading order with the same keys as indexing. *)
Theorem C08_coordinates :
  forall (A : Type) (g : grid3 A), grid3_ok g ->
  let '(dx, dy, dz) := dim_xyz g in
  (forall c, map_index g c <> None <-> in_map dx dy dz c) /\
  (forall c1 c2 r, to_raw3 c1 (g3_dim g) = Some r -> to_raw3 c2 (g3_dim g) = Some r -> c1 = c2) /\
  (forall z y x, (z < dz)%nat -> (y < dy)%nat -> (x < dx)%nat ->
     exists c, in_map dx dy dz c /\ to_raw3 c (g3_dim g) = Some (z, y, x) /\
       c = (Z.of_nat x + 1, Z.of_nat dy - Z.of_nat y, Z.of_nat z + 1)) /\
  map fst (iter_levels g) = map (fun z => Z.of_nat z + 1) (seq 0 dz) /\
  (forall z l, In (z, l) (iter_levels g) ->
     exists lvl, l = Some lvl /\
       map fst (iter_top_down lvl) = reading_order dx dy /\
       forall c k, In (c, k) (iter_top_down lvl) ->
         level_index lvl c = Some k /\ map_index g (c, z) = Some k).
Proof. exact @coords_lemma. Qed.
Print Assumptions C08_coordinates.

(** Reading order visits every coordinate of a level exactly once. *)
Theorem C08_reading_order :
  forall dx dy, NoDup (reading_order dx dy) /\ forall c, In c (reading_order dx dy) <-> in_level dx dy c.
Proof. exact reading_order_spec. Qed.
Print Assumptions C08_reading_order.

Example C08_demo : let g := {| g3_dim := (1, 2, 3)%nat; g3_data := [10; 11; 12; 20; 21; 22] |} in
  grid3_ok g /\ map_index g (1, 1, 1) = Some 20 /\ map_index g (3, 2, 1) = Some 12 /\
  map_index g (3, 3, 1) = None.
Proof. repeat split. Qed.
