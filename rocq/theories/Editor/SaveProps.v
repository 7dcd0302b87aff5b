(** C25 Saving an edited map preserves every tile. *)
From Coq Require Import List Arith ZArith Lia Bool Sorting.Permutation.
From Verif Require Import Common.Text Common.Order Editor.Pool Editor.Atoms Editor.AtomProps Editor.Save.
From Verif Require Dmm.Model Dmm.Props.
From Coq Require Import String.
Import ListNotations.
Open Scope nat_scope.

(** [Prefab ==] is an equivalence *)
Definition equivalence {P} (peq : P -> P -> bool) : Prop :=
  (forall a, peq a a = true) /\ (forall a b, peq a b = peq b a) /\
  (forall a b c, peq a b = true -> peq b c = true -> peq a c = true).

(** For every map, every iteration order of the hash tables and every base map: a tile that has atoms is
    written as a key whose dictionary entry is those atoms in order; two such tiles get the same key exactly
    when they hold the same atoms; every key of the dictionary can be written with the chosen key length. *)
Theorem C25_tiles_partial :
  forall (P SK V : Type) (peq : P -> P -> bool), equivalence peq ->
  forall (m : atom_map P SK V) order base out,
  order_of m order -> base_ok base -> save peq m order base = Some out ->
  (forall x y z, y < snd (size m) -> tile m x y z <> [] ->
     exists pl, Save.get Z.eqb (out_grid out (x, row m y, z)) (out_dict out) = Some pl /\ same_tile peq (tile m x y z) pl) /\
  (forall x y z x' y' z', y < snd (size m) -> y' < snd (size m) -> tile m x y z <> [] -> tile m x' y' z' <> [] ->
     (out_grid out (x, row m y, z) = out_grid out (x', row m y', z') <-> same_tile peq (tile m x y z) (tile m x' y' z'))) /\
  (forall k, In k (map fst (out_dict out)) -> (0 <= k <= 65535)%Z /\ Dmm.Model.format_key (out_key_length out) k <> None).
Proof. intros P SK V peq (R & S & T) m order base out Ho Hb H. exact (save_tiles peq R S T m order base out Ho Hb H). Qed.
Print Assumptions C25_tiles_partial.

(** A tile whose contents the base map has keeps a key that the base map gives to those contents. *)
Theorem C25_base_reuse :
  forall (P SK V : Type) (peq : P -> P -> bool), equivalence peq ->
  forall (m : atom_map P SK V) order base out,
  order_of m order -> dict_ok base -> (forall k, In k (map fst base) -> k <> 65535%Z) ->
  save peq m order (Some base) = Some out ->
  forall x y z k0 pl0, y < snd (size m) -> tile m x y z <> [] -> In (k0, pl0) base -> same_tile peq (tile m x y z) pl0 ->
  exists pl, In (out_grid out (x, row m y, z), pl) base /\ same_tile peq (tile m x y z) pl /\
    Save.get Z.eqb (out_grid out (x, row m y, z)) (out_dict out) = Some pl.
Proof.
  intros P SK V peq (R & S & T) m order base out Ho Hb Hk H. exact (save_base peq R S T m order (Some base) out Ho Hb H Hk).
Qed.
Print Assumptions C25_base_reuse.

(** Saving never panics when every atom lies inside the map and the number of different tile contents
    plus the size of the base dictionary is at most 65536. *)
Theorem C25_no_panic :
  forall (P SK V : Type) (peq : P -> P -> bool), equivalence peq ->
  forall (m : atom_map P SK V) order base kinds,
  order_of m order -> base_ok base -> inside m ->
  (forall x y z, y < snd (size m) -> tile m x y z <> [] -> exists r, In r kinds /\ same_tile peq (tile m x y z) r) ->
  (Z.of_nat (List.length kinds) + Z.of_nat (List.length (base_entries base)) <= 65536)%Z ->
  save peq m order base <> None.
Proof. intros P SK V peq (R & S & T) m order base kinds. exact (save_total peq R S T m order base kinds). Qed.
Print Assumptions C25_no_panic.

(** An iteration order exists for every map whose atoms lie inside it. *)
Theorem C25_order_exists :
  forall (P SK V : Type) (m : atom_map P SK V), inside m -> exists order, order_of m order.
Proof. intros P SK V m Hi. destruct (entries_total m Hi) as [es E]. exists (group es), es. split; [exact E | apply Permutation_refl]. Qed.
Print Assumptions C25_order_exists.

(** *** examples *)
Definition demo_eq (a b : text * nat) : bool := (snd a =? snd b).
Definition demo_save (m : option (atom_map (text * nat) nat nat)) base :=
  match m with
  | None => None
  | Some m => match entries m with Some es => save demo_eq m (group es) base | None => None end
  end.
Definition saved_keys (s : option (saved (text * nat))) cs :=
  option_map (fun s => (map (fun q => (fst q, map snd (snd q))) (out_dict s), map (out_grid s) cs, out_key_length s)) s.
Definition demo_m := demo_add 1 1 (lit "/obj/b", 5) (demo_add 2 2 (lit "/obj", 3) (demo_add 0 0 (lit "/obj/a", 5) (demo_add 1 1 (lit "/obj", 3) (Some demo_map)))).

Example C25_demo :
  saved_keys (demo_save demo_m (Some [(7%Z, [(lit "/obj/a", 5)]); (0%Z, [(lit "/obj", 9)])])) [(1, 3, 0); (0, 4, 0); (2, 2, 0)]
  = Some ([(7%Z, [5]); (0%Z, [3; 5]); (1%Z, [3])], [0; 7; 1]%Z, 1%Z).
Proof. vm_compute. reflexivity. Qed.

Definition is_some {A} (o : option A) : bool := match o with Some _ => true | None => false end.
Definition demo_m1 : atom_map (text * nat) nat nat := match demo_m with Some m => m | None => demo_map end.
(** Refuted clause: a tile that has lost all its atoms is not left empty in the file: the grid starts
    filled with key 0, which is the key of some other tile. *)
Theorem C25_empty_tile_refuted :
  exists (m : atom_map (text * nat) nat nat) order out,
    order_of m order /\ save demo_eq m order None = Some out /\ tile m 3 3 0 = [] /\
    exists pl, Save.get Z.eqb (out_grid out (3, row m 3, 0)) (out_dict out) = Some pl /\ pl <> [].
Proof.
  set (es := match entries demo_m1 with Some es => es | None => [] end).
  set (out := match save demo_eq demo_m1 (group es) None with Some o => o | None => {| out_dict := []; out_grid := fun _ => 0%Z; out_key_length := 0%Z |} end).
  exists demo_m1, (group es), out. split; [|split; [|split]].
  - exists es. split; [|apply Permutation_refl]. unfold es. assert (E : is_some (entries demo_m1) = true) by (vm_compute; reflexivity).
    destruct (entries demo_m1); [reflexivity | discriminate E].
  - unfold out. assert (E : is_some (save demo_eq demo_m1 (group es) None) = true) by (vm_compute; reflexivity).
    destruct (save demo_eq demo_m1 (group es) None); [reflexivity | discriminate E].
  - vm_compute. reflexivity.
  - exists [(lit "/obj", 3); (lit "/obj/b", 5)]. split; [vm_compute; reflexivity | discriminate].
Qed.
Print Assumptions C25_empty_tile_refuted.
