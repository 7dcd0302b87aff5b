(** What the render passes are meant to do. *)
From Coq Require Import List NArith ZArith Bool String Permutation Sorted.
From Verif Require Import Common.Text Objtree.Ispath Const.Model Dmi.Model Minimap.Model Passes.Model.
Import ListNotations.
Open Scope Z_scope.

(** ** Choosing the passes *)

(** the command line decides first, names before "all" and inclusion before exclusion; then the configuration file;
    then the pass itself *)
Inductive wanted (config : text -> option bool) (incl excl : list text) (p : PassInfo) : Prop :=
| by_name : In (pass_name p) incl -> wanted config incl excl p
| by_all : ~ In (pass_name p) excl -> In (lit "all") incl -> wanted config incl excl p
| by_config : ~ In (pass_name p) excl -> ~ In (lit "all") excl -> config (pass_name p) = Some true -> wanted config incl excl p
| by_default : ~ In (pass_name p) excl -> ~ In (lit "all") excl -> config (pass_name p) = None -> pass_default p = true ->
    wanted config incl excl p.

(** [part P l k]: [k] has the elements of [l] in [P], in the same order *)
Inductive part {A B : Type} (P : A -> Prop) (f : A -> B) : list A -> list B -> Prop :=
| part_nil : part P f [] []
| part_in x l k : P x -> part P f l k -> part P f (x :: l) (f x :: k)
| part_out x l k : ~ P x -> part P f l k -> part P f (x :: l) k.

(** [listed s n]: the text [s] lists the name [n] between commas *)
Definition listed (s n : text) : Prop :=
  ~ In 44%N n /\ exists a b, s = a ++ n ++ b /\ (a = [] \/ exists a', a = a' ++ [44%N]) /\ (b = [] \/ exists b', b = 44%N :: b').

(** ** Types in the configuration *)

(** a type path with the components [cs] *)
Definition type_path (p : text) (cs : list text) : Prop := (forall c, In c cs -> slash_free c) /\ p = render cs.
(** [names key ks]: [key] means the type with components [ks]; a slash may follow *)
Definition names (key : text) (ks : list text) : Prop :=
  (forall c, In c ks -> slash_free c) /\ (ks = [] \/ last ks [] <> []) /\ (key = render ks \/ key = render ks ++ [SLASH]).
(** the type [cs] is [ks] or lies below it *)
Definition is_under (cs ks : list text) : Prop := exists rest, cs = ks ++ rest.

(** what sorting by length can make of the entries of a hash map *)
Definition sorted_from {A : Type} (conf : list (text * A)) (sorted : list (text * A)) : Prop :=
  Permutation conf sorted /\ StronglySorted (fun x y => (blen (fst y) <= blen (fst x))%N) sorted.

(** ** Smoothing *)
Section Smooth.
  Context (F : Type) (fl : f32 F) {T V : Type}.
  Local Notation constant := (constant F).
  Local Notation Atom := (@Atom T V).
  Local Notation Neighborhood := (@Neighborhood T V).
  Context (path_of : T -> text) (var : Atom -> text -> constant).

  (** the object joins up with the tile in direction [d]: at the border of the map if it is told to by bit 3 of
      its flags; with the groups it lists, if it has a list; otherwise with its own type *)
  Inductive joins (n : Neighborhood) (a : Atom) (flags : Z) (d : Dir) : Prop :=
  | joins_border : nb_offset n d = [] -> Z.testbit flags 3 = true -> joins n a flags d
  | joins_group l b k x y :
      var a (lit "canSmoothWith") = CList l -> In b (nb_offset n d) -> var b (lit "smoothing_groups") = CList k ->
      In x l -> In y k -> const_eqb F fl (fst x) (fst y) = true -> joins n a flags d
  | joins_self b :
      (forall l, var a (lit "canSmoothWith") <> CList l) -> In b (nb_offset n d) -> path_of (type_ b) = path_of (type_ a) ->
      joins n a flags d.

  (** a diagonal counts only between two sides that count *)
  Definition joins_corner (n : Neighborhood) (a : Atom) (flags : Z) (v h c : Dir) : Prop :=
    joins n a flags v /\ joins n a flags h /\ joins n a flags c.

  (** [junction n a flags j]: the number made of these bits *)
  Definition junction (n : Neighborhood) (a : Atom) (flags : Z) (j : Z) : Prop :=
    0 <= j < 256 /\
    (Z.testbit j 0 = true <-> joins n a flags North) /\ (Z.testbit j 1 = true <-> joins n a flags South) /\
    (Z.testbit j 2 = true <-> joins n a flags East) /\ (Z.testbit j 3 = true <-> joins n a flags West) /\
    (Z.testbit j 4 = true <-> joins_corner n a flags North East Northeast) /\
    (Z.testbit j 5 = true <-> joins_corner n a flags South East Southeast) /\
    (Z.testbit j 6 = true <-> joins_corner n a flags South West Southwest) /\
    (Z.testbit j 7 = true <-> joins_corner n a flags North West Northwest).

  (** the piece for one corner: [v], [h] the letters of its sides *)
  Inductive piece (n : Neighborhood) (a : Atom) (flags : Z) (v h c : Dir) (vs hs : text) : text -> Prop :=
  | piece_full : joins n a flags v -> joins n a flags h -> joins n a flags c -> piece n a flags v h c vs hs (lit "f")
  | piece_both : joins n a flags v -> joins n a flags h -> ~ joins n a flags c -> piece n a flags v h c vs hs (vs ++ hs)
  | piece_v : joins n a flags v -> ~ joins n a flags h -> piece n a flags v h c vs hs vs
  | piece_h : ~ joins n a flags v -> joins n a flags h -> piece n a flags v h c vs hs hs
  | piece_none : ~ joins n a flags v -> ~ joins n a flags h -> piece n a flags v h c vs hs (lit "i").

  (** two neighbouring sides join and nothing else does, except the tile between them *)
  Definition is_corner (n : Neighborhood) (a : Atom) (flags : Z) : Prop :=
    (joins n a flags North <-> ~ joins n a flags South) /\ (joins n a flags East <-> ~ joins n a flags West).

  (** the sprite of an object with another state, and another icon file if smooth_icon has one *)
  Definition shows_state (a : Atom) (state : text) (s : Sprite) : Prop :=
    icon_state s = state /\ sdir s = sdir (sprite a) /\ color s = color (sprite a) /\ ofs_x s = ofs_x (sprite a) /\
    ofs_y s = ofs_y (sprite a) /\ plane s = plane (sprite a) /\ layer s = layer (sprite a) /\
    (forall name, var a (lit "smooth_icon") = CString name \/ var a (lit "smooth_icon") = CResource name -> icon s = name) /\
    ((forall name, var a (lit "smooth_icon") <> CString name /\ var a (lit "smooth_icon") <> CResource name) -> icon s = icon (sprite a)).

  (** a decimal number without leading zeros *)
  Definition written (s : text) (z : Z) : Prop :=
    digits_value 0 s = Some (Z.to_N z) /\ s <> [] /\ (forall s', s = 48%N :: s' -> s' = []).
End Smooth.

(** ** Cables *)
Section Cables.
  Context (F : Type) {T V : Type}.
  Local Notation constant := (constant F).
  Local Notation Atom := (@Atom T V).
  Local Notation Neighborhood := (@Neighborhood T V).
  Context (path_of : T -> text) (var : Atom -> text -> constant).

  (** something of the type [p] or below it stands on the tile *)
  Definition stands (tile : list Atom) (p : text) : Prop := exists a, In a tile /\ ispath (path_of (type_ a)) p = true.

  (** the layer of a cable, the second if it does not say *)
  Definition on_layer (a : Atom) (l : text) : Prop :=
    var a (lit "cable_layer") = CString l \/ (l = lit "l2" /\ forall s, var a (lit "cable_layer") <> CString s).
  Definition has_cable (tile : list Atom) (l : text) : Prop :=
    exists a, In a tile /\ ispath (path_of (type_ a)) (lit "/obj/structure/cable") = true /\ on_layer a l.

  (** a storage unit is not wired to its own terminal *)
  Definition smes := lit "/obj/machinery/power/smes".
  Definition terminal := lit "/obj/machinery/power/terminal".
  Definition separated (here there : list Atom) : Prop :=
    (stands here smes /\ stands there terminal) \/ (~ stands here smes /\ stands here terminal /\ stands there smes).
  (** the cable of the layer [l] on the tile [here] reaches over to [there] *)
  Definition reaches (l : text) (here there : list Atom) : Prop := has_cable there l /\ ~ separated here there.

  Definition needs_node (tile : list Atom) : Prop :=
    stands tile (lit "/obj/structure/grille") \/ stands tile (lit "/obj/structure/cable_bridge") \/ stands tile (lit "/obj/machinery/power").

  (** the name of the state: the layer and the numbers of the directions it reaches in, in ascending order *)
  Definition side (d : Dir) : text :=
    match d with North => lit "-1" | South => lit "-2" | East => lit "-4" | West => lit "-8" | _ => [] end.
  Definition cable_name (n : Neighborhood) (l : text) (state : text) : Prop :=
    exists ks, part (fun d => reaches l (nb_center n) (nb_offset n d)) side [North; South; East; West] ks /\
      (ks = [] -> state = l ++ lit "-noconnection") /\
      (List.length ks = 1%nat \/ (ks <> [] /\ ~ needs_node (nb_center n)) -> state = l ++ List.concat ks) /\
      ((2 <= List.length ks)%nat -> needs_node (nb_center n) -> state = l ++ List.concat ks ++ lit "-node").
End Cables.
