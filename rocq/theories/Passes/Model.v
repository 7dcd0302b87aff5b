(** Model of crates/dmm-tools/src/render_passes: choosing the passes (mod.rs:209-249), layers
    (mod.rs:592-715), hiding (mod.rs:287-341), icon smoothing (icon_smoothing*.rs) and cables
    (smart_cables.rs).

    Simplifications: an atom's variables are given by [var] (C62 is about where they come from); a type is known
    by its path; the icon file of a sprite is copied from the atom as in the code ([..atom.sprite]). *)
From Coq Require Import List NArith ZArith Bool String.
From Verif Require Import Common.Text Objtree.Ispath Const.Model Dmi.Model Minimap.Model.
Import ListNotations.
Open Scope Z_scope.

(** ** Choosing the passes *)

(** mod.rs:94-99 RenderPassInfo, without the description and the constructor *)
Record PassInfo := { pass_name : text; pass_default : bool }.

Definition any_is (name : text) (l : list text) : bool := existsb (fun n => text_eqb n name) l.

(** mod.rs:219-249 configure_list; [config]: [renderer_config.render_passes.get] *)
Definition included (config : text -> option bool) (incl excl : list text) (p : PassInfo) : bool :=
  let include_all := any_is (lit "all") incl in
  let exclude_all := any_is (lit "all") excl in
  if any_is (pass_name p) incl then true
  else if any_is (pass_name p) excl then false
  else if include_all then true
  else if exclude_all then false
  else match config (pass_name p) with Some value => value | None => pass_default p end.
Definition configure_list (passes : list PassInfo) (config : text -> option bool) (incl excl : list text) : list text :=
  map pass_name (filter (included config incl excl) passes).

(** mod.rs:209-217 configure *)
Definition configure (passes : list PassInfo) (config : text -> option bool) (incl excl : text) : list text :=
  configure_list passes config (split_char 44%N incl) (split_char 44%N excl).

(** ** Layers by type *)

(** [str::len]: bytes *)
Definition blen (s : text) : N := fold_right (fun c n => (len_utf8 c + n)%N) 0%N s.

(** mod.rs:606-611 [ends_with], [push] *)
Definition with_slash (key : text) : text := if text_eqb (firstn 1 (rev key)) [SLASH] then key else key ++ [SLASH].

(** mod.rs:598-612 FancyLayers::configure, from the entries of the hash map in any order: [sorted] is
    what [sort_unstable_by_key(|(k, _)| usize::MAX - k.len())] makes of them *)
Definition overrides {A : Type} (sorted : list (text * A)) : list (text * A) :=
  map (fun e => (with_slash (fst e), snd e)) sorted.

(** mod.rs:675-680: the loop over the overrides; [builtin]: mod.rs:682-707 *)
Fixpoint fancy_layer_for_path {A : Type} (builtin : text -> option A) (l : list (text * A)) (p : text) : option A :=
  match l with
  | [] => builtin p
  | (key, val) :: l' => if ispath p key then Some val else fancy_layer_for_path builtin l' p
  end.

(** mod.rs:710-715 apply_fancy_layer *)
Definition apply_fancy_layer (builtin : text -> option Layer) (l : list (text * Layer)) (p : text) (s : Sprite) : Sprite :=
  {| icon := icon s; icon_state := icon_state s; sdir := sdir s; color := color s; ofs_x := ofs_x s; ofs_y := ofs_y s;
     plane := 0; layer := match fancy_layer_for_path builtin l p with Some x => x | None => layer s end |}.

Section Passes.
  (** [F], [fl]: floats; [f_int]: [as i32]; [f_gt60]: [> 60.] *)
  Context (F : Type) (fl : f32 F) (f_int : F -> Z) (f_gt60 : F -> bool) {T V : Type}.
  Local Notation constant := (constant F).
  Local Notation Atom := (@Atom T V).
  Local Notation Neighborhood := (@Neighborhood T V).
  Context (path_of : T -> text) (var : Atom -> text -> constant) (from_vars : Atom -> Sprite).
  (** [Atom::from(objtree.expect(path))], as a sprite *)
  Context (sprite_of_type : text -> Sprite).

  (** constants.rs:222-241 *)
  Definition to_int (c : constant) : option Z := match c with CFloat f => Some (f_int f) | _ => None end.
  Definition as_str (c : constant) : option text := match c with CString s => Some s | _ => None end.
  Definition as_path_str (c : constant) : option text :=
    match c with CString s => Some s | CResource s => Some s | _ => None end.
  (** constants.rs:332-339 *)
  Definition eq_str (c : constant) (s : text) : bool :=
    match c with CString t => text_eqb t s | CResource t => text_eqb t s | _ => false end.
  Definition or {A} (o : option A) (d : A) : A := match o with Some x => x | None => d end.

  (** minimap.rs:286-288 *)
  Definition istype (a : Atom) (parent : text) : bool := ispath (path_of (type_ a)) parent.
  Definition truth (a : Atom) (name : text) : bool := to_bool F fl (var a name).

  (** ** Hiding *)
  (** mod.rs:309-340 HideInvisible::early_filter; [l] as for layers *)
  Definition hide_invisible (l : list text) (a : Atom) : bool :=
    if existsb (istype a) l then false
    else if (match var a (lit "invisibility") with CFloat f => f_gt60 f | _ => false end) ||
            istype a (lit "/obj/effect/mapping_helpers/") then false
    else if eq_str (var a (lit "icon")) (lit "icons/obj/items_and_weapons.dmi") &&
            eq_str (var a (lit "icon_state")) (lit "syndballoon") &&
            negb (istype a (lit "/obj/item/toy/syndicateballoon/")) then false
    else true.

  (** ** Icon smoothing *)

  Definition bit (flags : Z) (k : Z) : bool := negb (Z.land flags (2 ^ k) =? 0).

  (** icon_smoothing_2020.rs:14-32, icon_smoothing_2025.rs:14-28: bit numbers *)
  Definition NORTH_J := 0. Definition SOUTH_J := 1. Definition EAST_J := 2. Definition WEST_J := 3.
  Definition NORTHEAST_J := 4. Definition SOUTHEAST_J := 5. Definition SOUTHWEST_J := 6. Definition NORTHWEST_J := 7.
  Definition SMOOTH_CORNERS := 0. Definition SMOOTH_BITMASK := 1. Definition SMOOTH_DIAGONAL_CORNERS := 2. Definition SMOOTH_BORDER := 3.

  (** icon_smoothing_2020.rs:152-187, 2025.rs:138-173 find_type_in_direction; [HashSet::intersection] of two sets is
      not empty iff they have equal elements (C48) *)
  Definition find_type_in_direction (n : Neighborhood) (source : Atom) (d : Dir) (smooth_flags : Z) : bool :=
    match nb_offset n d with
    | [] => bit smooth_flags SMOOTH_BORDER
    | atom_list =>
        match var source (lit "canSmoothWith") with
        | CList elements =>
            existsb (fun a => match var a (lit "smoothing_groups") with
                              | CList elements2 =>
                                  existsb (fun x => existsb (fun y => const_eqb F fl (fst x) (fst y)) elements2) elements
                              | _ => false
                              end) atom_list
        | _ => existsb (fun a => text_eqb (path_of (type_ a)) (path_of (type_ source))) atom_list
        end
    end.

  (** [adjacencies |= check_one(dir, flag)] *)
  Definition check_one (n : Neighborhood) (a : Atom) (flags : Z) (d : Dir) (k : Z) (adj : Z) : Z :=
    Z.lor adj (if find_type_in_direction n a d flags then 2 ^ k else 0).

  (** icon_smoothing_2020.rs:98-150, 2025.rs:84-136 calculate_adjacencies *)
  Definition calculate_adjacencies (n : Neighborhood) (a : Atom) (flags : Z) : Z :=
    if istype a (lit "/atom/movable/") && (truth a (lit "can_be_unanchored") && negb (truth a (lit "anchored"))) then 0
    else
      let one := check_one n a flags in
      let adj := one West WEST_J (one East EAST_J (one South SOUTH_J (one North NORTH_J 0))) in
      let adj :=
        if bit adj NORTH_J then
          let adj := if bit adj WEST_J then one Northwest NORTHWEST_J adj else adj in
          if bit adj EAST_J then one Northeast NORTHEAST_J adj else adj
        else adj in
      if bit adj SOUTH_J then
        let adj := if bit adj WEST_J then one Southwest SOUTHWEST_J adj else adj in
        if bit adj EAST_J then one Southeast SOUTHEAST_J adj else adj
      else adj.

  Definition with_state (s : Sprite) (state : text) : Sprite :=
    {| icon := icon s; icon_state := state; sdir := sdir s; color := color s; ofs_x := ofs_x s; ofs_y := ofs_y s;
       plane := plane s; layer := layer s |}.
  Definition with_icon (s : Sprite) (name : text) : Sprite :=
    {| icon := name; icon_state := icon_state s; sdir := sdir s; color := color s; ofs_x := ofs_x s; ofs_y := ofs_y s;
       plane := plane s; layer := layer s |}.

  (** icon_smoothing_2020.rs:241-248 and others: a copy of the sprite with another state *)
  Definition smoothed (source : Atom) (state : text) : Sprite :=
    let sprite := with_state (sprite source) state in
    match as_path_str (var source (lit "smooth_icon")) with
    | Some name => with_icon sprite name
    | None => sprite
    end.

  (** icon_smoothing_2020.rs:227-239: the name of one corner *)
  Definition corner (adj : Z) (what : text) (f1 : Z) (n1 : text) (f2 : Z) (n2 : text) (f3 : Z) : text :=
    what ++ [45%N] ++
    (if bit adj f1 && bit adj f2 then if bit adj f3 then lit "f" else n1 ++ n2
     else if bit adj f1 then n1
     else if bit adj f2 then n2
     else lit "i").

  (** icon_smoothing_2020.rs:189-250 cardinal_smooth *)
  Definition cardinal_smooth (source : Atom) (adj : Z) : list Sprite :=
    [smoothed source (corner adj (lit "1") NORTH_J (lit "n") WEST_J (lit "w") NORTHWEST_J);
     smoothed source (corner adj (lit "2") NORTH_J (lit "n") EAST_J (lit "e") NORTHEAST_J);
     smoothed source (corner adj (lit "3") SOUTH_J (lit "s") WEST_J (lit "w") SOUTHWEST_J);
     smoothed source (corner adj (lit "4") SOUTH_J (lit "s") EAST_J (lit "e") SOUTHEAST_J)].

  (** icon_smoothing_2020.rs:339-362, 2025.rs:214-237 reverse_ndir *)
  Definition reverse_ndir (ndir : Z) : option Dir :=
    let is l := ndir =? fold_right Z.lor 0 (map (fun k => 2 ^ k) l) in
    if is [NORTH_J] then Some North
    else if is [SOUTH_J] then Some South
    else if is [WEST_J] then Some West
    else if is [EAST_J] then Some East
    else if is [SOUTHEAST_J] || is [SOUTH_J; EAST_J] || is [SOUTH_J; EAST_J; SOUTHEAST_J] then Some Southeast
    else if is [SOUTHWEST_J] || is [SOUTH_J; WEST_J] || is [SOUTH_J; WEST_J; SOUTHWEST_J] then Some Southwest
    else if is [NORTHEAST_J] || is [NORTH_J; EAST_J] || is [NORTH_J; EAST_J; NORTHEAST_J] then Some Northeast
    else if is [NORTHWEST_J] || is [NORTH_J; WEST_J] || is [NORTH_J; WEST_J; NORTHWEST_J] then Some Northwest
    else None.

  (** constants.rs:279-295 index, for a string *)
  Definition index_str (c : constant) (key : text) : option constant :=
    match c with
    | CList elements =>
        match find (fun e => const_eqb F fl (CString key) (fst e)) elements with
        | Some e => snd e
        | None => None
        end
    | _ => None
    end.

  (** icon_smoothing_2020.rs:300-337, 2025.rs:175-212 diagonal_underlay *)
  Definition diagonal_underlay (n : Neighborhood) (source : Atom) (adj : Z) : list Sprite :=
    match index_str (var source (lit "fixed_underlay")) (lit "space") with
    | Some _ => [sprite_of_type (lit "/turf/open/space/basic")]
    | None =>
        match reverse_ndir adj with
        | Some dir =>
            let dir := flip dir in
            match find (fun a => istype a (lit "/turf/open/"))
                       (nb_offset n dir ++ nb_offset n (counterclockwise_45 dir) ++ nb_offset n (clockwise_45 dir)) with
            | Some a => [from_vars a]
            | None => [sprite_of_type (lit "/turf/open/floor/plating")]
            end
        | None => []
        end
    end.

  (** icon_smoothing_2020.rs:260-278: the two states; [None]: smooth cardinally *)
  Definition presets (adj : Z) : option (text * text) :=
    let is l := adj =? fold_right Z.lor 0 (map (fun k => 2 ^ k) l) in
    if is [NORTH_J; WEST_J] then Some (lit "d-se", lit "d-se-0")
    else if is [NORTH_J; EAST_J] then Some (lit "d-sw", lit "d-sw-0")
    else if is [SOUTH_J; WEST_J] then Some (lit "d-ne", lit "d-ne-0")
    else if is [SOUTH_J; EAST_J] then Some (lit "d-nw", lit "d-nw-0")
    else if is [NORTH_J; WEST_J; NORTHWEST_J] then Some (lit "d-se", lit "d-se-1")
    else if is [NORTH_J; EAST_J; NORTHEAST_J] then Some (lit "d-sw", lit "d-sw-1")
    else if is [SOUTH_J; WEST_J; SOUTHWEST_J] then Some (lit "d-ne", lit "d-ne-1")
    else if is [SOUTH_J; EAST_J; SOUTHEAST_J] then Some (lit "d-nw", lit "d-nw-1")
    else None.

  (** icon_smoothing_2020.rs:252-298 diagonal_smooth *)
  Definition diagonal_smooth (n : Neighborhood) (source : Atom) (adj : Z) : list Sprite :=
    match presets adj with
    | None => cardinal_smooth source adj
    | Some (s1, s2) =>
        (if istype source (lit "/turf/closed/wall/") then diagonal_underlay n source adj else []) ++
        [smoothed source s1; smoothed source s2]
    end.

  (** [{}] of a number below 1000 *)
  Definition dec (z : Z) : text :=
    let d k := Z.to_N (48 + (z / k) mod 10) in
    if z <? 10 then [d 1] else if z <? 100 then [d 10; d 1] else [d 100; d 10; d 1].

  (** icon_smoothing_2020.rs:367-408, 2025.rs:242-288 bitmask_smooth; [post]: 2025 leaves objects with
      post_init_icon_state alone (after the underlay) *)
  Definition bitmask_smooth (post : bool) (n : Neighborhood) (source : Atom) (junction flags : Z) : list Sprite * bool :=
    if istype source (lit "/turf/open/floor/") && (truth source (lit "broken") || truth source (lit "burnt")) then ([], true)
    else
      let diagonal := negb (istype source (lit "/turf/open/floor/")) && istype source (lit "/turf/closed/") &&
                      bit flags SMOOTH_DIAGONAL_CORNERS && (match reverse_ndir junction with Some _ => true | None => false end) in
      let under := if diagonal then diagonal_underlay n source junction else [] in
      if post && negb (match var source (lit "post_init_icon_state") with CNull _ => true | _ => false end) then (under, true)
      else
        let base := or (as_str (var source (lit "base_icon_state"))) [] in
        (under ++ [smoothed source (base ++ [45%N] ++ dec junction ++ (if diagonal then lit "-d" else []))], false).

  (** icon_smoothing_2020.rs:57-93 neighborhood_appearance; [mask] is [!0] by default *)
  Definition smooth_2020 (mask : Z) (a : Atom) (n : Neighborhood) : list Sprite * bool :=
    let flags := Z.land mask (or (to_int (var a (lit "smoothing_flags"))) 0) in
    if bit flags SMOOTH_CORNERS then
      let adj := calculate_adjacencies n a flags in
      (if bit flags SMOOTH_DIAGONAL_CORNERS then diagonal_smooth n a adj else cardinal_smooth a adj, false)
    else if bit flags SMOOTH_BITMASK then bitmask_smooth false n a (calculate_adjacencies n a flags) flags
    else ([], true).

  (** icon_smoothing_2025.rs:53-79: here the bitmask has bit 0 *)
  Definition smooth_2025 (mask : Z) (a : Atom) (n : Neighborhood) : list Sprite * bool :=
    let flags := Z.land mask (or (to_int (var a (lit "smoothing_flags"))) 0) in
    if bit flags 0 then bitmask_smooth true n a (calculate_adjacencies n a flags) flags
    else ([], true).

  (** ** The older pass *)

  (** icon_smoothing.rs:23-26 *)
  Definition SMOOTH_TRUE := 0. Definition SMOOTH_MORE := 1.

  (** icon_smoothing.rs:151-158 smoothlist_contains *)
  Definition smoothlist_contains (l : list (constant * option constant)) (desired : text) : bool :=
    existsb (fun e => eq_str (fst e) desired) l.

  (** [&path[..path.rfind('/').unwrap()]] *)
  Fixpoint cut_last (path : text) : option text :=
    match path with
    | [] => None
    | c :: p => match cut_last p with
                | Some q => Some (c :: q)
                | None => if N.eqb c SLASH then Some [] else None
                end
    end.
  (** icon_smoothing.rs:124-130: the loop up the path; [None] = panic of [unwrap] *)
  Fixpoint climb_path (fuel : nat) (l : list (constant * option constant)) (path : text) : option bool :=
    match path with
    | [] => Some false
    | _ =>
        if smoothlist_contains l path then Some true
        else match fuel, cut_last path with
             | S fuel', Some p => climb_path fuel' l p
             | _, _ => None
             end
    end.
  Fixpoint climb_atoms (l : list (constant * option constant)) (atoms : list Atom) : option bool :=
    match atoms with
    | [] => Some false
    | a :: atoms' =>
        let path := path_of (type_ a) in
        match climb_path (List.length path) l path with
        | Some true => Some true
        | Some false => climb_atoms l atoms'
        | None => None
        end
    end.
  (** icon_smoothing.rs:105-149 find_type_in_direction *)
  Definition find_type_2016 (n : Neighborhood) (source : Atom) (d : Dir) (smooth_flags : Z) : option bool :=
    match nb_offset n d with
    | [] => Some (bit smooth_flags SMOOTH_BORDER)
    | atom_list =>
        match var source (lit "canSmoothWith") with
        | CList elements =>
            if bit smooth_flags SMOOTH_MORE then climb_atoms elements atom_list
            else Some (existsb (fun a => smoothlist_contains elements (path_of (type_ a))) atom_list)
        | _ => Some (existsb (fun a => text_eqb (path_of (type_ a)) (path_of (type_ source))) atom_list)
        end
    end.

  (** ** Cables *)
  Definition CARDINALS : list Dir := [North; South; East; West].

  Definition cable_layer (a : Atom) : text := or (as_str (var a (lit "cable_layer"))) (lit "l2").

  (** smart_cables.rs:26-34: what stands on the cable's own tile; a terminal is looked for first *)
  Definition under_terminal (tile : list Atom) : bool := existsb (fun a => istype a (lit "/obj/machinery/power/terminal/")) tile.
  Definition under_smes (tile : list Atom) : bool :=
    existsb (fun a => negb (istype a (lit "/obj/machinery/power/terminal/")) && istype a (lit "/obj/machinery/power/smes/")) tile.

  (** smart_cables.rs:38-67: is there a link to the tile [turf] *)
  Definition links (center : list Atom) (layer : text) (turf : list Atom) : bool :=
    if (if under_smes center then existsb (fun a => istype a (lit "/obj/machinery/power/terminal/")) turf
        else if under_terminal center then existsb (fun a => istype a (lit "/obj/machinery/power/smes/")) turf
        else false) then false
    else existsb (fun a => istype a (lit "/obj/structure/cable/") && text_eqb (cable_layer a) layer) turf.

  (** smart_cables.rs:37-67 *)
  Definition linked_dirs (n : Neighborhood) (layer : text) : Z :=
    fold_left (fun acc d => if links (nb_center n) layer (nb_offset n d) then Z.lor acc (Dmi.Model.to_int d) else acc) CARDINALS 0.

  (** smart_cables.rs:96-107 should_have_node *)
  Definition should_have_node (turf : list Atom) : bool :=
    existsb (fun a => istype a (lit "/obj/structure/grille/") || istype a (lit "/obj/structure/cable_bridge/") ||
                      istype a (lit "/obj/machinery/power/")) turf.

  (** smart_cables.rs:69-86 *)
  Definition cable_state (n : Neighborhood) (layer : text) : text :=
    let linked := linked_dirs n layer in
    if linked =? 0 then layer ++ lit "-noconnection"
    else
      let dirs := filter (fun d => negb (Z.land linked (Dmi.Model.to_int d) =? 0)) CARDINALS in
      layer ++ flat_map (fun d => 45%N :: dec (Dmi.Model.to_int d)) dirs ++
      (if (1 <? List.length dirs)%nat && should_have_node (nb_center n) then lit "-node" else []).

  (** smart_cables.rs:9-93 neighborhood_appearance *)
  Definition smart_cables (a : Atom) (n : Neighborhood) : list Sprite * bool :=
    if negb (istype a (lit "/obj/structure/cable/")) || istype a (lit "/obj/structure/cable/multilayer") then ([], true)
    else ([with_state (sprite a) (cable_state n (cable_layer a))], false).
End Passes.
