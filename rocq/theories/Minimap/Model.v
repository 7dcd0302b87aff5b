(** Model of crates/dmm-tools/src/minimap.rs lines 1-300: drawing a rectangle of a map level.

    A render pass is a record of functions.  All passes in the crate only push onto the vectors they
    are handed (render_passes/*.rs), so a pass returns what it pushes.  Simplification: the answers
    of a pass depend on its arguments only (the [Random] pass draws random numbers).  The set of
    error messages and what is printed are not modelled.  [None] is a panic. *)
From Coq Require Import List NArith ZArith Bool.
From Verif Require Import Common.Text Dmi.Model.
Import ListNotations.
Open Scope Z_scope.

Section Minimap.
  (** [F]: f32 (frame delays); [T]: types of the object tree; [V]: variables written in the map;
      [K]: dictionary keys. *)
  Context {F T V K : Type}.

  (** minimap.rs:437-442; [Ord] is derived: whole first, then frac *)
  Record Layer := { whole : Z; frac : Z }.

  (** minimap.rs:480-495 *)
  Record Sprite := {
    icon : text; icon_state : text; sdir : Dir; color : Rgba8;
    ofs_x : Z; ofs_y : Z; plane : Z; layer : Layer }.

  (** minimap.rs:270-275 *)
  Record Atom := { type_ : T; prefab : option V; sprite : Sprite }.

  (** dmm.rs:170-174 *)
  Record Prefab := { path : text; vars : V }.

  (** minimap.rs:307-312 *)
  Definition Neighborhood : Type := list (list Atom).

  (** render_passes/mod.rs:26-92; [expand], [overlays] and [neighborhood_appearance] return what they
      push *)
  Record RenderPass := {
    path_filter : text -> bool;
    early_filter : Atom -> bool;
    expand : Atom -> list Atom * bool;
    adjust_sprite : Atom -> Sprite -> Sprite;
    overlays : Atom -> list Sprite * list Sprite;
    neighborhood_appearance : Atom -> Neighborhood -> list Sprite * bool;
    late_filter : Atom -> bool;
    sprite_filter : Sprite -> bool }.

  (** dmm-tools/src/dmi.rs:27-33 *)
  Record IconFile := { metadata : @Metadata F; image : Image }.

  (** an [ndarray] view of one level, row by row from the top *)
  Record Level := { dim_y : Z; dim_x : Z; rows : list (list K) }.

  Context (find_type : text -> option T)          (** [ObjectTree::find] *)
          (default_sprite : Sprite)               (** minimap.rs:523-536 *)
          (from_vars : Atom -> Sprite)            (** minimap.rs:497-521 *)
          (dictionary : K -> option (list Prefab))
          (icon_cache : text -> option IconFile)  (** [IconCache::retrieve_shared] *)
          (passes : list RenderPass).

  Definition TILE_SIZE : Z := 32.

  (** minimap.rs:314-336 *)
  Definition dir_index (d : Dir) : nat :=
    match d with
    | North => 1 | South => 7 | East => 5 | West => 3
    | Northeast => 2 | Northwest => 0 | Southeast => 8 | Southwest => 6
    end.
  Definition nb_center (n : Neighborhood) : list Atom := nth 4 n [].
  Definition nb_offset (n : Neighborhood) (d : Dir) : list Atom := nth (dir_index d) n [].

  (** minimap.rs:278-284 from_prefab *)
  Definition from_prefab (fab : Prefab) : option Atom :=
    match find_type (path fab) with
    | Some t => Some {| type_ := t; prefab := Some (vars fab); sprite := default_sprite |}
    | None => None
    end.

  (** minimap.rs:256-262: the loop over [expand]; what was pushed before a pass says no stays *)
  Fixpoint expand_loop (ps : list RenderPass) (atom : Atom) (result : list Atom) : list Atom :=
    match ps with
    | [] => result ++ [atom]
    | p :: ps' =>
        let '(pushed, keep) := expand p atom in
        if keep then expand_loop ps' atom (result ++ pushed) else result ++ pushed
    end.

  (** minimap.rs:218-266 get_atom_list *)
  Fixpoint get_atom_list (prefabs : list Prefab) (result : list Atom) : list Atom :=
    match prefabs with
    | [] => result
    | fab :: rest =>
        get_atom_list rest
          (if forallb (fun p => path_filter p (path fab)) passes then
             match from_prefab fab with
             | None => result
             | Some atom =>
                 if forallb (fun p => early_filter p atom) passes then expand_loop passes atom result
                 else result
             end
           else result)
    end.

  (** minimap.rs:50-57: the map from keys to atom lists *)
  Definition atoms (k : K) : option (list Atom) :=
    option_map (fun fabs => get_atom_list fabs []) (dictionary k).

  (** [as i32] *)
  Definition as_i32 (z : Z) : Z := (z + 2 ^ 31) mod 2 ^ 32 - 2 ^ 31.
  Definition i32 (z : Z) : option Z := if in_i32 z then Some z else None.

  (** [grid[(y, x)]] *)
  Definition grid_at (lv : Level) (y x : Z) : option K :=
    match nth_error (rows lv) (Z.to_nat y) with
    | Some row => nth_error row (Z.to_nat x)
    | None => None
    end.

  (** minimap.rs:101-106 *)
  Definition GRID : list (Z * Z) :=
    [(-1, 1); (0, 1); (1, 1); (-1, 0); (0, 0); (1, 0); (-1, -1); (0, -1); (1, -1)].

  (** minimap.rs:107-115: one entry *)
  Definition neighbor (lv : Level) (x y : Z) (d : Z * Z) : option (list Atom) :=
    match i32 (as_i32 x + fst d), i32 (as_i32 y - snd d) with
    | Some new_x, Some new_y =>
        if (new_x <? 0) || (new_y <? 0) || (new_x >=? as_i32 (dim_x lv)) || (new_y >=? as_i32 (dim_y lv))
        then Some []
        else match grid_at lv new_y new_x with Some k => atoms k | None => None end
    | _, _ => None
    end.

  Fixpoint all_some {A : Type} (l : list (option A)) : option (list A) :=
    match l with
    | [] => Some []
    | Some a :: l' => option_map (cons a) (all_some l')
    | None :: _ => None
    end.

  Definition with_sprite (a : Atom) (s : Sprite) : Atom :=
    {| type_ := type_ a; prefab := prefab a; sprite := s |}.

  (** minimap.rs:76-136: the body of ['atom]; the two vectors are empty when it starts *)
  Definition atom_sprites (lv : Level) (x y : Z) (atom : Atom) : option (list ((Z * Z) * Sprite)) :=
    if forallb (fun p => late_filter p atom) passes then
      let sprite := fold_left (fun s p => adjust_sprite p atom s) passes (from_vars atom) in
      match icon sprite with
      | [] => Some []
      | _ =>
          let atom := with_sprite atom sprite in
          let underlays := flat_map (fun p => fst (overlays p atom)) passes in
          let overlays := flat_map (fun p => snd (overlays p atom)) passes in
          match all_some (map (neighbor lv x y) GRID) with
          | None => None
          | Some neighborhood =>
              let said := map (fun p => neighborhood_appearance p atom neighborhood) passes in
              let underlays := underlays ++ flat_map fst said in
              let underlays := if forallb snd said then underlays ++ [sprite] else underlays in
              let loc := (x mod 2 ^ 32, y mod 2 ^ 32) in
              Some (map (pair loc) underlays ++ map (pair loc) overlays)
          end
      end
    else Some [].

  (** results of a loop, one after the other *)
  Fixpoint concat_some {A : Type} (l : list (option (list A))) : option (list A) :=
    match l with
    | [] => Some []
    | Some a :: l' => option_map (app a) (concat_some l')
    | None :: _ => None
    end.

  Definition enumerate {A : Type} (l : list A) : list (Z * A) :=
    combine (map Z.of_nat (seq 0 (length l))) l.

  (** minimap.rs:69-137: one cell of a row *)
  Definition cell_sprites (lv : Level) (min max : Z * Z) (y : Z) (xe : Z * K)
    : option (list ((Z * Z) * Sprite)) :=
    let '(x, e) := xe in
    if (x <? fst min) || (x >? fst max) then Some []
    else match atoms e with
         | None => None
         | Some l => concat_some (map (atom_sprites lv x y) l)
         end.

  (** minimap.rs:64-138: one row *)
  Definition row_sprites (lv : Level) (min max : Z * Z) (min_y max_y : Z) (yrow : Z * list K)
    : option (list ((Z * Z) * Sprite)) :=
    let '(y, row) := yrow in
    if (y <? min_y) || (y >? max_y) then Some []
    else concat_some (map (cell_sprites lv min max y) (enumerate row)).

  (** the derived order on [(plane, layer)] *)
  Definition depth_leb (s t : Sprite) : bool :=
    if plane s =? plane t then
      if whole (layer s) =? whole (layer t) then frac (layer s) <=? frac (layer t)
      else whole (layer s) <? whole (layer t)
    else plane s <? plane t.

  (** minimap.rs:153: [sort_by_key] is a stable sort *)
  Fixpoint insert (x : (Z * Z) * Sprite) (l : list ((Z * Z) * Sprite)) : list ((Z * Z) * Sprite) :=
    match l with
    | [] => [x]
    | y :: l' => if depth_leb (snd x) (snd y) then x :: l else y :: insert x l'
    end.
  Definition sort_by_depth (l : list ((Z * Z) * Sprite)) : list ((Z * Z) * Sprite) :=
    fold_right insert [] l.

  (** [checked_sub] on u32 *)
  Definition checked_sub (x y : Z) : option Z := if x <? y then None else Some (x - y).

  (** minimap.rs:192-216 clip, one axis: position, start and size of the rectangle, size of the
      image.  [Panic]: overflow of [-loc], of the start or of the i32 sum; [Fail]: the [?] *)
  Definition clip_axis (bound loc start size : Z) : outcome (Z * Z * Z) :=
    bind (if loc <? 0 then
            if (negb (in_i32 (- loc))) || (2 ^ 32 <=? start + - loc) then Panic
            else match checked_sub size (- loc) with
                 | Some size => Done (0, start + - loc, size)
                 | None => Fail
                 end
          else Done (loc, start, size)) (fun '(loc, start, size) =>
    match i32 (loc + as_i32 size) with
    | None => Panic
    | Some s =>
        match i32 (s - as_i32 bound) with
        | None => Panic
        | Some overhang =>
            if overhang >? 0 then
              match checked_sub size overhang with
              | Some size => Done (loc, start, size)
              | None => Fail
              end
            else Done (loc, start, size)
        end
    end).

  (** minimap.rs:192-216 clip: the horizontal axis first *)
  Definition clip (bounds loc : Z * Z) (rect : Z * Z * Z * Z) : outcome ((Z * Z) * (Z * Z * Z * Z)) :=
    let '(r0, r1, r2, r3) := rect in
    bind (clip_axis (fst bounds) (fst loc) r0 r2) (fun '(x, r0, r2) =>
    bind (clip_axis (snd bounds) (snd loc) r1 r3) (fun '(y, r1, r3) =>
    Done ((x mod 2 ^ 32, y mod 2 ^ 32), (r0, r1, r2, r3)))).

  (** minimap.rs:164-169: where the rectangle goes; u32 and i32 overflow panic *)
  Definition place (min : Z * Z) (min_y : Z) (height : Z) (loc : Z * Z) (s : Sprite) : option (Z * Z) :=
    let '(x, y) := loc in
    let dx := x - fst min mod 2 ^ 32 in
    let dy := y + 1 - min_y mod 2 ^ 32 in
    match i32 (ofs_y s + as_i32 height) with
    | None => None
    | Some pixel_y =>
        if (dx <? 0) || (2 ^ 32 <=? dx * TILE_SIZE) || (2 ^ 32 <=? y + 1) || (dy <? 0) ||
           (2 ^ 32 <=? dy * TILE_SIZE) then None
        else match i32 (as_i32 (dx * TILE_SIZE) + ofs_x s), i32 (as_i32 (dy * TILE_SIZE) - pixel_y) with
             | Some px, Some py => Some (px, py)
             | _, _ => None
             end
    end.

  (** minimap.rs:157-185: one sprite *)
  Definition draw (min : Z * Z) (min_y : Z) (img : Image) (ls : (Z * Z) * Sprite) : option Image :=
    let '(loc, s) := ls in
    match icon_cache (icon s) with
    | None => Some img
    | Some icon_file =>
        match rect_of (metadata icon_file) (iwidth (image icon_file)) (icon_state s, 0) (sdir s) 0 with
        | Done (Some rect) =>
            match place min min_y (height (metadata icon_file)) loc s with
            | None => None
            | Some pos =>
                match clip (iwidth img, iheight img) pos rect with
                | Done (pos, rect) => composite img (image icon_file) pos rect (color s)
                | Fail => Some img
                | Panic => None
                end
            end
        | Done None => Some img
        | _ => None
        end
    end.

  Fixpoint draw_all (min : Z * Z) (min_y : Z) (img : Image) (l : list ((Z * Z) * Sprite)) : option Image :=
    match l with
    | [] => Some img
    | ls :: l' => match draw min min_y img ls with Some img' => draw_all min min_y img' l' | None => None end
    end.

  (** dmm-tools/src/dmi.rs:123-129 new_rgba *)
  Definition clear_pixel : Rgba8 := {| r := 0; g := 0; b := 0; a := 0 |}.
  Definition new_rgba (w h : Z) : Image :=
    {| iwidth := w; iheight := h; data := repeat clear_pixel (Z.to_nat (w * h)) |}.

  (** minimap.rs:35-188 generate; [min], [max]: first and last column and row, rows counted from the
      bottom.  The [usize] subtractions and the u32 size of the image panic on overflow. *)
  Definition generate (lv : Level) (min max : Z * Z) : option Image :=
    let min_y := dim_y lv - snd max - 1 in
    let max_y := dim_y lv - snd min - 1 in
    let len_x := fst max - fst min + 1 in
    let len_y := snd max - snd min + 1 in
    if (min_y <? 0) || (max_y <? 0) || (len_x <? 1) || (len_y <? 1) then None
    else
      match concat_some (map (row_sprites lv min max min_y max_y) (enumerate (rows lv))) with
      | None => None
      | Some sprites =>
          let sprites := filter (fun ls => forallb (fun p => sprite_filter p (snd ls)) passes) sprites in
          let sprites := sort_by_depth sprites in
          if (2 ^ 32 <=? len_x mod 2 ^ 32 * TILE_SIZE) || (2 ^ 32 <=? len_y mod 2 ^ 32 * TILE_SIZE) then None
          else draw_all min min_y (new_rgba (len_x mod 2 ^ 32 * TILE_SIZE) (len_y mod 2 ^ 32 * TILE_SIZE)) sprites
      end.
End Minimap.

(** dmm-tools-cli/src/main.rs:489-497 *)
Definition clamp (val min max : Z) : Z := if val <? min then min else if val >? max then max else val.

(** dmm-tools-cli/src/main.rs:281-294: the columns (or rows) of the minimap command, from 1 *)
Definition command_range (dim : Z) (min max : option Z) : Z * Z :=
  let min := match min with Some m => m | None => 0 end in
  let max := match max with Some m => m | None => dim + 1 end in
  let min := clamp min 1 dim in
  (min, clamp max min dim).

(** dmm-tools-cli/src/main.rs:644-651: the columns (or rows) of a chunk of render-many, from 0;
    [None]: [usize] underflow *)
Definition chunk_range (dim : Z) (min max : option Z) : option (Z * Z) :=
  let min := Z.max (match min with Some m => m | None => 1 end) 1 - 1 in
  let max := Z.min (match max with Some m => m | None => dim end) dim - 1 in
  if max <? 0 then None else Some (min, max).
