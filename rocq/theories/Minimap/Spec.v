(** What a drawing of a map shows, in the map's own coordinates: tile (0, 0) is at the bottom left,
    pixel (0, 0) at its bottom left corner, x to the right and y upwards. *)
From Coq Require Import List NArith ZArith Bool Sorting.Sorted.
From Verif Require Import Common.Text Dmi.Model Dmi.Spec Minimap.Model.
Import ListNotations.
Open Scope Z_scope.

Section Spec.
  Context {F T V K : Type}.
  Local Notation Atom := (@Atom T V).
  Local Notation Prefab := (@Prefab V).
  Local Notation RenderPass := (@RenderPass T V).
  Local Notation IconFile := (@IconFile F).
  Local Notation Level := (@Level K).
  Context (find_type : text -> option T) (default_sprite : Sprite) (from_vars : Atom -> Sprite)
          (dictionary : K -> option (list Prefab)) (icon_cache : text -> option IconFile)
          (passes : list RenderPass).

  (** ** The map *)
  Definition level_ok (lv : Level) : Prop :=
    0 <= dim_x lv < 2 ^ 30 /\ 0 <= dim_y lv < 2 ^ 30 /\
    Z.of_nat (length (rows lv)) = dim_y lv /\
    (forall row, In row (rows lv) -> Z.of_nat (length row) = dim_x lv) /\
    (forall row k, In row (rows lv) -> In k row -> exists fabs, dictionary k = Some fabs).

  Definition on_map (lv : Level) (t : Z * Z) : Prop :=
    0 <= fst t < dim_x lv /\ 0 <= snd t < dim_y lv.

  (** the key of tile [t]: rows are stored from the top *)
  Definition key_of (lv : Level) (t : Z * Z) (k : K) : Prop :=
    on_map lv t /\
    exists row, nth_error (rows lv) (Z.to_nat (dim_y lv - 1 - snd t)) = Some row /\
                nth_error row (Z.to_nat (fst t)) = Some k.

  (** ** Objects *)

  (** what an object becomes: the passes are asked in turn, until one replaces it *)
  Inductive becomes (atom : Atom) : list RenderPass -> list Atom -> Prop :=
  | becomes_itself : becomes atom [] [atom]
  | becomes_more p ps extra rest :
      expand p atom = (extra, true) -> becomes atom ps rest -> becomes atom (p :: ps) (extra ++ rest)
  | becomes_other p ps extra :
      expand p atom = (extra, false) -> becomes atom (p :: ps) extra.

  (** the objects of one entry of the map file *)
  Inductive objects : Prefab -> list Atom -> Prop :=
  | objects_filtered fab p : In p passes -> path_filter p (path fab) = false -> objects fab []
  | objects_unknown fab : find_type (path fab) = None -> objects fab []
  | objects_early fab t p :
      find_type (path fab) = Some t -> In p passes ->
      early_filter p {| type_ := t; prefab := Some (vars fab); sprite := default_sprite |} = false ->
      objects fab []
  | objects_there fab t l :
      find_type (path fab) = Some t ->
      (forall p, In p passes -> path_filter p (path fab) = true /\
         early_filter p {| type_ := t; prefab := Some (vars fab); sprite := default_sprite |} = true) ->
      becomes {| type_ := t; prefab := Some (vars fab); sprite := default_sprite |} passes l ->
      objects fab l.

  (** the objects on tile [t] *)
  Definition objects_at (lv : Level) (t : Z * Z) (l : list Atom) : Prop :=
    exists k fabs ls, key_of lv t k /\ dictionary k = Some fabs /\ Forall2 objects fabs ls /\ l = concat ls.

  (** what a pass sees around tile [t]: nothing outside the map *)
  Definition surroundings (lv : Level) (t : Z * Z) (n : @Neighborhood T V) : Prop :=
    let at_ o := (fst t + fst o, snd t + snd o) in
    (on_map lv t -> objects_at lv t (nb_center n)) /\
    (forall d, on_map lv (at_ (offset d)) -> objects_at lv (at_ (offset d)) (nb_offset n d)) /\
    (forall d, ~ on_map lv (at_ (offset d)) -> nb_offset n d = []) /\
    length n = 9%nat.

  (** ** Sprites *)

  (** the object's own sprite *)
  Definition own_sprite (atom : Atom) : Sprite :=
    fold_left (fun s p => adjust_sprite p atom s) passes (from_vars atom).

  (** the sprites of one object on tile [t], bottom first *)
  Inductive sprites_of (lv : Level) (t : Z * Z) (atom : Atom) : list Sprite -> Prop :=
  | hidden p : In p passes -> late_filter p atom = false -> sprites_of lv t atom []
  | no_icon : icon (own_sprite atom) = [] -> sprites_of lv t atom []
  | drawn n under beside own over :
      (forall p, In p passes -> late_filter p atom = true) ->
      icon (own_sprite atom) <> [] ->
      surroundings lv t n ->
      let atom' := {| type_ := type_ atom; prefab := prefab atom; sprite := own_sprite atom |} in
      under = concat (map (fun p => fst (overlays p atom')) passes) ->
      beside = concat (map (fun p => fst (neighborhood_appearance p atom' n)) passes) ->
      over = concat (map (fun p => snd (overlays p atom')) passes) ->
      ((forall p, In p passes -> snd (neighborhood_appearance p atom' n) = true) /\ own = [own_sprite atom] \/
       (exists p, In p passes /\ snd (neighborhood_appearance p atom' n) = false) /\ own = []) ->
      sprites_of lv t atom (under ++ beside ++ own ++ over).

  Definition kept (s : Sprite) : Prop := forall p, In p passes -> sprite_filter p s = true.

  (** ** The scene: all sprites of a rectangle, row by row from the top, each row from the left *)
  Definition interval (lo hi : Z) : list Z := map (fun i => lo + Z.of_nat i) (seq 0 (Z.to_nat (hi - lo + 1))).
  Definition tiles (min max : Z * Z) : list (Z * Z) :=
    concat (map (fun y => map (fun x => (x, y)) (interval (fst min) (fst max)))
                (rev (interval (snd min) (snd max)))).

  Definition tile_scene (lv : Level) (t : Z * Z) (l : list ((Z * Z) * Sprite)) : Prop :=
    exists objs ls, objects_at lv t objs /\ Forall2 (sprites_of lv t) objs ls /\ l = map (pair t) (concat ls).

  (** [filtered P l k]: [k] is [l] without the elements outside [P] *)
  Inductive filtered {A : Type} (P : A -> Prop) : list A -> list A -> Prop :=
  | filtered_nil : filtered P [] []
  | filtered_keep x l k : P x -> filtered P l k -> filtered P (x :: l) (x :: k)
  | filtered_drop x l k : ~ P x -> filtered P l k -> filtered P (x :: l) k.

  Definition scene (lv : Level) (min max : Z * Z) (l : list ((Z * Z) * Sprite)) : Prop :=
    exists all, Forall2 (tile_scene lv) (tiles min max) all /\ filtered (fun ts => kept (snd ts)) (concat all) l.

  (** ** Depth *)
  Definition depth : Type := Z * Z * Z.
  Definition depth_of (s : Sprite) : depth := (plane s, whole (layer s), frac (layer s)).
  Definition below_or_level (d e : depth) : Prop :=
    let '(p, w, f) := d in
    let '(p', w', f') := e in
    p < p' \/ p = p' /\ (w < w' \/ w = w' /\ f <= f').

  (** [painted] holds the sprites of [l], those of lower depth first and those of equal depth in the
      order of [l] *)
  Definition painting_order (l painted : list ((Z * Z) * Sprite)) : Prop :=
    StronglySorted (fun s t => below_or_level (depth_of (snd s)) (depth_of (snd t))) painted /\
    forall d k, filtered (fun s => depth_of (snd s) = d) l k <-> filtered (fun s => depth_of (snd s) = d) painted k.

  (** ** Pixels *)

  (** the rectangle of the icon file that shows the sprite's state and direction *)
  Definition icon_rect (f : IconFile) (s : Sprite) (rect : Z * Z * Z * Z) : Prop :=
    rect_of (metadata f) (iwidth (image f)) (icon_state s, 0) (sdir s) 0 = Done (Some rect).

  (** [shows t s gx gy c]: at pixel (gx, gy) of the map the sprite [s] of tile [t] has colour [c].
      Its lower left corner is [ofs_x] right of and [ofs_y] above that of the tile. *)
  Definition shows (t : Z * Z) (s : Sprite) (gx gy : Z) (c : Rgba8) : Prop :=
    exists f rx ry w h,
      icon_cache (icon s) = Some f /\ icon_rect f s (rx, ry, w, h) /\
      let u := gx - (32 * fst t + ofs_x s) in
      let v := gy - (32 * snd t + ofs_y s) in
      0 <= u < w /\ 0 <= v < h /\
      (* images are stored from the top *)
      pixel (image f) (rx + u) (ry + (h - 1 - v)) = Some c.

  Definition clear : Rgba8 := {| r := 0; g := 0; b := 0; a := 0 |}.

  (** [looks painted gx gy c]: painting the sprites one over the other on a transparent ground gives
      pixel (gx, gy) colour [c] *)
  Inductive over (gx gy : Z) : Rgba8 -> list ((Z * Z) * Sprite) -> Rgba8 -> Prop :=
  | over_nothing c : over gx gy c [] c
  | over_shown c t s l src c' :
      shows t s gx gy src -> over gx gy (blend src (color s) c) l c' -> over gx gy c ((t, s) :: l) c'
  | over_missed c t s l c' :
      (forall src, ~ shows t s gx gy src) -> over gx gy c l c' -> over gx gy c ((t, s) :: l) c'.
  Definition looks (painted : list ((Z * Z) * Sprite)) (gx gy : Z) (c : Rgba8) : Prop :=
    over gx gy clear painted c.

  (** ** What the icons and the sprites must satisfy *)
  Definition icon_ok (f : IconFile) : Prop :=
    image_ok (image f) /\ 0 <= height (metadata f) < 2 ^ 28 /\
    forall name d, exists o,
      rect_of (metadata f) (iwidth (image f)) (name, 0) d 0 = Done o /\
      forall rx ry w h, o = Some (rx, ry, w, h) ->
        0 <= rx /\ 0 <= ry /\ 0 <= w < 2 ^ 28 /\
        rx + w <= iwidth (image f) /\ ry + h <= iheight (image f) /\
        iwidth (image f) < 2 ^ 31 /\ iheight (image f) < 2 ^ 31.
  Definition sprite_ok (s : Sprite) : Prop :=
    - 2 ^ 29 < ofs_x s < 2 ^ 29 /\ - 2 ^ 29 < ofs_y s < 2 ^ 29 /\ pixel_ok (color s).
  Definition rect_ok (lv : Level) (min max : Z * Z) : Prop :=
    on_map lv min /\ on_map lv max /\ fst min <= fst max /\ snd min <= snd max /\
    32 * (fst max - fst min + 1) * (32 * (snd max - snd min + 1)) < 2 ^ 32.
End Spec.
