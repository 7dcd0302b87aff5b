(** Specification for C32-C34. *)
From Coq Require Import String List NArith ZArith Lia Bool.
From Verif Require Import Common.Text Common.Decimal Dmi.Model.
Import ListNotations.
Open Scope Z_scope.

(** ** C32: geometry of offsets (x east, y north) *)
Definition neg2 (v : Z * Z) : Z * Z := (- fst v, - snd v).
(** rotation by 90 degrees clockwise *)
Definition rot90cw (v : Z * Z) : Z * Z := (snd v, - fst v).
Definition rot90ccw (v : Z * Z) : Z * Z := (- snd v, fst v).
(** rotation by 45 degrees clockwise of a king's move: add the vector turned by 90 degrees and
    scale back to the unit square *)
Definition rot45cw (v : Z * Z) : Z * Z :=
  (Z.sgn (fst v + snd v), Z.sgn (snd v - fst v)).
Definition rot45ccw (v : Z * Z) : Z * Z :=
  (Z.sgn (fst v - snd v), Z.sgn (snd v + fst v)).

(** ** C33 *)
Section Meta.
  Context {F : Type}.

  (** sprites a state takes: one per direction and frame *)
  Definition sprites (s : @State F) : Z := frames_count (frames s) * dirs_count (dirs s).
  Definition total (l : list (@State F)) : Z := fold_right Z.add 0 (map sprites l).

  (** the directions a state has a picture for *)
  Definition has_dir (ds : Dirs) (d : Dir) : Prop :=
    match ds with
    | DOne => d = South
    | DFour => In d [North; South; East; West]
    | DEight => True
    end.

  (** the order in which BYOND stores the directions of one frame *)
  Definition byond_order : list Dir :=
    [South; North; East; West; Southeast; Southwest; Northeast; Northwest].

  Definition same_name (n : text) (s : @State F) : bool := text_eqb (name s) n.

  (** Two rectangles (x, y, w, h) share no pixel. *)
  Definition rects_disjoint (r1 r2 : Z * Z * Z * Z) : Prop :=
    let '(x1, y1, w1, h1) := r1 in
    let '(x2, y2, w2, h2) := r2 in
    x1 + w1 <= x2 \/ x2 + w2 <= x1 \/ y1 + h1 <= y2 \/ y2 + h2 <= y1.
  Definition rect_inside (bw bh : Z) (r : Z * Z * Z * Z) : Prop :=
    let '(x, y, w, h) := r in 0 <= x /\ 0 <= y /\ x + w <= bw /\ y + h <= bh.

  (** A BYOND description: what an icon editor writes. *)
  Record state_desc := {
    d_name : text; d_dirs : Dirs; d_frames : N; d_delays : option (list text);
    d_loop : option N; d_rewind : option bool; d_movement : option bool }.

  Definition nl (l : text) : text := l ++ [10%N].
  Fixpoint join (sep : chr) (l : list text) : text :=
    match l with
    | [] => []
    | [t] => t
    | t :: l' => t ++ sep :: join sep l'
    end.
  Definition opt_line {A} (key : text) (f : A -> text) (o : option A) : list text :=
    match o with Some v => [9%N :: key ++ lit " = " ++ f v] | None => [] end.
  Definition print_bool (b : bool) : text := if b then lit "1" else lit "0".

  Definition state_lines (d : state_desc) : list text :=
    [lit "state = " ++ [34%N] ++ d_name d ++ [34%N];
     9%N :: lit "dirs = " ++ print_N (Z.to_N (dirs_count (d_dirs d)));
     9%N :: lit "frames = " ++ print_N (d_frames d)]
    ++ opt_line (lit "delay") (join 44%N) (d_delays d)
    ++ opt_line (lit "loop") print_N (d_loop d)
    ++ opt_line (lit "rewind") print_bool (d_rewind d)
    ++ opt_line (lit "movement") print_bool (d_movement d).

  Definition render (w h : N) (ds : list state_desc) : text :=
    flat_map nl
      ([lit "# BEGIN DMI"; lit "version = 4.0";
        9%N :: lit "width = " ++ print_N w; 9%N :: lit "height = " ++ print_N h]
       ++ flat_map state_lines ds ++ [lit "# END DMI"]).

  Context (parse_f32 : text -> option F) (is_one : F -> bool).

  (** values a description may hold *)
  Definition desc_ok (d : state_desc) : Prop :=
    (forall c, In c (d_name d) -> c <> 10%N /\ c <> 92%N /\ c <> 34%N) /\
    (d_frames d <= U64_MAX)%N /\
    (forall l, d_delays d = Some l ->
       N.of_nat (length l) = d_frames d /\ l <> [] /\
       (forall t, In t l -> t <> [] /\ (exists f, parse_f32 t = Some f) /\
                            forall c, In c t -> c <> 44%N /\ is_whitespace c = false)) /\
    (forall n, d_loop d = Some n -> n <= U32_MAX)%N.

  (** the frames a description denotes *)
  Definition denoted_frames (d : state_desc) (f : @Frames F) : Prop :=
    match d_delays d with
    | None => f = FCount (Z.of_N (d_frames d))
    | Some l =>
        exists fs, Forall2 (fun t x => parse_f32 t = Some x) l fs /\
          ((forall x, In x fs -> is_one x = true) /\ f = FCount (Z.of_N (d_frames d)) \/
           (exists x, In x fs /\ is_one x = false) /\ f = FDelays fs)
    end.

  Definition opt_or {A} (o : option A) (d : A) : A := match o with Some x => x | None => d end.

  (** a parsed state agrees with its description *)
  Definition denotes (d : state_desc) (s : @State F) : Prop :=
    name s = d_name d /\ dirs s = d_dirs d /\ denoted_frames d (frames s) /\
    loop_ s = Z.of_N (opt_or (d_loop d) 0%N) /\ rewind s = opt_or (d_rewind d) false /\
    movement s = opt_or (d_movement d) false.
End Meta.

(** ** C34 *)
Definition byte (x : Z) : Prop := 0 <= x <= 255.
Definition pixel_ok (p : Rgba8) : Prop := byte (r p) /\ byte (g p) /\ byte (b p) /\ byte (a p).
Definition image_ok (i : Image) : Prop :=
  0 <= iwidth i < 2 ^ 32 /\ 0 <= iheight i < 2 ^ 32 /\ iwidth i * iheight i < 2 ^ 32 /\
  Z.of_nat (length (data i)) = iwidth i * iheight i /\ Forall pixel_ok (data i).

(** the pixel in column [x], row [y] *)
Definition pixel (i : Image) (x y : Z) : option Rgba8 :=
  if (0 <=? x) && (x <? iwidth i) && (0 <=? y) && (y <? iheight i)
  then nth_error (data i) (Z.to_nat (y * iwidth i + x)) else None.

Definition white : Rgba8 := {| r := 255; g := 255; b := 255; a := 255 |}.
