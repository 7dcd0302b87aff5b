(** Model of crates/dreammaker/src/dmi.rs (Dir, Metadata, State, the metadata parser) and of
    Image::composite in crates/dmm-tools/src/dmi.rs. *)
From Coq Require Import String List NArith ZArith Lia Bool.
From Verif Require Import Common.Text.
Import ListNotations.
Open Scope Z_scope.

(** ** Dir *)

(** dmi.rs:29-40 *)
Inductive Dir := North | South | East | West | Northeast | Northwest | Southeast | Southwest.

(** dmi.rs:62-71 ALL *)
Definition ALL : list Dir :=
  [North; South; East; West; Northeast; Northwest; Southeast; Southwest].

(** dmi.rs:74-86 from_int *)
Definition from_int (int : Z) : option Dir :=
  match int with
  | 1 => Some North
  | 2 => Some South
  | 4 => Some East
  | 8 => Some West
  | 5 => Some Northeast
  | 9 => Some Northwest
  | 6 => Some Southeast
  | 10 => Some Southwest
  | _ => None
  end.

(** dmi.rs:29-40 discriminants, 89-91 to_int *)
Definition to_int (d : Dir) : Z :=
  match d with
  | North => 1 | South => 2 | East => 4 | West => 8
  | Northeast => 5 | Northwest => 9 | Southeast => 6 | Southwest => 10
  end.

(** dmi.rs:93-95 contains *)
Definition contains (self other : Dir) : bool := negb (Z.land (to_int self) (to_int other) =? 0).

(** dmi.rs:97-99 is_diagonal *)
Definition is_diagonal (d : Dir) : bool :=
  match d with North | South | East | West => false | _ => true end.

(** dmi.rs:101-112 flip *)
Definition flip (d : Dir) : Dir :=
  match d with
  | North => South | South => North | East => West | West => East
  | Northeast => Southwest | Northwest => Southeast | Southeast => Northwest | Southwest => Northeast
  end.

(** dmi.rs:114-125 flip_ns *)
Definition flip_ns (d : Dir) : Dir :=
  match d with
  | North => South | South => North | East => East | West => West
  | Northeast => Southeast | Northwest => Southwest | Southeast => Northeast | Southwest => Northwest
  end.

(** dmi.rs:127-138 flip_ew *)
Definition flip_ew (d : Dir) : Dir :=
  match d with
  | North => North | South => South | East => West | West => East
  | Northeast => Northwest | Northwest => Northeast | Southeast => Southwest | Southwest => Southeast
  end.

(** dmi.rs:140-151 clockwise_45 *)
Definition clockwise_45 (d : Dir) : Dir :=
  match d with
  | North => Northeast | Northeast => East | East => Southeast | Southeast => South
  | South => Southwest | Southwest => West | West => Northwest | Northwest => North
  end.

(** dmi.rs:153-164 counterclockwise_45 *)
Definition counterclockwise_45 (d : Dir) : Dir :=
  match d with
  | North => Northwest | Northeast => North | East => Northeast | Southeast => East
  | South => Southeast | Southwest => South | West => Southwest | Northwest => West
  end.

(** dmi.rs:166-177 clockwise_90 *)
Definition clockwise_90 (d : Dir) : Dir :=
  match d with
  | North => East | South => West | East => South | West => North
  | Northeast => Southeast | Northwest => Northeast | Southeast => Southwest
  | Southwest => Northeast
  end.

(** dmi.rs:179-190 counterclockwise_90 *)
Definition counterclockwise_90 (d : Dir) : Dir :=
  match d with
  | North => West | South => East | East => North | West => South
  | Southeast => Northeast | Northeast => Northwest | Southwest => Southeast | Northwest => Southwest
  end.

(** dmi.rs:193-204 offset *)
Definition offset (d : Dir) : Z * Z :=
  match d with
  | North => (0, 1) | South => (0, -1) | East => (1, 0) | West => (-1, 0)
  | Northeast => (1, 1) | Northwest => (-1, 1) | Southeast => (1, -1) | Southwest => (-1, -1)
  end.

Definition I32_MIN : Z := - 2 ^ 31.
Definition I32_MAX : Z := 2 ^ 31 - 1.
Definition in_i32 (x : Z) : bool := (I32_MIN <=? x) && (x <=? I32_MAX).

(** dmm-tools/src/dmm.rs:75-85 [Add<Dir> for Coord2]; [None] = i32 overflow panic *)
Definition coord_add_dir (c : Z * Z) (d : Dir) : option (Z * Z) :=
  let '(x, y) := offset d in
  let x' := fst c + x in
  let y' := snd c + y in
  if in_i32 x' && in_i32 y' then Some (x', y') else None.

(** ** Metadata *)
Section Metadata.
  (** [F] is f32: [parse_f32] its [FromStr], [is_one] the test [n == 1.]. *)
  Context {F : Type} (parse_f32 : text -> option F) (is_one : F -> bool).

  (** dmi.rs:244-249 and 376-384 *)
  Inductive Dirs := DOne | DFour | DEight.
  Definition dirs_count (d : Dirs) : Z := match d with DOne => 1 | DFour => 4 | DEight => 8 end.

  (** dmi.rs:252-261 and 386-393 *)
  Inductive Frames := FOne | FCount (n : Z) | FDelays (v : list F).
  Definition frames_count (f : Frames) : Z :=
    match f with FOne => 1 | FCount n => n | FDelays v => Z.of_nat (length v) end.

  (** dmi.rs:395-401 delay; [inl] = the constant 1., [None] = index panic *)
  Definition frames_delay (f : Frames) (idx : Z) : option (unit + F) :=
    match f with
    | FOne | FCount _ => Some (inl tt)
    | FDelays v => option_map inr (nth_error v (Z.to_nat idx))
    end.

  (** dmi.rs:222-240 *)
  Record State := {
    name : text; movement : bool; st_offset : Z; loop_ : Z; duplicate_index : Z; rewind : bool;
    dirs : Dirs; frames : Frames }.

  (** dmi.rs:207-219; the BTreeMap is an association list without repeated keys *)
  Record Metadata := {
    width : Z; height : Z; states : list State; state_names : list ((text * Z) * Z) }.

  Definition index_eqb (a b : text * Z) : bool := text_eqb (fst a) (fst b) && (snd a =? snd b).

  (** BTreeMap::get *)
  Fixpoint names_get (m : list ((text * Z) * Z)) (k : text * Z) : option Z :=
    match m with
    | [] => None
    | (k', i) :: m' => if index_eqb k k' then Some i else names_get m' k
    end.

  (** dmi.rs:347-349 num_sprites (usize product; unbounded here) *)
  Definition num_sprites (s : State) : Z := dirs_count (dirs s) * frames_count (frames s).

  (** results with Rust's two ways of failing *)
  Inductive outcome (A : Type) := Done (a : A) | Fail | Panic.
  Arguments Done {A} _. Arguments Fail {A}. Arguments Panic {A}.

  Definition u32 (x : Z) : outcome Z := if x <? 2 ^ 32 then Done x else Panic.

  (** dmi.rs:351-365 index_of_dir: [offset as u32] wraps, the sum panics on overflow *)
  Definition dir_idx (ds : Dirs) (dir : Dir) : Z :=
    match ds, dir with
    | DOne, _ => 0
    | DEight, Northwest => 7
    | DEight, Northeast => 6
    | DEight, Southwest => 5
    | DEight, Southeast => 4
    | _, West => 3
    | _, East => 2
    | _, North => 1
    | _, _ => 0
    end.
  Definition index_of_dir (s : State) (dir : Dir) : outcome Z :=
    u32 (st_offset s mod 2 ^ 32 + dir_idx (dirs s) dir).

  (** dmi.rs:367-370 index_of_frame *)
  Definition index_of_frame (s : State) (dir : Dir) (frame : Z) : outcome Z :=
    match index_of_dir s dir with
    | Done a => match u32 (frame * dirs_count (dirs s)) with
                | Done b => u32 (a + b)
                | _ => Panic
                end
    | _ => Panic
    end.

  (** dmi.rs:372-374 *)
  Definition get_state_name_index (s : State) : text * Z := (name s, duplicate_index s).

  (** dmi.rs:328-335 get_icon_state; [Panic] = [states[state_index]] out of range *)
  Definition get_icon_state (m : Metadata) (k : text * Z) : outcome (option State) :=
    match names_get (state_names m) k with
    | None => Done None
    | Some i => match nth_error (states m) (Z.to_nat i) with
                | Some s => Done (Some s)
                | None => Panic
                end
    end.

  (** dmi.rs:301-324 rect_of: (x, y, width, height); division by zero panics *)
  Definition rect_of (m : Metadata) (bitmap_width : Z) (k : text * Z) (dir : Dir) (frame : Z)
    : outcome (option (Z * Z * Z * Z)) :=
    match states m with
    | [] => Done (Some (0, 0, width m, height m))
    | _ =>
        match get_icon_state m k with
        | Done None => Done None
        | Done (Some s) =>
            match index_of_frame s dir frame with
            | Done icon_index =>
                if width m =? 0 then Panic
                else
                  let icon_count := bitmap_width / width m in
                  if icon_count =? 0 then Panic
                  else
                    match u32 (icon_index mod icon_count * width m),
                          u32 (icon_index / icon_count * height m) with
                    | Done x, Done y => Done (Some (x, y, width m, height m))
                    | _, _ => Panic
                    end
            | _ => Panic
            end
        | _ => Panic
        end
    end.

  (** ** parse_metadata (dmi.rs:408-527) *)

  (** loop state of lines 432-524: metadata so far, current state, frames_so_far, duplicate_map *)
  Record pstate := {
    p_meta : Metadata; p_state : option State; p_frames : Z; p_dups : list (text * Z) }.

  (** HashMap<String, u32> as a function of the association list, newest first *)
  Fixpoint dup_get (m : list (text * Z)) (k : text) : Z :=
    match m with
    | [] => 0
    | (k', n) :: m' => if text_eqb k k' then n else dup_get m' k
    end.

  (** [value[1..value.len() - 1]]: byte indices, so the first and last characters must be one byte
      long each; panics otherwise *)
  Definition unquote (value : text) : outcome text :=
    match value with
    | [] => Panic
    | c :: rest =>
        if (c <? 128)%N then
          match rev rest with
          | [] => Panic
          | e :: r => if (e <? 128)%N then Done (rev r) else Panic
          end
        else Panic
    end.

  Definition parse_u (max : N) (v : text) : outcome Z :=
    match parse_uint max v with Some n => Done (Z.of_N n) | None => Panic end.

  (** [collect::<Result<Vec<_>, _>>] *)
  Fixpoint parse_all (l : list text) : option (list F) :=
    match l with
    | [] => Some []
    | t :: l' => match parse_f32 t, parse_all l' with
                 | Some f, Some fs => Some (f :: fs)
                 | _, _ => None
                 end
    end.

  Definition bind {A B} (o : outcome A) (f : A -> outcome B) : outcome B :=
    match o with Done a => f a | Fail => Fail | Panic => Panic end.

  Definition set_dirs (s : State) (d : Dirs) : State :=
    {| name := name s; movement := movement s; st_offset := st_offset s; loop_ := loop_ s;
       duplicate_index := duplicate_index s; rewind := rewind s; dirs := d; frames := frames s |}.
  Definition set_frames (s : State) (f : Frames) : State :=
    {| name := name s; movement := movement s; st_offset := st_offset s; loop_ := loop_ s;
       duplicate_index := duplicate_index s; rewind := rewind s; dirs := dirs s; frames := f |}.
  Definition set_loop (s : State) (l : Z) : State :=
    {| name := name s; movement := movement s; st_offset := st_offset s; loop_ := l;
       duplicate_index := duplicate_index s; rewind := rewind s; dirs := dirs s; frames := frames s |}.
  Definition set_rewind (s : State) (b : bool) : State :=
    {| name := name s; movement := movement s; st_offset := st_offset s; loop_ := loop_ s;
       duplicate_index := duplicate_index s; rewind := b; dirs := dirs s; frames := frames s |}.
  Definition set_movement (s : State) (b : bool) : State :=
    {| name := name s; movement := b; st_offset := st_offset s; loop_ := loop_ s;
       duplicate_index := duplicate_index s; rewind := rewind s; dirs := dirs s; frames := frames s |}.

  (** [state.as_mut().unwrap()] followed by an update *)
  Definition on_state (p : pstate) (f : State -> outcome State) : outcome pstate :=
    match p_state p with
    | None => Panic
    | Some s =>
        bind (f s) (fun s' =>
          Done {| p_meta := p_meta p; p_state := Some s'; p_frames := p_frames p; p_dups := p_dups p |})
    end.

  Definition with_size (m : Metadata) (w h : Z) : Metadata :=
    {| width := w; height := h; states := states m; state_names := state_names m |}.

  (** lines 438-441: [state.take()], push; the usize arithmetic panics on overflow *)
  Definition push_current (p : pstate) : outcome (Metadata * Z) :=
    match p_state p with
    | None => Done (p_meta p, p_frames p)
    | Some s =>
        let f := p_frames p + frames_count (frames s) * dirs_count (dirs s) in
        if f <? 2 ^ 64 then
          Done ({| width := width (p_meta p); height := height (p_meta p);
                   states := states (p_meta p) ++ [s]; state_names := state_names (p_meta p) |}, f)
        else Panic
    end.

  (** lines 437-473: the "state" key.  [*count += 1] cannot overflow before memory does. *)
  Definition new_state (p : pstate) (value : text) : outcome pstate :=
    bind (push_current p) (fun '(meta, so_far) =>
    bind (unquote value) (fun unquoted =>
      if contains_char 92%N unquoted || contains_char 34%N unquoted then Panic
      else
        let count := dup_get (p_dups p) unquoted in
        let s := {| name := unquoted; movement := false; st_offset := so_far; loop_ := 0;
                    duplicate_index := count; rewind := false; dirs := DOne; frames := FOne |} in
        let key := get_state_name_index s in
        let names :=
          match names_get (state_names meta) key with
          | Some _ => state_names meta
          | None => (key, Z.of_nat (length (states meta))) :: state_names meta
          end in
        Done {| p_meta := {| width := width meta; height := height meta;
                             states := states meta; state_names := names |};
                p_state := Some s; p_frames := so_far;
                p_dups := (unquoted, count + 1) :: p_dups p |})).

  (** lines 494-515: the "delay" key *)
  Definition apply_delay (s : State) (value : text) : outcome State :=
    match parse_all (split_char 44%N value) with
    | None => Panic
    | Some vector =>
        match frames s with
        | FOne =>
            if forallb is_one vector then Done (set_frames s (FCount (Z.of_nat (length vector))))
            else Done (set_frames s (FDelays vector))
        | FCount n =>
            let vector := firstn (Z.to_nat n) vector in
            if forallb is_one vector then Done s else Done (set_frames s (FDelays vector))
        | FDelays _ => Panic
        end
    end.

  (** lines 434-523: one line's [match key] *)
  Definition parse_line (p : pstate) (line : text) : outcome pstate :=
    match split_once (lit " = ") (trim line) with
    | None => Panic
    | Some (key, value) =>
        if text_eqb key (lit "width") then
          bind (parse_u U32_MAX value) (fun w =>
            Done {| p_meta := with_size (p_meta p) w (height (p_meta p)); p_state := p_state p;
                    p_frames := p_frames p; p_dups := p_dups p |})
        else if text_eqb key (lit "height") then
          bind (parse_u U32_MAX value) (fun h =>
            Done {| p_meta := with_size (p_meta p) (width (p_meta p)) h; p_state := p_state p;
                    p_frames := p_frames p; p_dups := p_dups p |})
        else if text_eqb key (lit "state") then new_state p value
        else if text_eqb key (lit "dirs") then
          on_state p (fun s => bind (parse_u U8_MAX value) (fun n =>
            if n =? 1 then Done (set_dirs s DOne)
            else if n =? 4 then Done (set_dirs s DFour)
            else if n =? 8 then Done (set_dirs s DEight)
            else Panic))
        else if text_eqb key (lit "frames") then
          on_state p (fun s =>
            match frames s with
            | FOne => bind (parse_u U64_MAX value) (fun n => Done (set_frames s (FCount n)))
            | _ => Panic
            end)
        else if text_eqb key (lit "delay") then on_state p (fun s => apply_delay s value)
        else if text_eqb key (lit "loop") then
          on_state p (fun s => bind (parse_u U32_MAX value) (fun n => Done (set_loop s n)))
        else if text_eqb key (lit "rewind") then
          on_state p (fun s => bind (parse_u U8_MAX value) (fun n => Done (set_rewind s (negb (n =? 0)))))
        else if text_eqb key (lit "hotspot") then Done p
        else if text_eqb key (lit "movement") then
          on_state p (fun s => bind (parse_u U8_MAX value) (fun n => Done (set_movement s (negb (n =? 0)))))
        else Panic
    end.

  (** lines 430-524: the loop *)
  Fixpoint parse_lines (p : pstate) (ls : list text) : outcome pstate :=
    match ls with
    | [] => Done p
    | l :: ls' =>
        if starts_with (lit "# END DMI") l then Done p
        else bind (parse_line p l) (fun p' => parse_lines p' ls')
    end.

  Definition empty_meta : Metadata :=
    {| width := 32; height := 32; states := []; state_names := [] |}.

  (** lines 408-527 *)
  Definition parse_metadata (data : text) : outcome Metadata :=
    match data with
    | [] => Done empty_meta
    | _ =>
        match lines data with
        | h1 :: h2 :: ls =>
            if text_eqb h1 (lit "# BEGIN DMI") && text_eqb h2 (lit "version = 4.0") then
              bind (parse_lines {| p_meta := empty_meta; p_state := None; p_frames := 0; p_dups := [] |} ls)
                (fun p =>
                  (* metadata.states.extend(state) *)
                  Done {| width := width (p_meta p); height := height (p_meta p);
                          states := states (p_meta p) ++
                            match p_state p with Some s => [s] | None => [] end;
                          state_names := state_names (p_meta p) |})
            else Fail
        | _ => Fail
        end
    end.
End Metadata.
Arguments Done {A} _. Arguments Fail {A}. Arguments Panic {A}.

(** ** Compositing (dmm-tools/src/dmi.rs) *)

(** dmm-tools/src/dmi.rs:75-82 *)
Record Rgba8 := { r : Z; g : Z; b : Z; a : Z }.

(** dmm-tools/src/dmi.rs:116-121; [data] row by row, [width * height] entries *)
Record Image := { iwidth : Z; iheight : Z; data : list Rgba8 }.

(** dmm-tools/src/dmi.rs:236-239 mul255: a u16 product never overflows *)
Definition mul255 (x y : Z) : Z := (x * y / 255) mod 256.

(** dmm-tools/src/dmi.rs:206-211 the tinted source pixel *)
Definition tint (src color : Rgba8) : Rgba8 :=
  {| r := mul255 (r src) (r color); g := mul255 (g src) (g color);
     b := mul255 (b src) (b color); a := mul255 (a src) (a color) |}.

(** line 216: the u8 sum; it never exceeds 255 (proved), so no overflow case is needed *)
Definition out_alpha (sa da : Z) : Z := sa + mul255 da (255 - sa).

(** lines 219-221: one channel; [as u8] truncates *)
Definition channel (s sa d da out_a : Z) : Z :=
  ((s * sa + d * da * (255 - sa) / 255) / out_a) mod 256.

(** lines 204-229: one destination pixel *)
Definition blend (src color dst : Rgba8) : Rgba8 :=
  let st := tint src color in
  let out_a := out_alpha (a st) (a dst) in
  if out_a =? 0 then {| r := 0; g := 0; b := 0; a := out_a |}
  else {| r := channel (r st) (a st) (r dst) (a dst) out_a;
          g := channel (g st) (a st) (g dst) (a dst) out_a;
          b := channel (b st) (a st) (b dst) (a dst) out_a;
          a := out_a |}.

Fixpoint set_nth {A} (l : list A) (n : nat) (x : A) : list A :=
  match l, n with
  | [], _ => []
  | _ :: l', O => x :: l'
  | y :: l', S n' => y :: set_nth l' n' x
  end.

(** lines 200-230 the body of the inner loop: u32 arithmetic and slice indexing panic ([None]) *)
Definition composite_pixel (self other : Image) (color : Rgba8) (sx sy x y : Z) (dat : list Rgba8)
  : option (list Rgba8) :=
  let si := sy * iwidth other + sx in
  let di := y * iwidth self + x in
  if (si <? 2 ^ 32) && (di <? 2 ^ 32) then
    match nth_error (data other) (Z.to_nat si), nth_error dat (Z.to_nat di) with
    | Some src, Some dst => Some (set_nth dat (Z.to_nat di) (blend src color dst))
    | _, _ => None
    end
  else None.

(** line 199: [n] columns remain *)
Fixpoint composite_row (self other : Image) (color : Rgba8) (n : nat) (sx sy x y : Z) (dat : list Rgba8)
  : option (list Rgba8) :=
  match n with
  | O => Some dat
  | S n' =>
      match composite_pixel self other color sx sy x y dat with
      | None => None
      | Some dat' => composite_row self other color n' (sx + 1) sy (x + 1) y dat'
      end
  end.

(** line 198: [n] rows remain *)
Fixpoint composite_rows (self other : Image) (color : Rgba8) (n w : nat) (sx sy x y : Z) (dat : list Rgba8)
  : option (list Rgba8) :=
  match n with
  | O => Some dat
  | S n' =>
      match composite_row self other color w sx sy x y dat with
      | None => None
      | Some dat' => composite_rows self other color n' w sx (sy + 1) x (y + 1) dat'
      end
  end.

(** lines 195-233 composite; [pos] = (x, y), [crop] = (x, y, width, height).  Simplification: the
    overflow check of [crop.1 ..] past the last used value is not modelled. *)
Definition composite (self other : Image) (pos : Z * Z) (crop : Z * Z * Z * Z) (color : Rgba8)
  : option Image :=
  let '(px, py) := pos in
  let '(cx, cy, cw, ch) := crop in
  if (px + cw <? 2 ^ 32) && (py + ch <? 2 ^ 32) then
    match composite_rows self other color (Z.to_nat ch) (Z.to_nat cw) cx cy px py (data self) with
    | None => None
    | Some dat => Some {| iwidth := iwidth self; iheight := iheight self; data := dat |}
    end
  else None.
