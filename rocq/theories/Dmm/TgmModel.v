(** Model of crates/dmm-tools/src/dmm/save_tgm.rs (save_tgm) and crates/dmm-tools/src/dmm/read.rs (parse_map).

    Strings are lists of code points and are written as UTF-8.  A constant is any type [C], its [Display] any
    function [show] to bytes and [dm::constants::evaluate_str] any partial function [ev] from bytes (the parser and
    the constant folder are not part of this file).  Locations are left out, except that LocationTracker::next
    panics on a line of more than 65535 bytes: see [tracker_ok].  [usize] is unbounded. *)
From Coq Require Import List ZArith NArith Lia Bool Ascii String.
From Verif Require Import Common.Text Common.Decimal Common.Utf8 Dmm.Model.
Import ListNotations.
Open Scope N_scope.

Definition byte := N.

(** dreammaker/src/lexer.rs:437-460 from_utf8_or_latin1 *)
Definition from_utf8_or_latin1 (bs : list byte) : text := match decode bs with Some t => t | None => bs end.

(** dreammaker/src/lexer.rs:592-620 LocationTracker::next over the whole input: the column (u16) is incremented by every byte
    including the newline itself and starts again after it; [false] = the panic on overflow.  The line counter is
    a u32 and overflows only after 4 GiB. *)
Fixpoint tracker_ok (col : N) (bs : list byte) : bool :=
  match bs with
  | [] => true
  | b :: r => if col + 1 <=? 65535 then tracker_ok (if b =? 10 then 0 else col + 1) r else false
  end.

Definition key_bytes (o : option (list ascii)) : option (list byte) := option_map (map N_of_ascii) o.

Section Map.
  Context {C : Type} (show : C -> list byte) (ev : list byte -> option C).

  (** dmm.rs:172-177 Prefab; an IndexMap is the list of its entries in insertion order *)
  Record prefab := Prefab { path : text; vars : list (text * C) }.
  (** Prefab::default *)
  Definition prefab0 : prefab := Prefab [] [].
  (** dmm.rs:157-164 Map; a BTreeMap is the list of its entries in key order *)
  Record map_ := Map { key_length : Z; dictionary : list (Z * list prefab); grid : grid3 Z }.

  (** IndexMap::insert: an existing key keeps its place *)
  Fixpoint vars_insert (k : text) (v : C) (l : list (text * C)) : list (text * C) :=
    match l with
    | [] => [(k, v)]
    | (k', v') :: r => if text_eqb k k' then (k, v) :: r else (k', v') :: vars_insert k v r
    end.

  (** BTreeMap::insert *)
  Fixpoint dict_insert (k : Z) (v : list prefab) (l : list (Z * list prefab)) : list (Z * list prefab) :=
    match l with
    | [] => [(k, v)]
    | (k', v') :: r => if (k <? k')%Z then (k, v) :: (k', v') :: r
                       else if (k =? k')%Z then (k, v) :: r
                       else (k', v') :: dict_insert k v r
    end.

  (** ** save_tgm.rs *)

  (** save_tgm.rs:8-9 *)
  Definition TGM_HEADER : list byte :=
    lit "//MAP CONVERTED BY dmm2tgm.py THIS HEADER COMMENT PREVENTS RECONVERSION, DO NOT REMOVE".

  (** save_tgm.rs:25-30: the variables, [;] after all but the last *)
  Fixpoint save_vars (l : list (text * C)) : list byte :=
    match l with
    | [] => []
    | (var, value) :: r =>
        [10; 9] ++ encode var ++ lit " = " ++ show value ++
        match r with [] => [] | _ => lit ";" ++ save_vars r end
    end.

  (** save_tgm.rs:22-32: one prefab without the separator *)
  Definition save_prefab (f : prefab) : list byte :=
    encode (path f) ++
    match vars f with
    | [] => []
    | _ => lit "{" ++ save_vars (vars f) ++ [10; 9] ++ lit "}"
    end.

  (** save_tgm.rs:21-36: the prefabs, [,] and a newline after all but the last *)
  Fixpoint save_prefabs (l : list prefab) : list byte :=
    match l with
    | [] => []
    | f :: r => save_prefab f ++ match r with [] => [] | _ => lit "," ++ [10] ++ save_prefabs r end
    end.

  (** save_tgm.rs:19-38: the dictionary; [None] = FormatKey panics *)
  Fixpoint save_dict (len : Z) (d : list (Z * list prefab)) : option (list byte) :=
    match d with
    | [] => Some []
    | (k, fabs) :: r =>
        match key_bytes (format_key len k), save_dict len r with
        | Some kb, Some rest =>
            Some (lit """" ++ kb ++ lit """ = (" ++ [10] ++ save_prefabs fabs ++ lit ")" ++ [10] ++ rest)
        | _, _ => None
        end
    end.

  (** save_tgm.rs:45-47: the keys of a column, one per line *)
  Fixpoint save_column (len : Z) (col : list Z) : option (list byte) :=
    match col with
    | [] => Some []
    | k :: r =>
        match key_bytes (format_key len k), save_column len r with
        | Some kb, Some rest => Some (kb ++ [10] ++ rest)
        | _, _ => None
        end
    end.

  (** ndarray: the elements of the column [x] of the level [z] in row order (axis_iter(Axis(0)) then axis_iter(Axis(1))) *)
  Definition column (g : grid3 Z) (z x : nat) : list Z :=
    let '(_, dy, dx) := g3_dim g in
    map (fun y => nth ((z * dy + y) * dx + x) (g3_data g) 0%Z) (seq 0 dy).

  (** save_tgm.rs:43-49: one column *)
  Definition save_block (len : Z) (g : grid3 Z) (z x : nat) : option (list byte) :=
    match save_column len (column g z x) with
    | Some keys =>
        Some (lit "(" ++ print_N (N.of_nat x + 1) ++ lit ",1," ++ print_N (N.of_nat z + 1) ++ lit ") = {""" ++ [10] ++
              keys ++ lit """}" ++ [10])
    | None => None
    end.

  Fixpoint concat_opt (l : list (option (list byte))) : option (list byte) :=
    match l with
    | [] => Some []
    | None :: _ => None
    | Some a :: r => option_map (app a) (concat_opt r)
    end.

  (** save_tgm.rs:41-50: the levels; a newline before each *)
  Definition save_grid (len : Z) (g : grid3 Z) : option (list byte) :=
    let '(dz, dy, dx) := g3_dim g in
    concat_opt (flat_map (fun z => Some [10] :: map (save_block len g z) (seq 0 dx)) (seq 0 dz)).

  (** save_tgm.rs:13-53 save_tgm, and dmm.rs:224 to_writer; [None] = panic.  Writing itself does not fail. *)
  Definition save (m : map_) : option (list byte) :=
    match save_dict (key_length m) (dictionary m), save_grid (key_length m) (grid m) with
    | Some d, Some g => Some (TGM_HEADER ++ [10] ++ d ++ g)
    | _, _ => None
    end.

  (** ** read.rs *)

  (** read.rs:17-35: the state of the dictionary part.  Flags are named as in the code. *)
  Record dst := Dst {
    in_comment_line : bool; comment_trigger : bool;
    curr_data : list prefab; curr_prefab : prefab; curr_var : list byte; curr_datum : list byte;
    curr_key : Z; curr_key_length : Z;
    in_quote_block : bool; in_key_block : bool; in_data_block : bool; in_varedit_block : bool;
    after_data_block : bool; escaping : bool; skip_whitespace : bool;
    d_key_length : Z; d_dictionary : list (Z * list prefab) }.

  (** read.rs:17-35, dmm.rs:211-218 from_file *)
  Definition dst0 : dst :=
    Dst false false [] prefab0 [] [] 0 0 false false false false false false false 0 [].

  (** what one byte does: the next state, the end of the dictionary part (break), an Err, a panic *)
  Inductive step_out := Go (s : dst) | Break (s : dst) | SErr | SPanic.

  (** [char::is_whitespace] of a byte read as a Latin-1 character *)
  Definition is_ws_byte (b : byte) : bool :=
    ((9 <=? b) && (b <=? 13)) || (b =? 32) || (b =? 0x85) || (b =? 0xA0).

  (** read.rs:120-125: the name without trailing whitespace *)
  Fixpoint trim_rev (l : list byte) : list byte :=
    match l with
    | [] => []
    | b :: r => if is_ws_byte b then trim_rev r else l
    end.
  Definition trim_var (l : list byte) : list byte := rev (trim_rev (rev l)).

  (** read.rs:47-62 insert_current_var; [None] = the error of evaluate_str *)
  Definition insert_current_var (s : dst) : option dst :=
    match ev (curr_datum s) with
    | None => None
    | Some c =>
        Some (Dst (in_comment_line s) (comment_trigger s) (curr_data s)
                (Prefab (path (curr_prefab s)) (vars_insert (from_utf8_or_latin1 (curr_var s)) c (vars (curr_prefab s))))
                [] [] (curr_key s) (curr_key_length s)
                (in_quote_block s) (in_key_block s) (in_data_block s) (in_varedit_block s)
                (after_data_block s) (escaping s) (skip_whitespace s) (d_key_length s) (d_dictionary s))
    end.

  Definition set_comment (line trig : bool) (s : dst) : dst :=
    Dst line trig (curr_data s) (curr_prefab s) (curr_var s) (curr_datum s) (curr_key s) (curr_key_length s)
        (in_quote_block s) (in_key_block s) (in_data_block s) (in_varedit_block s)
        (after_data_block s) (escaping s) (skip_whitespace s) (d_key_length s) (d_dictionary s).
  Definition set_skip (b : bool) (s : dst) : dst :=
    Dst (in_comment_line s) (comment_trigger s) (curr_data s) (curr_prefab s) (curr_var s) (curr_datum s) (curr_key s) (curr_key_length s)
        (in_quote_block s) (in_key_block s) (in_data_block s) (in_varedit_block s)
        (after_data_block s) (escaping s) b (d_key_length s) (d_dictionary s).
  (** curr_datum.push(ch) with new values of [in_quote_block] and [escaping] *)
  Definition push_datum (ch : byte) (q e : bool) (s : dst) : dst :=
    Dst (in_comment_line s) (comment_trigger s) (curr_data s) (curr_prefab s) (curr_var s) (curr_datum s ++ [ch]) (curr_key s) (curr_key_length s)
        q (in_key_block s) (in_data_block s) (in_varedit_block s)
        (after_data_block s) e (skip_whitespace s) (d_key_length s) (d_dictionary s).
  Definition set_varedit (b : bool) (s : dst) : dst :=
    Dst (in_comment_line s) (comment_trigger s) (curr_data s) (curr_prefab s) (curr_var s) (curr_datum s) (curr_key s) (curr_key_length s)
        (in_quote_block s) (in_key_block s) (in_data_block s) b
        (after_data_block s) (escaping s) (skip_whitespace s) (d_key_length s) (d_dictionary s).
  (** read.rs:119-126: the datum so far was the variable's name *)
  Definition take_var (s : dst) : dst :=
    Dst (in_comment_line s) (comment_trigger s) (curr_data s) (curr_prefab s) (trim_var (curr_datum s)) [] (curr_key s) (curr_key_length s)
        (in_quote_block s) (in_key_block s) (in_data_block s) (in_varedit_block s)
        (after_data_block s) (escaping s) true (d_key_length s) (d_dictionary s).
  (** curr_prefab.path = from_utf8_or_latin1(take(&mut curr_datum)) *)
  Definition take_path (s : dst) : dst :=
    Dst (in_comment_line s) (comment_trigger s) (curr_data s) (Prefab (from_utf8_or_latin1 (curr_datum s)) (vars (curr_prefab s)))
        (curr_var s) [] (curr_key s) (curr_key_length s)
        (in_quote_block s) (in_key_block s) (in_data_block s) (in_varedit_block s)
        (after_data_block s) (escaping s) (skip_whitespace s) (d_key_length s) (d_dictionary s).
  (** read.rs:146-149, 151-154: a pending path is taken, the prefab is pushed *)
  Definition finish_prefab (s : dst) : dst :=
    let s := match path (curr_prefab s), curr_datum s with [], _ :: _ => take_path s | _, _ => s end in
    Dst (in_comment_line s) (comment_trigger s) (curr_data s ++ [curr_prefab s]) prefab0
        (curr_var s) (curr_datum s) (curr_key s) (curr_key_length s)
        (in_quote_block s) (in_key_block s) (in_data_block s) (in_varedit_block s)
        (after_data_block s) (escaping s) (skip_whitespace s) (d_key_length s) (d_dictionary s).

  (** read.rs:83-141: inside a variable block *)
  Definition step_varedit (ch : byte) (s : dst) : step_out :=
    if in_quote_block s then
      if ch =? 92 then Go (push_datum ch true true s)
      else if escaping s then Go (push_datum ch true false s)
      else if ch =? 34 then Go (push_datum ch false (escaping s) s)
      else Go (push_datum ch true (escaping s) s)
    else if skip_whitespace s && (ch =? 32) then Go (set_skip false s)
    else
      let s := set_skip false s in
      if ch =? 34 then Go (push_datum ch true (escaping s) s)
      else if (ch =? 61) && match curr_var s with [] => true | _ => false end then Go (take_var s)
      else if ch =? 59 then
        match insert_current_var s with Some s' => Go (set_skip true s') | None => SErr end
      else if ch =? 125 then
        match curr_var s with
        | [] => Go (set_varedit false s)
        | _ => match insert_current_var s with Some s' => Go (set_varedit false s') | None => SErr end
        end
      else Go (push_datum ch false (escaping s) s).

  (** read.rs:142-166: inside an entry but not in a variable block *)
  Definition step_data (ch : byte) (s : dst) : step_out :=
    if ch =? 123 then Go (set_varedit true (take_path s))
    else if ch =? 44 then Go (finish_prefab s)
    else if ch =? 41 then
      let s := finish_prefab s in
      Go (Dst (in_comment_line s) (comment_trigger s) [] (curr_prefab s) (curr_var s) (curr_datum s) 0 0
            (in_quote_block s) (in_key_block s) false (in_varedit_block s)
            true (escaping s) (skip_whitespace s) (d_key_length s) (dict_insert (curr_key s) (curr_data s) (d_dictionary s)))
    else Go (push_datum ch (in_quote_block s) (escaping s) s).

  (** read.rs:299-307 advance_key; the length is a u8 *)
  Definition push_key (ch : byte) (k len : Z) : option (Z * Z) + unit :=
    match base_52_reverse (ascii_of_N ch) with
    | None => inl None
    | Some d => match advance_key k d with
                | None => inl None
                | Some k' => if (len + 1 <=? 255)%Z then inl (Some (k', len + 1)%Z) else inr tt
                end
    end.

  (** read.rs:167-192 *)
  Definition step_outer (ch : byte) (s : dst) : step_out :=
    if in_key_block s then
      if ch =? 34 then
        if ((d_key_length s =? 0) || (d_key_length s =? curr_key_length s))%Z then
          Go (Dst (in_comment_line s) (comment_trigger s) (curr_data s) (curr_prefab s) (curr_var s) (curr_datum s) (curr_key s) (curr_key_length s)
                (in_quote_block s) false (in_data_block s) (in_varedit_block s)
                (after_data_block s) (escaping s) (skip_whitespace s) (curr_key_length s) (d_dictionary s))
        else SPanic
      else
        match push_key ch (curr_key s) (curr_key_length s) with
        | inl (Some (k, len)) =>
            Go (Dst (in_comment_line s) (comment_trigger s) (curr_data s) (curr_prefab s) (curr_var s) (curr_datum s) k len
                  (in_quote_block s) (in_key_block s) (in_data_block s) (in_varedit_block s)
                  (after_data_block s) (escaping s) (skip_whitespace s) (d_key_length s) (d_dictionary s))
        | inl None => SErr
        | inr _ => SPanic
        end
    else if ch =? 34 then
      Go (Dst (in_comment_line s) (comment_trigger s) (curr_data s) (curr_prefab s) (curr_var s) (curr_datum s) (curr_key s) (curr_key_length s)
            (in_quote_block s) true (in_data_block s) (in_varedit_block s)
            false (escaping s) (skip_whitespace s) (d_key_length s) (d_dictionary s))
    else if ch =? 40 then
      if after_data_block s then
        Break (Dst (in_comment_line s) (comment_trigger s) (curr_data s) (curr_prefab s) (curr_var s) (curr_datum s) 0 0
                 (in_quote_block s) (in_key_block s) (in_data_block s) (in_varedit_block s)
                 (after_data_block s) (escaping s) (skip_whitespace s) (d_key_length s) (d_dictionary s))
      else
        Go (Dst (in_comment_line s) (comment_trigger s) (curr_data s) (curr_prefab s) (curr_var s) (curr_datum s) (curr_key s) (curr_key_length s)
              (in_quote_block s) (in_key_block s) true (in_varedit_block s)
              false (escaping s) (skip_whitespace s) (d_key_length s) (d_dictionary s))
    else Go s.

  (** read.rs:64-193: the body of the dictionary loop *)
  Definition step (ch : byte) (s : dst) : step_out :=
    if (ch =? 10) || (ch =? 13) then Go (set_comment false false s)
    else if in_comment_line s then Go s
    else if ch =? 9 then Go s
    else
      let slash := (ch =? 47) && negb (in_quote_block s) in
      if slash && comment_trigger s then Go (set_comment true (comment_trigger s) s)
      else
        let s := set_comment (in_comment_line s) slash s in
        if in_data_block s then
          if in_varedit_block s then step_varedit ch s else step_data ch s
        else step_outer ch s.

  Inductive read_out (A : Type) := ROk (a : A) | RErr | RPanic.
  Arguments ROk {A}. Arguments RErr {A}. Arguments RPanic {A}.

  (** the dictionary loop: the state at the end and the bytes after the break *)
  Fixpoint run (bs : list byte) (s : dst) : read_out (dst * list byte) :=
    match bs with
    | [] => ROk (s, [])
    | b :: r => match step b s with
                | Go s' => run r s'
                | Break s' => ROk (s', r)
                | SErr => RErr
                | SPanic => RPanic
                end
    end.

  (** read.rs:197-216: the state of the grid part *)
  Inductive coord := CX | CY | CZ.
  Record gst := Gst {
    cells : list ((N * N * N) * Z);  (* the BTreeMap, newest entry first *)
    reading_coord : coord; curr_x : N; curr_y : N; curr_z : N; max_x : N; max_y : N; max_z : N; curr_num : N; base_x : N;
    in_coord_block : bool; in_map_string : bool; adjust_y : bool; g_key : Z; g_key_len : Z }.
  Definition gst0 : gst := Gst [] CX 0 0 0 0 0 0 0 0 true false true 0 0.

  Definition cell_eqb (a b : N * N * N) : bool :=
    let '(x, y, z) := a in let '(x', y', z') := b in (x =? x') && (y =? y') && (z =? z').
  Fixpoint find_cell (c : N * N * N) (l : list ((N * N * N) * Z)) : option Z :=
    match l with
    | [] => None
    | (c', k) :: r => if cell_eqb c c' then Some k else find_cell c r
    end.

  (** read.rs:219-276: the body of the grid loop *)
  Definition gstep (klen : Z) (ch : byte) (s : gst) : read_out gst :=
    if in_coord_block s then
      if ch =? 44 then
        match reading_coord s with
        | CX => ROk (Gst (cells s) CY (curr_num s) (curr_y s) (curr_z s) (N.max (max_x s) (curr_num s)) (max_y s) (max_z s) 0 (curr_num s)
                       (in_coord_block s) (in_map_string s) (adjust_y s) (g_key s) (g_key_len s))
        | CY => ROk (Gst (cells s) CZ (curr_x s) (curr_num s) (curr_z s) (max_x s) (N.max (max_y s) (curr_num s)) (max_z s) 0 (base_x s)
                       (in_coord_block s) (in_map_string s) (adjust_y s) (g_key s) (g_key_len s))
        | CZ => RErr
        end
      else if ch =? 41 then
        match reading_coord s with
        | CZ => ROk (Gst (cells s) CX (curr_x s) (curr_y s) (curr_num s) (max_x s) (max_y s) (N.max (max_z s) (curr_num s)) 0 (base_x s)
                       false (in_map_string s) (adjust_y s) (g_key s) (g_key_len s))
        | _ => RPanic
        end
      else if (48 <=? ch) && (ch <=? 57) then
        ROk (Gst (cells s) (reading_coord s) (curr_x s) (curr_y s) (curr_z s) (max_x s) (max_y s) (max_z s)
               (10 * curr_num s + (ch - 48)) (base_x s) (in_coord_block s) (in_map_string s) (adjust_y s) (g_key s) (g_key_len s))
      else RErr
    else if in_map_string s then
      if ch =? 34 then
        if curr_y s =? 0 then RPanic
        else ROk (Gst (cells s) (reading_coord s) (curr_x s) (curr_y s - 1) (curr_z s) (max_x s) (max_y s) (max_z s) (curr_num s) (base_x s)
                    (in_coord_block s) false true (g_key s) (g_key_len s))
      else if ch =? 13 then ROk s
      else if ch =? 10 then
        ROk (Gst (cells s) (reading_coord s) (base_x s) (if adjust_y s then curr_y s else curr_y s + 1) (curr_z s)
               (max_x s) (max_y s) (max_z s) (curr_num s) (base_x s) (in_coord_block s) (in_map_string s) false (g_key s) (g_key_len s))
      else
        match push_key ch (g_key s) (g_key_len s) with
        | inl None => RErr
        | inr _ => RPanic
        | inl (Some (k, len)) =>
            if (len =? klen)%Z then
              match find_cell (curr_x s, curr_y s, curr_z s) (cells s) with
              | Some _ => RErr
              | None =>
                  ROk (Gst (((curr_x s, curr_y s, curr_z s), k) :: cells s) (reading_coord s) (curr_x s + 1) (curr_y s) (curr_z s)
                         (N.max (max_x s) (curr_x s)) (max_y s) (max_z s) (curr_num s) (base_x s)
                         (in_coord_block s) (in_map_string s) (adjust_y s) 0 0)
              end
            else
              ROk (Gst (cells s) (reading_coord s) (curr_x s) (curr_y s) (curr_z s) (max_x s) (max_y s) (max_z s) (curr_num s) (base_x s)
                     (in_coord_block s) (in_map_string s) (adjust_y s) k len)
        end
    else if ch =? 40 then
      ROk (Gst (cells s) (reading_coord s) (curr_x s) (curr_y s) (curr_z s) (max_x s) (max_y s) (max_z s) (curr_num s) (base_x s)
             true (in_map_string s) (adjust_y s) (g_key s) (g_key_len s))
    else if ch =? 34 then
      ROk (Gst (cells s) (reading_coord s) (curr_x s) (curr_y s) (curr_z s) (max_x s) (max_y s) (max_z s) (curr_num s) (base_x s)
             (in_coord_block s) true (adjust_y s) (g_key s) (g_key_len s))
    else ROk s.

  Fixpoint grun (klen : Z) (bs : list byte) (s : gst) : read_out gst :=
    match bs with
    | [] => ROk s
    | b :: r => match gstep klen b s with ROk s' => grun klen r s' | RErr => RErr | RPanic => RPanic end
    end.

  (** read.rs:280-292: Array3::from_shape_fn visits the cells in row-major order; [None] = some tile has no value *)
  Fixpoint all_some (l : list (option Z)) : option (list Z) :=
    match l with
    | [] => Some []
    | Some a :: r => option_map (cons a) (all_some r)
    | None :: _ => None
    end.
  Definition shape (s : gst) : nat * nat * nat :=
    (N.to_nat (max_z s), N.to_nat (N.max (max_y s) (curr_y s)), N.to_nat (max_x s)).
  Definition build_grid (s : gst) : option (grid3 Z) :=
    let '(dz, dy, dx) := shape s in
    option_map (fun d => {| g3_dim := shape s; g3_data := d |})
      (all_some (flat_map (fun z => flat_map (fun y => map (fun x =>
         find_cell (N.of_nat x + 1, N.of_nat y + 1, N.of_nat z + 1) (cells s)) (seq 0 dx)) (seq 0 dy)) (seq 0 dz))).

  (** read.rs:13-297 parse_map, dmm.rs:211-219 from_file.  A line over the limit is a panic even where the code would
      first have returned an Err. *)
  Definition parse_map (bs : list byte) : read_out map_ :=
    if tracker_ok 0 bs then
      match run bs dst0 with
      | ROk (s, rest) =>
          match grun (d_key_length s) rest gst0 with
          | ROk g => match build_grid g with
                     | Some gr => ROk (Map (d_key_length s) (d_dictionary s) gr)
                     | None => RErr
                     end
          | RErr => RErr
          | RPanic => RPanic
          end
      | RErr => RErr
      | RPanic => RPanic
      end
    else RPanic.
End Map.
Arguments prefab : clear implicits.
Arguments map_ : clear implicits.
Arguments dst : clear implicits.
Arguments step_out : clear implicits.
Arguments ROk {A}. Arguments RErr {A}. Arguments RPanic {A}.
