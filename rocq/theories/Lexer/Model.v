(** The lexer.  Models crates/dreammaker/src/lexer.rs:621-1313 (Lexer).
    The location limits (line 2^32-1, column 65535) are those of C10 and are left out here: the tracker steps with
    unbounded counters.  Loops carry fuel, [Stuck] = fuel exhausted (shown never to happen, C14). *)
From Coq Require Import List NArith ZArith Lia Bool String Ascii.
From Verif Require Import Common.Text Common.Utf8 Lexer.Tracker Lexer.Punct.
Import ListNotations.
Open Scope N_scope.

(** *** Results: the value, a panic, or fuel exhausted *)
Inductive res (A : Type) : Type := Ok (a : A) | Panic | Stuck.
Arguments Ok {A} a. Arguments Panic {A}. Arguments Stuck {A}.
Definition bind {A B : Type} (x : res A) (k : A -> res B) : res B :=
  match x with Ok a => k a | Panic => Panic | Stuck => Stuck end.
Notation "'do' p <- x ; k" := (bind x (fun p => k)) (at level 200, p pattern, x at level 100, k at level 200).

(** lexer.rs:464-467 Interpolation *)
Record interp : Type := { i_end : list byte; i_depth : nat }.
(** lexer.rs:471-476 Directive *)
Inductive directive : Set := DNone | DHash | DOrdinary | DStringy.
(** docs.rs CommentKind, DocTarget *)
Inductive comment_kind : Set := KBlock | KLine.
Inductive doc_target : Set := Following | Enclosing.

(** The diagnostics registered with the context, by message. *)
Inductive err : Set :=
  | EUntermComment | EBackslashComment | EPrecision | EBadInt | EBadFloat | EUntermResource | EUntermString
  | EUntermRaw | EUntermRawTerm | EEmptyRawTerm | EIllegal (b : byte).

(** lexer.rs:623-632 Lexer; [errs]: diagnostics registered so far with their line and column, newest first *)
Record lexer : Type := {
  inp : tracker; pending : option byte; final_newline : bool; at_line_head : bool; close_allowed : bool;
  dir : directive; stack : list interp; errs : list (N * N * err) }.

Definition set_pending (v : option byte) (L : lexer) : lexer :=
  {| inp := inp L; pending := v; final_newline := final_newline L; at_line_head := at_line_head L;
     close_allowed := close_allowed L; dir := dir L; stack := stack L; errs := errs L |}.
Definition set_final (v : bool) (L : lexer) : lexer :=
  {| inp := inp L; pending := pending L; final_newline := v; at_line_head := at_line_head L;
     close_allowed := close_allowed L; dir := dir L; stack := stack L; errs := errs L |}.
Definition set_head (v : bool) (L : lexer) : lexer :=
  {| inp := inp L; pending := pending L; final_newline := final_newline L; at_line_head := v;
     close_allowed := close_allowed L; dir := dir L; stack := stack L; errs := errs L |}.
Definition set_close (v : bool) (L : lexer) : lexer :=
  {| inp := inp L; pending := pending L; final_newline := final_newline L; at_line_head := at_line_head L;
     close_allowed := v; dir := dir L; stack := stack L; errs := errs L |}.
Definition set_dir (v : directive) (L : lexer) : lexer :=
  {| inp := inp L; pending := pending L; final_newline := final_newline L; at_line_head := at_line_head L;
     close_allowed := close_allowed L; dir := v; stack := stack L; errs := errs L |}.
Definition set_stack (v : list interp) (L : lexer) : lexer :=
  {| inp := inp L; pending := pending L; final_newline := final_newline L; at_line_head := at_line_head L;
     close_allowed := close_allowed L; dir := dir L; stack := v; errs := errs L |}.
(** lexer.rs HasLocation::location *)
Definition location (L : lexer) : N * N := (line (inp L), col (inp L)).
(** Context::register_error at a given location *)
Definition register (at_ : N * N) (e : err) (L : lexer) : lexer :=
  {| inp := inp L; pending := pending L; final_newline := final_newline L; at_line_head := at_line_head L;
     close_allowed := close_allowed L; dir := dir L; stack := stack L; errs := (at_, e) :: errs L |}.
Definition error (e : err) (L : lexer) : lexer := register (location L) e L.

(** lexer.rs:656-667 from_input *)
Definition from_input (t : tracker) : lexer :=
  {| inp := t; pending := None; final_newline := false; at_line_head := true; close_allowed := true;
     dir := DNone; stack := []; errs := [] |}.
(** lexer.rs:670-676 new *)
Definition new_lexer (input : list byte) : lexer := from_input (new input).

(** lexer.rs:437-460 from_latin1, from_utf8_or_latin1: a Latin-1 byte is the code point of the same number *)
Definition from_utf8_or_latin1 (bs : list byte) : text := match decode bs with Some t => t | None => bs end.

(** lexer.rs:433-435 is_ident *)
Definition is_ident_byte (b : byte) : bool :=
  ((97 <=? b) && (b <=? 122)) || ((65 <=? b) && (b <=? 90)) || (b =? 95).

(** lexer.rs:706-726 next *)
Definition lnext (L : lexer) : option byte * lexer :=
  match pending L with
  | Some b => (Some b, set_pending None L)
  | None =>
      let '(r, t) := step (inp L) in
      let moved := line (inp L) <? line t in
      let head := if moved then true else at_line_head L in
      (r, {| inp := t; pending := None; final_newline := final_newline L;
             at_line_head := match r with
                             | Some ch => if negb (ch =? 9) && negb (ch =? 32) then false else head
                             | None => head
                             end;
             close_allowed := close_allowed L; dir := if moved then DNone else dir L;
             stack := stack L; errs := errs L |})
  end.

(** lexer.rs:728-733 put_back *)
Definition put_back (v : option byte) (L : lexer) : res lexer :=
  match pending L with Some _ => Panic | None => Ok (set_pending v L) end.

(** What is still to be read. *)
Definition bytes (L : lexer) : list byte :=
  match pending L with Some b => b :: rest (inp L) | None => rest (inp L) end.
(** Fuel that suffices for any loop that reads a byte per turn. *)
Definition fuel_of (L : lexer) : nat := S (S (List.length (bytes L))).

(** *** Comments *)
(** lexer.rs:763-788 skip_block_comments, the loop.  [b1] is buffer[1]; [doc] = comment.is_some(). *)
Fixpoint block_loop (fuel : nat) (depth : nat) (b1 : byte) (doc : bool) (acc : list byte) (L : lexer)
  : res (list byte * lexer) :=
  match fuel with
  | O => Stuck
  | S fuel' =>
      let b0 := b1 in
      match lnext L with
      | (None, L1) => Ok (acc, error EUntermComment L1)
      | (Some v, L1) =>
          let acc' := if negb (b0 =? 0) && doc then acc ++ [b0] else acc in
          if (b0 =? 47) && (v =? 42) then block_loop fuel' (depth + 1) v doc acc' L1
          else if (b0 =? 42) && (v =? 47) then
            if (depth - 1 =? 0)%nat then Ok (acc, L1) else block_loop fuel' (depth - 1) v doc acc' L1
          else block_loop fuel' depth v doc acc' L1
      end
  end.

Section LEXER.
(** f32: the type, [f32::from_str], [f32::to_string], 0.0.  IEEE arithmetic is not modelled. *)
Variable F : Type.
Variable parse_f32 : text -> option F.
Variable show_f32 : F -> text.
Variable f32_zero : F.

(** lexer.rs:250-272 Token (Eof is never produced by the lexer) *)
Inductive token : Type :=
  | TPunct (p : punct) | TIdent (i : text) (ws : bool) | TString (s : text)
  | TInterpBegin (s : text) | TInterpPart (s : text) | TInterpEnd (s : text)
  | TResource (s : text) | TInt (i : Z) | TFloat (f : F)
  | TDoc (k : comment_kind) (t : doc_target) (s : text).

(** lexer.rs:735-794 skip_block_comments *)
Definition skip_block_comments (L : lexer) : res (option token * lexer) :=
  let '(c, L1) := lnext L in
  let '(comment, b1) :=
    match c with
    | Some ch => if ch =? 42 then (Some Following, 42) else if ch =? 33 then (Some Enclosing, 0) else (None, ch)
    | None => (None, 0)
    end in
  do (txt, L2) <- block_loop (fuel_of L1) 1 b1 (match comment with Some _ => true | None => false end) [] L1;
  Ok (match comment with
      | Some t => if (List.length txt =? 0)%nat then None else Some (TDoc KBlock t (from_utf8_or_latin1 txt))
      | None => None
      end, L2).

(** lexer.rs:816-839 skip_line_comment, the loop *)
Fixpoint line_loop (fuel : nat) (backslash doc : bool) (acc : list byte) (L : lexer) : res (list byte * lexer) :=
  match fuel with
  | O => Stuck
  | S fuel' =>
      match lnext L with
      | (None, L1) => Ok (acc, L1)
      | (Some ch, L1) =>
          let acc' := if negb (ch =? 13) && negb (ch =? 10) && doc then acc ++ [ch] else acc in
          if ch =? 13 then line_loop fuel' backslash doc acc' L1
          else if backslash then
            line_loop fuel' false doc acc' (if ch =? 10 then error EBackslashComment L1 else L1)
          else if ch =? 10 then do L2 <- put_back (Some ch) L1; Ok (acc', L2)
          else line_loop fuel' (ch =? 92) doc acc' L1
      end
  end.

(** lexer.rs:796-845 skip_line_comment *)
Definition skip_line_comment (L : lexer) : res (option token * lexer) :=
  let '(c, L1) := lnext L in
  if match c with Some ch => ch =? 10 | None => false end then do L2 <- put_back (Some 10) L1; Ok (None, L2)
  else
    let comment := match c with
                   | Some ch => if ch =? 47 then Some Following else if ch =? 33 then Some Enclosing else None
                   | None => None end in
    let backslash := match c with Some ch => ch =? 92 | None => false end in
    do (txt, L2) <- line_loop (fuel_of L1) backslash (match comment with Some _ => true | None => false end) [] L1;
    Ok (match comment with Some t => Some (TDoc KLine t (from_utf8_or_latin1 txt)) | None => None end, L2).

(** *** Numbers *)
(** char::is_digit(radix) for the two radixes used, 10 and 16, and its value *)
Definition digit_value (b : byte) : option N :=
  if (48 <=? b) && (b <=? 57) then Some (b - 48)
  else if (97 <=? b) && (b <=? 102) then Some (b - 87)
  else if (65 <=? b) && (b <=? 70) then Some (b - 55) else None.
Definition is_radix_digit (radix : N) (b : byte) : bool :=
  match digit_value b with Some v => v <? N.max radix 10 | None => false end.
(** i32::from_str_radix on the buffers built here, which begin with a digit *)
Fixpoint radix_value (radix acc : N) (s : text) : option N :=
  match s with
  | [] => Some acc
  | b :: s' => match digit_value b with
               | Some v => if v <? radix then radix_value radix (acc * radix + v) s' else None
               | None => None
               end
  end.
Definition i32_from_str_radix (s : text) (radix : N) : option Z :=
  match s with
  | [] => None
  | _ => match radix_value radix 0 s with
         | Some v => if v <=? 2 ^ 31 - 1 then Some (Z.of_N v) else None
         | None => None
         end
  end.

(** lexer.rs:879-898 the three characters after '#': what [read_number_inner] returns *)
Fixpoint hash_loop (n : nat) (buf after : text) (L : lexer) : text * lexer :=
  match n with
  | O => (if text_eqb after (lit "INF") then lit "inf" else lit "NaN", L)
  | S n' =>
      match lnext L with
      | (Some ch, L1) =>
          let after' := after ++ [ch] in
          if existsb (text_eqb after') [lit "I"; lit "IN"; lit "INF"; lit "IND"]
          then hash_loop n' buf after' L1
          else (buf ++ after', L1)
      | (None, L1) => (buf ++ after, L1)
      end
  end.

(** lexer.rs:863-909 read_number_inner, the loop.  [char] of a byte is the code point of the same number. *)
Fixpoint number_loop (fuel : nat) (integer exponent : bool) (radix : N) (buf : text) (L : lexer)
  : res (bool * N * text * lexer) :=
  match fuel with
  | O => Stuck
  | S fuel' =>
      match lnext L with
      | (Some ch, L1) =>
          if ch =? 95 then number_loop fuel' integer exponent radix buf L1
          else if (ch =? 46) || (ch =? 101) || (ch =? 69) then
            if radix =? 16 then number_loop fuel' integer exponent radix (buf ++ [ch]) L1
            else number_loop fuel' false (exponent || (ch =? 101) || (ch =? 69)) radix (buf ++ [ch]) L1
          else if ((ch =? 43) || (ch =? 45)) && exponent then number_loop fuel' integer exponent radix (buf ++ [ch]) L1
          else if ch =? 35 then let '(b, L2) := hash_loop 3 (buf ++ [ch]) [] L1 in Ok (false, 10, b, L2)
          else if is_radix_digit radix ch then number_loop fuel' integer false radix (buf ++ [ch]) L1
          else do L2 <- put_back (Some ch) L1; Ok (integer, radix, buf, L2)
      | (None, L1) => do L2 <- put_back None L1; Ok (integer, radix, buf, L2)
      end
  end.
(** lexer.rs:847-910 read_number_inner *)
Definition read_number_inner (first : byte) (L : lexer) : res (bool * N * text * lexer) :=
  if first =? 46 then number_loop (fuel_of L) false false 10 [first] L
  else if first =? 48 then
    let '(c, L1) := lnext L in
    if match c with Some ch => ch =? 120 | None => false end then number_loop (fuel_of L1) true false 16 [first] L1
    else do L2 <- put_back c L1; number_loop (fuel_of L2) true false 8 [first] L2
  else number_loop (fuel_of L) true false 10 [first] L.
(** lexer.rs:912-951 read_number *)
Definition read_number (first : byte) (L : lexer) : res (token * lexer) :=
  do (integer, radix, buf, L1) <- read_number_inner first L;
  if integer : bool then
    match i32_from_str_radix buf radix with
    | Some v => Ok (TInt v, L1)
    | None =>
        match (if radix =? 10 then parse_f32 buf else None) with
        | Some v => Ok (TFloat v, if text_eqb (show_f32 v) buf then L1 else error EPrecision L1)
        | None => Ok (TInt 0, error EBadInt L1)
        end
    end
  else
    match parse_f32 buf with
    | Some v => Ok (TFloat v, L1)
    | None => Ok (TFloat f32_zero, error EBadFloat L1)
    end.

(** *** Identifiers *)
(** lexer.rs:953-972 read_ident.  The code slices the input from [first] on; here the bytes are collected as they are read
    ([first] is the last byte read, so the slice is those bytes: its assertion holds because nothing is put back). *)
Fixpoint ident_loop (fuel : nat) (buf : list byte) (L : lexer) : res (list byte * bool * lexer) :=
  match fuel with
  | O => Stuck
  | S fuel' =>
      let '(c, L1) := lnext L in
      match c with
      | Some ch =>
          if is_ident_byte ch || is_digit ch then ident_loop fuel' (buf ++ [ch]) L1
          else do L2 <- put_back c L1; Ok (buf, (ch =? 32) || (ch =? 9), L2)
      | None => do L2 <- put_back c L1; Ok (buf, false, L2)
      end
  end.
Definition read_ident (first : byte) (L : lexer) : res (text * bool * lexer) :=
  do (buf, ws, L1) <- ident_loop (fuel_of L) [first] L;
  Ok (from_utf8_or_latin1 buf, ws, L1).

(** *** Resources and strings *)
(** lexer.rs:974-995 read_resource *)
Fixpoint resource_loop (fuel : nat) (start : N * N) (backslash : bool) (buf : list byte) (L : lexer)
  : res (list byte * lexer) :=
  match fuel with
  | O => Stuck
  | S fuel' =>
      match lnext L with
      | (Some ch, L1) =>
          if backslash then resource_loop fuel' start false (buf ++ [ch]) L1
          else if ch =? 92 then resource_loop fuel' start true buf L1
          else if ch =? 39 then Ok (buf, L1)
          else resource_loop fuel' start false (buf ++ [ch]) L1
      | (None, L1) => Ok (buf, register start EUntermResource L1)
      end
  end.
Definition read_resource (L : lexer) : res (text * lexer) :=
  do (buf, L1) <- resource_loop (fuel_of L) (location L) false [] L;
  Ok (from_utf8_or_latin1 buf, L1).

(** lexer.rs:1173-1188 skip_ws; [nl] is the counter 0, 1 or 2 *)
Fixpoint ws_loop (fuel : nat) (nl : N) (L : lexer) : res (option byte * lexer) :=
  match fuel with
  | O => Stuck
  | S fuel' =>
      let '(c, L1) := lnext L in
      match c with
      | Some ch =>
          if ch =? 13 then ws_loop fuel' nl L1
          else if ((ch =? 32) || (ch =? 9)) && (negb (at_line_head L1) || (0 <? nl)) then ws_loop fuel' nl (set_close false L1)
          else if (ch =? 10) && (nl =? 2) then ws_loop fuel' 1 (set_close true L1)
          else Ok (c, L1)
      | None => Ok (c, L1)
      end
  end.
Definition skip_ws (skip_newlines : bool) (L : lexer) : res (option byte * lexer) :=
  ws_loop (fuel_of L) (if skip_newlines then 2 else 0) L.

(** lexer.rs:1004-1056 read_string, the loop; result: the buffer and interp_opened *)
Fixpoint string_loop (fuel : nat) (start : N * N) (end_ : list byte) (backslash : bool) (idx : nat) (buf : list byte) (L : lexer)
  : res (list byte * bool * lexer) :=
  match fuel with
  | O => Stuck
  | S fuel' =>
      match lnext L with
      | (None, L1) => Ok (buf, false, register start EUntermString L1)
      | (Some ch, L1) =>
          if (ch =? nth idx end_ 256) && negb backslash then
            if (idx + 1 =? List.length end_)%nat then Ok (buf, false, L1)
            else string_loop fuel' start end_ backslash (idx + 1) buf L1
          else if (0 <? idx)%nat && (ch =? nth (idx - 1) end_ 256)
                  && text_eqb (firstn (idx - 1) end_) (firstn (idx - 1) (skipn 1 end_)) && negb backslash then
            string_loop fuel' start end_ backslash idx (buf ++ firstn 1 end_) L1
          else
            let buf := buf ++ firstn idx end_ in
            if backslash then
              if (ch =? 13) || (ch =? 10) then
                do (n, L2) <- skip_ws true L1;
                do L3 <- put_back n L2;
                string_loop fuel' start end_ false 0 buf L3
              else string_loop fuel' start end_ false 0 (buf ++ [92; ch]) L1
            else if ch =? 91 then
              Ok (buf, true, set_stack ({| i_end := end_; i_depth := 1 |} :: stack L1) L1)
            else if ch =? 92 then string_loop fuel' start end_ true 0 buf L1
            else string_loop fuel' start end_ false 0 (buf ++ [ch]) L1
      end
  end.
(** lexer.rs:997-1065 read_string *)
Definition read_string (end_ : list byte) (interp_closed : bool) (L : lexer) : res (token * lexer) :=
  do (buf, opened, L1) <- string_loop (fuel_of L) (location L) end_ false 0 [] L;
  let s := from_utf8_or_latin1 buf in
  Ok (match opened, interp_closed with
      | true, true => TInterpPart s | true, false => TInterpBegin s
      | false, true => TInterpEnd s | false, false => TString s
      end, L1).

(** slice::ends_with *)
Definition ends_with (pat l : list byte) : bool := starts_with (rev pat) (rev l).
(** lexer.rs:1067-1085 read_raw_string_inner *)
Fixpoint raw_loop (fuel : nat) (start : N * N) (terminator buf : list byte) (L : lexer) : res (list byte * lexer) :=
  match fuel with
  | O => Stuck
  | S fuel' =>
      match lnext L with
      | (None, L1) => Ok (buf, register start EUntermRaw L1)
      | (Some ch, L1) =>
          let buf := buf ++ [ch] in
          if ends_with terminator buf then Ok (firstn (List.length buf - List.length terminator) buf, L1)
          else raw_loop fuel' start terminator buf L1
      end
  end.
Definition read_raw_string_inner (terminator : list byte) (L : lexer) : res (token * lexer) :=
  do (buf, L1) <- raw_loop (fuel_of L) (location L) terminator [] L;
  Ok (TString (from_utf8_or_latin1 buf), L1).
(** lexer.rs:1099-1109 the terminator of @( ... ) *)
Fixpoint term_loop (fuel : nat) (acc : list byte) (L : lexer) : res (option (list byte) * lexer) :=
  match fuel with
  | O => Stuck
  | S fuel' =>
      match lnext L with
      | (None, L1) => Ok (None, error EUntermRawTerm L1)
      | (Some ch, L1) => if ch =? 41 then Ok (Some acc, L1) else term_loop fuel' (acc ++ [ch]) L1
      end
  end.
(** lexer.rs:1087-1129 read_raw_string *)
Definition read_raw_string (L : lexer) : res (token * lexer) :=
  let '(c, L1) := lnext L in
  match c with
  | None => Ok (TString [], error EUntermRaw L1)
  | Some ch =>
      if ch =? 10 then Ok (TString [], error EUntermRaw L1)
      else if ch =? 40 then
        do (t, L2) <- term_loop (fuel_of L1) [] L1;
        match t with
        | None => Ok (TString [], L2)
        | Some [] => Ok (TString [], error EEmptyRawTerm L2)
        | Some t => read_raw_string_inner t L2
        end
      else if ch =? 123 then
        let '(c2, L2) := lnext L1 in
        if match c2 with Some ch2 => ch2 =? 34 | None => false end then read_raw_string_inner [34; 125] L2
        else do L3 <- put_back c2 L2; read_raw_string_inner [123] L3
      else read_raw_string_inner [ch] L1
  end.

(** *** Punctuation *)
(** lexer.rs:223-227 filter_punct_table *)
Definition filter_punct_table (filter : byte) : list (list byte * punct) :=
  let '(s, e) := nth (N.to_nat filter) SPEEDY_TABLE (0, 0)%nat in
  firstn (e - s) (skipn s PUNCT_TABLE).
(** lexer.rs:229-247 filter_punct: the first run of entries that start with [filter] *)
Fixpoint skip_until (f : list byte * punct -> bool) (l : list (list byte * punct)) : list (list byte * punct) :=
  match l with [] => [] | x :: l' => if f x then l else skip_until f l' end.
Fixpoint take_while (f : list byte * punct -> bool) (l : list (list byte * punct)) : list (list byte * punct) :=
  match l with [] => [] | x :: l' => if f x then x :: take_while f l' else [] end.
Definition filter_punct (input : list (list byte * punct)) (filter : list byte) : list (list byte * punct) :=
  let f := fun e : list byte * punct => starts_with filter (fst e) in take_while f (skip_until f input).

(** lexer.rs:1134-1157 read_punct, the loop.  The needle array has 8 places; a ninth would be a panic. *)
Fixpoint punct_loop (fuel : nat) (needle : list byte) (items : list (list byte * punct)) (candidate : option punct) (L : lexer)
  : res (option punct * lexer) :=
  match items with
  | [] => if (1 <? List.length needle)%nat
          then do L1 <- put_back (Some (last needle 0)) L; Ok (candidate, L1)
          else Ok (candidate, L)
  | it :: more =>
      match fuel with
      | O => Stuck
      | S fuel' =>
          let candidate := if text_eqb (fst it) needle then Some (snd it) else candidate in
          match more with
          | [] => Ok (candidate, L)
          | _ =>
              match lnext L with
              | (None, L1) => Ok (candidate, L1)
              | (Some b, L1) =>
                  if (List.length needle <? 8)%nat
                  then punct_loop fuel' (needle ++ [b]) (filter_punct items (needle ++ [b])) candidate L1
                  else Panic
              end
          end
      end
  end.
Definition read_punct (first : byte) (L : lexer) : res (option punct * lexer) :=
  punct_loop (fuel_of L) [first] (filter_punct_table first) None L.

(** lexer.rs:1160-1171 check_close *)
Definition check_close (p : punct) (L : lexer) : res (punct * lexer) :=
  if punct_eq_dec p (close p) then Ok (p, L)
  else
    let '(n, L1) := lnext L in
    let keep := match n with Some ch => (ch =? 13) || (ch =? 32) || (ch =? 9) || (ch =? 10) | None => false end in
    do L2 <- put_back n L1;
    Ok (if keep then p else close p, L2).

(** *** Tokens *)
(** lexer.rs:1228-1231: check_close applied to the punctuation found, if allowed *)
Definition close_stage (p0 : option punct) (L : lexer) : res (option punct * lexer) :=
  if close_allowed L
  then match p0 with
       | Some p => do (p', L1) <- check_close p L; Ok (Some p', L1)
       | None => Ok (None, L)
       end
  else Ok (p0, L).

(** lexer.rs:1232-1310 the match of Iterator::next.  [again skip_newlines found_illegal] is [continue]. *)
Definition dispatch (again : bool -> bool -> lexer -> res (option ((N * N) * token) * lexer))
    (first : byte) (loc : N * N) (found_illegal : bool) (p : option punct) (L3 : lexer) : res (option ((N * N) * token) * lexer) :=
  let punct_token (p : punct) (L : lexer) := Ok (Some (loc, TPunct p), L) in
  match p with
  | Some PHash =>
      punct_token PHash (match dir L3 with DNone => set_dir DHash L3 | _ => L3 end)
  | Some PBlockComment =>
      do (t, L4) <- skip_block_comments L3;
      match t with Some t => Ok (Some (loc, t), L4) | None => again false found_illegal L4 end
  | Some PLineComment =>
      do (t, L4) <- skip_line_comment L3;
      match t with Some t => Ok (Some (loc, t), L4) | None => again false found_illegal L4 end
  | Some PSingleQuote => do (s, L4) <- read_resource L3; Ok (Some (loc, TResource s), L4)
  | Some PDoubleQuote => do (t, L4) <- read_string [34] false L3; Ok (Some (loc, t), L4)
  | Some PBlockString => do (t, L4) <- read_string [34; 125] false L3; Ok (Some (loc, t), L4)
  | Some PLBracket =>
      punct_token PLBracket (match stack L3 with
        | i :: st => set_stack ({| i_end := i_end i; i_depth := i_depth i + 1 |} :: st) L3 | [] => L3 end)
  | Some PSafeLBracket =>
      punct_token PSafeLBracket (match stack L3 with
        | i :: st => set_stack ({| i_end := i_end i; i_depth := i_depth i + 1 |} :: st) L3 | [] => L3 end)
  | Some PRBracket =>
      match stack L3 with
      | i :: st =>
          if (i_depth i =? 0)%nat then Panic (* usize underflow *)
          else if (i_depth i - 1 =? 0)%nat
          then do (t, L4) <- read_string (i_end i) true (set_stack st L3); Ok (Some (loc, t), L4)
          else punct_token PRBracket
                 (set_close true (set_stack ({| i_end := i_end i; i_depth := i_depth i - 1 |} :: st) L3))
      | [] => punct_token PRBracket (set_close true L3)
      end
  | Some PRParen => punct_token PRParen (set_close true L3)
  | Some v => punct_token v L3
  | None =>
      if is_digit first then do (t, L4) <- read_number first L3; Ok (Some (loc, t), L4)
      else if is_ident_byte first then
        do (ident, ws, L4) <- read_ident first L3;
        let L5 := match dir L4 with
                  | DHash => set_dir (if text_eqb ident (lit "warn") || text_eqb ident (lit "error")
                                      then DStringy else DOrdinary) L4
                  | _ => L4
                  end in
        if text_eqb ident (lit "in") then punct_token PIn L5
        else Ok (Some (loc, TIdent ident ws), set_close true L5)
      else if first =? 92 then again true found_illegal (set_head false L3)
      else if first =? 64 then do (t, L4) <- read_raw_string L3; Ok (Some (loc, t), L4)
      else again false true (if found_illegal then L3 else error (EIllegal first) L3)
  end.

(** lexer.rs:1194-1312 Iterator::next *)
Fixpoint token_loop (fuel : nat) (skip_newlines found_illegal : bool) (L : lexer)
  : res (option ((N * N) * token) * lexer) :=
  match fuel with
  | O => Stuck
  | S fuel' =>
      do (c, L1) <- skip_ws skip_newlines L;
      match c with
      | None =>
          if final_newline L1 then Ok (None, L1)
          else Ok (Some ((fst (location L1), snd (location L1) + 1), TPunct PNewline), set_final true L1)
      | Some first =>
          match dir L1 with
          | DStringy =>
              do L2 <- put_back (Some first) (set_dir DNone L1);
              do (t, L3) <- read_string [10] false L2;
              Ok (Some (location L1, t), L3)
          | _ =>
              do (p0, L2) <- read_punct first L1;
              do (p, L3) <- close_stage p0 L2;
              dispatch (token_loop fuel') first (location L1) found_illegal p L3
          end
      end
  end.
Definition token_next (L : lexer) : res (option ((N * N) * token) * lexer) := token_loop (fuel_of L) false false L.

(** The iterator run until it returns None. *)
Fixpoint tokens (fuel : nat) (L : lexer) : res (list ((N * N) * token) * lexer) :=
  match fuel with
  | O => Stuck
  | S fuel' =>
      do (t, L1) <- token_next L;
      match t with
      | None => Ok ([], L1)
      | Some t => do (ts, L2) <- tokens fuel' L1; Ok (t :: ts, L2)
      end
  end.
Definition lex (input : list byte) : res (list ((N * N) * token) * lexer) :=
  tokens (S (S (List.length input))) (new_lexer input).
End LEXER.
