(** The indentation processor.  Models crates/dreammaker/src/indents.rs. *)
From Coq Require Import List Arith Lia Bool.
From Verif Require Import Lexer.Punct Lexer.Model.
Import ListNotations.
Open Scope nat_scope.

Section INDENTS.
(** f32, as in Lexer/Model.v *)
Variable F : Type.
(** Location *)
Variable Loc : Type.
Variable default_loc : Loc.
Notation tok := (token F).
Notation ltok := (Loc * tok)%type.

(** The diagnostics, by message *)
Inductive ierr : Set := EInconsistent | EMultiple | EUnmatched.

(** indents.rs:11-24 IndentProcessor, without [inner] and [output]; [ierrs]: diagnostics registered so far, newest first *)
Record ist : Type := {
  last_input_loc : Loc; eol_location : option Loc; current : option (nat * nat); current_spaces : option nat;
  parentheses : nat; eof_yielded : bool; ierrs : list (Loc * ierr) }.

(** indents.rs:30-45 new *)
Definition inew : ist :=
  {| last_input_loc := default_loc; eol_location := None; current := None; current_spaces := None;
     parentheses := 0; eof_yielded := false; ierrs := [] |}.

Definition set_loc (v : Loc) (s : ist) : ist :=
  {| last_input_loc := v; eol_location := eol_location s; current := current s; current_spaces := current_spaces s;
     parentheses := parentheses s; eof_yielded := eof_yielded s; ierrs := ierrs s |}.
Definition set_eol (v : option Loc) (s : ist) : ist :=
  {| last_input_loc := last_input_loc s; eol_location := v; current := current s; current_spaces := current_spaces s;
     parentheses := parentheses s; eof_yielded := eof_yielded s; ierrs := ierrs s |}.
Definition set_current (v : option (nat * nat)) (s : ist) : ist :=
  {| last_input_loc := last_input_loc s; eol_location := eol_location s; current := v; current_spaces := current_spaces s;
     parentheses := parentheses s; eof_yielded := eof_yielded s; ierrs := ierrs s |}.
Definition set_spaces (v : option nat) (s : ist) : ist :=
  {| last_input_loc := last_input_loc s; eol_location := eol_location s; current := current s; current_spaces := v;
     parentheses := parentheses s; eof_yielded := eof_yielded s; ierrs := ierrs s |}.
Definition set_parens (v : nat) (s : ist) : ist :=
  {| last_input_loc := last_input_loc s; eol_location := eol_location s; current := current s; current_spaces := current_spaces s;
     parentheses := v; eof_yielded := eof_yielded s; ierrs := ierrs s |}.
Definition set_eof (v : bool) (s : ist) : ist :=
  {| last_input_loc := last_input_loc s; eol_location := eol_location s; current := current s; current_spaces := current_spaces s;
     parentheses := parentheses s; eof_yielded := v; ierrs := ierrs s |}.
Definition ireg (e : ierr) (s : ist) : ist :=
  {| last_input_loc := last_input_loc s; eol_location := eol_location s; current := current s; current_spaces := current_spaces s;
     parentheses := parentheses s; eof_yielded := eof_yielded s; ierrs := (last_input_loc s, e) :: ierrs s |}.

(** indents.rs:58-64 push_eol: the location used *)
Definition eol_or_last (s : ist) : Loc := match eol_location s with Some l => l | None => last_input_loc s end.
Definition P (p : punct) : tok := TPunct F p.

(** indents.rs:99-133 the new level: (indents, new_indents), or [None] for a division by zero *)
Definition measure (spaces : nat) (s : ist) : option (nat * nat * ist) :=
  match current s with
  | None => if spaces =? 0 then Some (0, 0, set_current None s) else Some (0, 1, set_current (Some (spaces, 1)) s)
  | Some (spaces_per_indent, indents) =>
      if spaces =? 0 then Some (indents, 0, set_current None s)
      else if spaces_per_indent =? 0 then None
      else
        let s := if spaces mod spaces_per_indent =? 0 then s else ireg EInconsistent s in
        let new_indents := spaces / spaces_per_indent in
        Some (indents, new_indents, set_current (Some (spaces_per_indent, new_indents)) s)
  end.

(** indents.rs:135-165 the tokens inserted *)
Definition adjust (indents new_indents : nat) (s : ist) : list ltok * ist :=
  let at_ := eol_or_last s in
  if indents + 1 =? new_indents then ([(at_, P PLBrace)], s)
  else if indents <? new_indents then (repeat (at_, P PLBrace) (new_indents - indents), ireg EMultiple s)
  else if indents =? new_indents + 1 then ([(at_, P PRBrace)], s)
  else if new_indents <? indents then (repeat (at_, P PRBrace) (indents - new_indents), s)
  else ([(at_, P PSemicolon)], s).

(** indents.rs:97-166 *)
Definition indentation (s : ist) : option (list ltok * ist) :=
  match current_spaces s with
  | None => Some ([], s)
  | Some spaces =>
      match measure spaces (set_spaces None s) with
      | None => None
      | Some (indents, new_indents, s') => Some (adjust indents new_indents s')
      end
  end.

(** indents.rs:168-195 what the token itself does; [None] = the underflow of [y - 1] (a panic with overflow checks,
    a wrap-around to usize::MAX without) *)
Definition count_token (read : tok) (s : ist) : option ist :=
  match read with
  | TPunct _ PLBrace => Some (set_current (match current s with None => Some (1, 1) | Some (x, y) => Some (x, y + 1) end) s)
  | TPunct _ PRBrace =>
      match current s with
      | None => Some (ireg EUnmatched s)
      | Some (x, y) => if y =? 1 then Some (set_current None s)
                       else if y =? 0 then None else Some (set_current (Some (x, y - 1)) s)
      end
  | TPunct _ PLParen => Some (set_parens (parentheses s + 1) s)
  | TPunct _ PRParen => Some (set_parens (parentheses s - 1) s)
  | _ => Some s
  end.

(** indents.rs:72-199 real_next.  What it pushes to the output queue is returned. *)
Definition real_next (read : tok) (s : ist) : option (list ltok * ist) :=
  match read with
  | TPunct _ PNewline =>
      let s := if parentheses s =? 0 then set_spaces (Some 0) s else s in
      Some ([], match eol_location s with None => set_eol (Some (last_input_loc s)) s | Some _ => s end)
  | TPunct _ PTab | TPunct _ PSpace =>
      Some ([], match current_spaces s with Some n => set_spaces (Some (n + 1)) s | None => s end)
  | _ =>
      let s := match read with TPunct _ PLBrace | TPunct _ PRBrace => set_spaces None s | _ => s end in
      match indentation s with
      | None => None
      | Some (inserted, s) =>
          match count_token read s with
          | None => None
          | Some s => Some (inserted ++ [(last_input_loc s, read)], set_eol None s)
          end
      end
  end.

(** indents.rs:208-232 Iterator::next; [output] is the queue, [inner] the tokens not yet read.  [None] = panic. *)
Fixpoint inext (output inner : list ltok) (s : ist) {struct inner} : option (option ltok * list ltok * list ltok * ist) :=
  match output with
  | t :: output' => Some (Some t, output', inner, s)
  | [] =>
      match inner with
      | (l, t) :: inner' =>
          match real_next t (set_loc l s) with
          | None => None
          | Some (pushed, s') => inext pushed inner' s'
          end
      | [] =>
          if eof_yielded s then Some (None, [], [], s)
          else
            let closing := match current s with Some (_, indents) => indents | None => 0 end in
            Some (Some (last_input_loc s, P PSemicolon), repeat (last_input_loc s, P PRBrace) closing, [],
                  set_eof true (set_current None s))
      end
  end.

(** The iterator driven until it ends ([Some] final state) or panics ([None]): the tokens it yielded. *)
Inductive drive : list ltok -> list ltok -> ist -> list ltok -> option ist -> Prop :=
  | drive_panic output inner s : inext output inner s = None -> drive output inner s [] None
  | drive_end output inner s output' inner' s' : inext output inner s = Some (None, output', inner', s') -> drive output inner s [] (Some s')
  | drive_token output inner s t output' inner' s' ts r :
      inext output inner s = Some (Some t, output', inner', s') -> drive output' inner' s' ts r -> drive output inner s (t :: ts) r.

Definition process (input : list ltok) (ts : list ltok) (r : option ist) : Prop := drive [] input inew ts r.
End INDENTS.
