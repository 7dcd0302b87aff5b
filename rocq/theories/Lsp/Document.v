(** Model of crates/dm-langserver/src/document.rs.  Strings are lists of Unicode scalar values; offsets are
    byte offsets of their UTF-8 form (so slicing anywhere but between two characters panics).  Line and column
    counters are unbounded: they are u32 in the code and a document is far below 4 GiB. *)
From Coq Require Import List ZArith NArith Lia Bool.
From Verif Require Import Common.Text.
Import ListNotations.
Open Scope N_scope.

(** the outcome of a call: [Err] is a returned error, [Panic] a panic *)
Inductive res (A : Type) := Ok (a : A) | Err | Panic.
Arguments Ok {A}. Arguments Err {A}. Arguments Panic {A}.
Definition bind {A B} (r : res A) (f : A -> res B) : res B :=
  match r with Ok a => f a | Err => Err | Panic => Panic end.

Definition NL : chr := 10.
(** [str::len] *)
Definition blen (t : text) : N := fold_right (fun c n => len_utf8 c + n) 0 t.

(** [(&t[..off], &t[off..])]; [None] = panic *)
Fixpoint split_at (off : N) (t : text) : option (text * text) :=
  if off =? 0 then Some ([], t)
  else match t with
       | [] => None
       | c :: t' => if off <? len_utf8 c then None
                    else match split_at (off - len_utf8 c) t' with Some (a, b) => Some (c :: a, b) | None => None end
       end.
(** [&t[a..b]] *)
Definition slice (a b : N) (t : text) : option text :=
  if b <? a then None
  else match split_at a t with Some (_, r) => option_map fst (split_at (b - a) r) | None => None end.
(** [str::find('\n')] *)
Fixpoint find_nl (t : text) : option N :=
  match t with
  | [] => None
  | c :: t' => if c =? NL then Some 0 else option_map (fun p => len_utf8 c + p) (find_nl t')
  end.

(** document.rs:153-163 line_offset: [n] turns of the loop remain *)
Fixpoint line_offset_from (n : nat) (t : text) (start_pos : N) : res N :=
  match n with
  | O => Ok start_pos
  | S n' =>
      match split_at start_pos t with
      | None => Panic
      | Some (_, rest) => match find_nl rest with
                          | Some next_pos => line_offset_from n' t (start_pos + (next_pos + 1))
                          | None => Err
                          end
      end
  end.
Definition line_offset (t : text) (line : nat) : res N := line_offset_from line t 0.

(** document.rs:170-177: what remains of the text after the loop *)
Fixpoint skip_units (character : N) (chars : text) : text :=
  match chars with
  | [] => []
  | ch :: rest => if character =? 0 then chars else skip_units (character - len_utf16 ch) rest
  end.

(** document.rs:165-179 total_offset *)
Definition total_offset (t : text) (line : nat) (character : N) : res N :=
  bind (line_offset t line) (fun start =>
    match split_at start t with
    | None => Panic
    | Some (_, chars) => Ok (blen t - blen (skip_units character chars))
    end).

(** document.rs:182-199 offset_to_position.  Every turn of the loop moves past a newline. *)
Fixpoint find_line (fuel : nat) (t : text) (offset : N) (line : nat) (line_start : N) : res (nat * N) :=
  match fuel with
  | O => Panic
  | S f =>
      match split_at line_start t with
      | None => Panic
      | Some (_, rest) =>
          match find_nl rest with
          | Some next_pos =>
              if line_start + next_pos <? offset then find_line f t offset (S line) (line_start + (next_pos + 1))
              else Ok (line, line_start)
          | None => Ok (line, line_start)
          end
      end
  end.
Definition utf16 (t : text) : N := fold_right (fun c n => len_utf16 c + n) 0 t.
Definition offset_to_position (t : text) (offset : N) : res (nat * N) :=
  bind (find_line (S (length t)) t offset 0 0) (fun q =>
    match slice (snd q) offset t with
    | Some s => Ok (fst q, utf16 s)
    | None => Panic
    end).

Definition range := ((nat * N) * (nat * N))%type.

(** document.rs:201-206 get_range *)
Definition get_range (t : text) (r : range) : res text :=
  bind (total_offset t (fst (fst r)) (snd (fst r))) (fun a =>
  bind (total_offset t (fst (snd r)) (snd (snd r))) (fun b =>
    match slice a b t with Some s => Ok s | None => Panic end)).

(** ** Documents *)
(** lsp_types::TextDocumentContentChangeEvent *)
Record change := { ch_range : option range; ch_text : text }.

(** document.rs:130-148 Document::change (the new text); String::replace_range panics like slicing *)
Definition apply_change (t : text) (c : change) : res text :=
  match ch_range c with
  | None => Ok (ch_text c)
  | Some r =>
      bind (total_offset t (fst (fst r)) (snd (fst r))) (fun a =>
      bind (total_offset t (fst (snd r)) (snd (snd r))) (fun b =>
        if b <? a then Panic
        else match split_at a t, split_at b t with
             | Some (pre, _), Some (_, post) => Ok (pre ++ ch_text c ++ post)
             | _, _ => Panic
             end))
  end.

(** document.rs:71-78: all changes are applied, a failing one is skipped; the boolean is [result.is_ok()] *)
Fixpoint apply_changes (t : text) (cs : list change) : res (text * bool) :=
  match cs with
  | [] => Ok (t, true)
  | c :: cs' =>
      match apply_change t c with
      | Panic => Panic
      | Err => bind (apply_changes t cs') (fun q => Ok (fst q, false))
      | Ok t' => apply_changes t' cs'
      end
  end.

Section Store.
  Context {url : Type} (ueqb : url -> url -> bool).
  Record document := { version : Z; doc_text : text }.
  (** document.rs:20-22 DocumentStore *)
  Definition store := url -> option document.
  Definition set_doc (s : store) (u : url) (d : option document) : store := fun v => if ueqb v u then d else s v.

  (** client notifications *)
  Inductive event := Open (u : url) (v : Z) (t : text) | Change (u : url) (v : Z) (cs : list change) | Close (u : url).

  (** document.rs:24-79 open, close, change; the boolean tells whether Ok was returned *)
  Definition handle (s : store) (e : event) : res (store * bool) :=
    match e with
    | Open u v t => Ok (set_doc s u (Some {| version := v; doc_text := t |}), match s u with None => true | Some _ => false end)
    | Close u => match s u with Some _ => Ok (set_doc s u None, true) | None => Ok (s, false) end
    | Change u v cs =>
        match s u with
        | None => Ok (s, false)
        | Some d =>
            if (v <? version d)%Z then Ok (s, false)
            else bind (apply_changes (doc_text d) cs) (fun q =>
                   Ok (set_doc s u (Some {| version := v; doc_text := fst q |}), snd q))
        end
    end.
  Fixpoint handle_all (s : store) (es : list event) : res (store * list bool) :=
    match es with
    | [] => Ok (s, [])
    | e :: es' => bind (handle s e) (fun q => bind (handle_all (fst q) es') (fun r => Ok (fst r, snd q :: snd r)))
    end.
End Store.
Arguments document : clear implicits.
Arguments event : clear implicits.
Arguments store : clear implicits.
