(** Model of crates/dreammaker/src/docs.rs: rendering of documentation comments.
    Strings are lists of Unicode scalar values; byte lengths and byte slices are kept ([None] = panic). *)
From Coq Require Import List NArith Bool.
From Verif Require Import Common.Text Lsp.Document.
Import ListNotations.
Open Scope N_scope.

(** docs.rs:118-125 *)
Inductive comment_kind := Block | Line.
(** docs.rs:127-136 [CommentKind::ignore_char] *)
Definition ignore_char (k : comment_kind) : chr := match k with Block => 42 | Line => 47 end.
(** docs.rs:73-79; the target is not looked at by the rendering *)
Record doc_comment := { kind : comment_kind; body : text }.

(** the closure of docs.rs:153, 175 and 227 *)
Definition ignored (ic : chr) (c : chr) : bool := is_whitespace c || (c =? ic).
(** docs.rs:226-228 [is_empty] *)
Definition is_empty (t : text) (ic : chr) : bool := forallb (ignored ic) t.

(** [str::trim_start_matches], [str::trim_end_matches] with a closure (std) *)
Definition trim_start_matches (f : chr -> bool) (t : text) : text := drop_while f t.
Definition trim_end_matches (f : chr -> bool) (t : text) : text := rev (drop_while f (rev t)).

(** docs.rs:158-170 and 180-194, the loop: what is left of [chars] when the characters first differ ([no_match]) *)
Fixpoint no_match (chars this_chars : text) : text :=
  match chars with
  | [] => []
  | ch :: rest =>
      match this_chars with
      | ch' :: this_rest => if ch =? ch' then no_match rest this_rest else chars
      | [] => chars
      end
  end.

(** [None] is a panic (a slice out of range or inside a character) *)
Notation "'do' x <- e ; f" := (match e with Some x => f | None => None end) (at level 200, x pattern, e at level 100, f at level 200).

(** docs.rs:151-173, one line: the new common prefix *)
Definition next_prefix (ic : chr) (prefix : option text) (line : text) : option text :=
  do this_prefix <- slice 0 (blen line - blen (trim_start_matches (ignored ic) line)) line;
  match prefix with
  | None => Some this_prefix
  | Some p => slice 0 (blen p - blen (no_match p this_prefix)) p
  end.
(** docs.rs:175-197, one line: the new common suffix; the characters are taken from the back *)
Definition next_suffix (ic : chr) (suffix : option text) (line : text) : option text :=
  do this_suffix <- slice (blen (trim_end_matches (ignored ic) line)) (blen line) line;
  match suffix with
  | None => Some this_suffix
  | Some s => slice (blen (rev (no_match (rev s) (rev this_suffix)))) (blen s) s
  end.
(** docs.rs:143-198: the loop over the lines *)
Fixpoint margins (ic : chr) (ls : list text) (prefix suffix : option text) : option (option text * option text) :=
  match ls with
  | [] => Some (prefix, suffix)
  | line :: ls' =>
      if is_empty line ic then margins ic ls' prefix suffix
      else do p <- next_prefix ic prefix line;
           do s <- next_suffix ic suffix line;
           margins ic ls' (Some p) (Some s)
  end.
(** docs.rs:203-222: the stripping loop; [out] is what has been appended so far *)
Fixpoint strip_lines (ic : chr) (prefix_len suffix_len : N) (ls : list text) (newlines : nat) (anything : bool) (out : text)
  : option (text * bool) :=
  match ls with
  | [] => Some (out, anything)
  | line :: ls' =>
      if is_empty line ic then
        strip_lines ic prefix_len suffix_len ls' (match newlines with O => O | S n => S (S n) end) anything out
      else do piece <- (if blen line <? suffix_len then None else slice prefix_len (blen line - suffix_len) line);
           strip_lines ic prefix_len suffix_len ls' 1%nat true (out ++ repeat NL newlines ++ piece)
  end.
Definition len_or_zero (o : option text) : N := match o with Some t => blen t | None => 0 end.
(** docs.rs:138-223 [simplify]: the text after appending to [out], and whether anything was appended *)
Definition simplify (out t : text) (ic : chr) : option (text * bool) :=
  match t with
  | [] => Some (out, false)
  | _ =>
    do (prefix, suffix) <- margins ic (lines t) None None;
    strip_lines ic (len_or_zero prefix) (len_or_zero suffix) (lines t) 0 false out
  end.

(** docs.rs:91-94 [DocComment::is_empty] *)
Definition comment_is_empty (c : doc_comment) : bool := is_empty (body c) (ignore_char (kind c)).
(** docs.rs:26-28 [DocCollection::is_empty] *)
Definition collection_is_empty (elems : list doc_comment) : bool := forallb comment_is_empty elems.
(** docs.rs:37-40 and 57-59 *)
Definition flush (output line_comments : text) : option text :=
  match line_comments with
  | [] => Some output
  | _ => option_map fst (simplify output line_comments 47)
  end.
(** docs.rs:31-61 [DocCollection::text] *)
Fixpoint text_loop (elems : list doc_comment) (output line_comments : text) : option text :=
  match elems with
  | [] => flush output line_comments
  | each :: rest =>
      match kind each with
      | Block =>
          do output <- flush output line_comments;
          if comment_is_empty each then text_loop rest output []
          else do (output, anything) <- simplify (output ++ [NL]) (body each) 42;
               text_loop rest (if anything then output ++ [NL] else output) []
      | Line => text_loop rest output (line_comments ++ body each ++ [NL])
      end
  end.
Definition doc_text (elems : list doc_comment) : option text := text_loop elems [] [].
