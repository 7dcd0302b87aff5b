(** What the lexer is to do, without reference to its state: spellings, gaps, comments (C11, C13, C14). *)
From Coq Require Import List NArith Bool.
From Verif Require Import Common.Text Common.Utf8 Lexer.Tracker Lexer.Punct.
Import ListNotations.
Open Scope N_scope.

(** *** Punctuation *)
(** a spelling of the punctuation table; the keyword [in] is not punctuation *)
Definition spells (w : list byte) (p : punct) : Prop := In (w, p) PUNCT_TABLE /\ p <> PIn.
Definition prefix (w l : list byte) : Prop := exists r, l = w ++ r.
(** [w] is the longest spelling that [l] begins with *)
Definition longest (w : list byte) (p : punct) (l : list byte) : Prop :=
  spells w p /\ prefix w l /\ forall w' p', spells w' p' -> prefix w' l -> (List.length w' <= List.length w)%nat.

(** *** Comments *)
(** number of places where [a] is directly followed by [b] *)
Fixpoint occ (a b : byte) (l : list byte) : nat :=
  match l with
  | x :: (y :: _) as l' => (if (x =? a) && (y =? b) then 1 else 0) + occ a b l'
  | _ => 0
  end.
Definition opens (l : list byte) : nat := occ 47 42 l.   (* "/*" *)
Definition closes (l : list byte) : nat := occ 42 47 l.  (* "*/" *)
(** The comment that was opened before [r] is closed after [n] bytes of [r]: the first place where the closings outnumber the openings. *)
Definition closing (r : list byte) (n : nat) : Prop :=
  (n <= List.length r)%nat /\ (opens (firstn n r) < closes (firstn n r))%nat /\
  forall m, (m < n)%nat -> (closes (firstn m r) <= opens (firstn m r))%nat.
(** a block comment whose opening is followed by [r] takes [n] bytes of [r] and has the given body *)
Definition block_extent (r : list byte) (n : nat) (body : list byte) : Prop :=
  (closing r n /\ body = firstn (n - 2) r) \/
  ((forall m, ~ closing r m) /\ n = List.length r /\ body = removelast r).
Definition nonzero (b : byte) : bool := negb (b =? 0).
(** the documentation in a block comment: [false] for the following item, [true] for the enclosing one *)
Definition block_doc (r body : list byte) : option (bool * list byte) :=
  match (match r with
         | b :: _ => if b =? 42 then Some (false, filter nonzero body) else if b =? 33 then Some (true, filter nonzero (tl body)) else None
         | [] => None
         end) with
  | Some (t, x :: l) => Some (t, x :: l)
  | _ => None
  end.

(** The text of a line comment: carriage returns, a backslash with the byte it protects, other bytes than newline. *)
Inductive line_body : list byte -> Prop :=
  | lb_nil : line_body []
  | lb_cr w : line_body w -> line_body (13 :: w)
  | lb_esc crs b w : Forall (fun c => c = 13) crs -> b <> 13 -> line_body w -> line_body (92 :: crs ++ b :: w)
  | lb_other b w : b <> 13 -> b <> 10 -> b <> 92 -> line_body w -> line_body (b :: w).
(** a line comment whose slashes are followed by [r] has the text [w]: up to the newline, or to the end of the input *)
Definition line_extent (r w : list byte) : Prop :=
  (exists r', r = w ++ 10 :: r' /\ line_body w) \/
  (r = w /\ (line_body w \/ exists w' crs, w = w' ++ 92 :: crs /\ line_body w' /\ Forall (fun c => c = 13) crs)).
Definition line_doc (w : list byte) : option (bool * list byte) :=
  match w with
  | b :: w' =>
      let text := filter (fun c => negb (c =? 13) && negb (c =? 10)) w' in
      if b =? 47 then Some (false, text) else if b =? 33 then Some (true, text) else None
  | [] => None
  end.

(** *** Between the tokens *)
Definition blank (b : byte) : bool := (b =? 9) || (b =? 32).
Definition ident_byte (b : byte) : Prop := (97 <= b <= 122) \/ (65 <= b <= 90) \/ b = 95 \/ (48 <= b <= 57).
(** the part after the last newline *)
Definition last_line (l : list byte) : list byte :=
  (fix go (r acc : list byte) := match r with [] => acc | b :: r' => if b =? NL then acc else go r' (b :: acc) end) (rev l) [].
(** the byte number [k] belongs to the blanks that begin its line *)
Definition indentation (content : list byte) (k : nat) : Prop :=
  forallb blank (last_line (firstn k content)) = true /\ exists b, nth_error content k = Some b /\ blank b = true.
Definition illegal (b : byte) : Prop :=
  ~ ident_byte b /\ b <> 92 /\ b <> 64 /\ b <> 13 /\ forall w p, spells w p -> hd 0 w <> b.
(** the bytes number [k0] to [k1] (exclusive) of the content *)
Definition span (content : list byte) (k0 k1 : nat) : list byte := firstn (k1 - k0) (skipn k0 content).
Definition spaces (l : list byte) : Prop := Forall (fun b => b = 13 \/ b = 9 \/ b = 32) l.

(** Nothing but skippable text lies between [k] and [k0]: blanks that are no indentation, carriage returns, backslash continuations,
    comments without documentation, and illegal bytes. *)
Inductive gap (content : list byte) : nat -> nat -> Prop :=
  | gap_nil k : gap content k k
  | gap_cr k k0 : nth_error content k = Some 13 -> gap content (S k) k0 -> gap content k k0
  | gap_blank k k0 b : nth_error content k = Some b -> blank b = true -> ~ indentation content k -> gap content (S k) k0 -> gap content k k0
  | gap_cont k w k0 : span content k (k + List.length w) = w -> (k + List.length w <= List.length content)%nat ->
      (exists s1, spaces s1 /\ (w = 92 :: s1 \/ exists s2, spaces s2 /\ w = 92 :: s1 ++ 10 :: s2)) ->
      gap content (k + List.length w) k0 -> gap content k k0
  | gap_block k n body k0 : span content k (k + 2) = [47; 42] -> block_extent (skipn (k + 2) content) n body ->
      block_doc (skipn (k + 2) content) body = None -> gap content (k + 2 + n) k0 -> gap content k k0
  | gap_line k w k0 : span content k (k + 2) = [47; 47] -> line_extent (skipn (k + 2) content) w ->
      line_doc w = None -> gap content (k + 2 + List.length w) k0 -> gap content k k0
  | gap_illegal k b k0 : nth_error content k = Some b -> illegal b -> gap content (S k) k0 -> gap content k k0.

(** *** Tokens *)
(** the text of a run of bytes: UTF-8, or else Latin-1 *)
Definition text_of (bs : list byte) : text := match decode bs with Some t => t | None => bs end.
