(** What the rendering of documentation comments is to give (C17). *)
From Coq Require Import List NArith Bool.
From Verif Require Import Common.Text.
Import ListNotations.

(** a margin character: white space, or the character the comment marker is made of *)
Definition marginal (ic : chr) (c : chr) : Prop := is_whitespace c = true \/ c = ic.
Definition blank (ic : chr) (l : text) : Prop := Forall (marginal ic) l.

(** [p] is in front of, [s] behind every non-blank line, and consists of margin characters *)
Definition common_front (ic : chr) (ls : list text) (p : text) : Prop :=
  Forall (marginal ic) p /\ forall l, In l ls -> ~ blank ic l -> exists r, l = p ++ r.
Definition common_back (ic : chr) (ls : list text) (s : text) : Prop :=
  Forall (marginal ic) s /\ forall l, In l ls -> ~ blank ic l -> exists r, l = r ++ s.
Definition longest (P : text -> Prop) (t : text) : Prop :=
  P t /\ forall q, P q -> (List.length q <= List.length t)%nat.

(** the lines joined by line breaks *)
Fixpoint joined (ls : list text) : text :=
  match ls with
  | [] => []
  | [l] => l
  | l :: ls' => l ++ 10%N :: joined ls'
  end.

(** [core]: the lines from the first to the last non-blank one *)
Definition ends_trimmed (ic : chr) (ls core : list text) : Prop :=
  exists before after, ls = before ++ core ++ after /\ Forall (blank ic) before /\ Forall (blank ic) after /\
    exists first mid last, ~ blank ic first /\ ~ blank ic last /\ (core = [first] \/ core = first :: mid ++ [last]).
(** a line without its margins *)
Definition stripped (ic : chr) (p s l o : text) : Prop :=
  (blank ic l /\ o = []) \/ (~ blank ic l /\ l = p ++ o ++ s).

(** the rendering of the lines of one comment *)
Definition cleaned (ic : chr) (ls : list text) (r : text) : Prop :=
  (Forall (blank ic) ls /\ r = []) \/
  exists p s core os,
    longest (common_front ic ls) p /\ longest (common_back ic ls) s /\
    ends_trimmed ic ls core /\ Forall2 (stripped ic p s) core os /\ r = joined os.

(** *** A collection *)
Inductive piece := PBlock (t : text) | PLines (ts : list text).
(** a blank block gives nothing, another one a paragraph of its own, a run of line comments their joint rendering *)
Inductive rendered_piece : piece -> text -> Prop :=
| rp_blank : forall t, blank 42 t -> rendered_piece (PBlock t) []
| rp_block : forall t r, ~ blank 42 t -> cleaned 42 (lines t) r -> rendered_piece (PBlock t) (10%N :: r ++ [10%N])
| rp_lines : forall ts r, cleaned 47 (lines (flat_map (fun t => t ++ [10%N]) ts)) r -> rendered_piece (PLines ts) r.
Fixpoint alternating (ps : list piece) : Prop :=
  match ps with
  | PLines _ :: PLines _ :: _ => False
  | _ :: ps' => alternating ps'
  | [] => True
  end.
