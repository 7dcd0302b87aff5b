(** What showing a type of a variable or an input type is to do (C78), in terms of sets of bits and of the words between separators. *)
From Coq Require Import List Arith NArith Bool String.
From Verif Require Import Common.Text Parse.Ast Stmt.Ast.
Import ListNotations.
Open Scope N_scope.

(** ** Sets of bits *)
Definition subset (a b : N) : Prop := forall k, N.testbit a k = true -> N.testbit b k = true.
(** the union of some sets *)
Definition union (sets : list N) (b : N) : Prop := forall k, N.testbit b k = true <-> exists s, In s sets /\ N.testbit s k = true.
(** ** Words with a separator between them *)
Fixpoint between (sep : chr) (words : list text) : text := match words with [] => [] | [w] => w | w :: words' => w ++ sep :: between sep words' end.
(** ** Flags: their words, in the order in which they are shown *)
Definition flag_words : list (text * N) :=
  [(lit "static", 1); (lit "const", 4); (lit "tmp", 8); (lit "final", 16); (lit "SpacemanDMM_private", 32); (lit "SpacemanDMM_protected", 64)].
(** [words] are the words of the bits in [b], in the order of the table *)
Inductive words_of (b : N) : list (text * N) -> list text -> Prop :=
  | wo_nil : words_of b [] []
  | wo_in w s table words : subset s b -> words_of b table words -> words_of b ((w, s) :: table) (w :: words)
  | wo_out w s table words : ~ subset s b -> words_of b table words -> words_of b ((w, s) :: table) words.
Definition all_flags : N := 125.
(** ** Paths of types that stand for input types, with the input types that are their kinds *)
Definition stands_for : list (text * N) :=
  [(lit "/mob", 1); (lit "/obj", 2); (lit "/turf", 32); (lit "/area", 256); (lit "/list", 2147483648); (lit "/atom/movable", 3); (lit "/atom", 291)].
(** the smallest path whose kinds include all of [b] *)
Definition approximates (b : N) (p : text) : Prop :=
  b <> 0 /\ exists c, In (p, c) stands_for /\ subset b c /\ forall p' c', In (p', c') stands_for -> subset b c' -> subset c c'.
