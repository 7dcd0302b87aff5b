(** What a history of #define and #undef lines leaves in force (C36). *)
From Coq Require Import List ZArith Bool Sorting.Sorted.
From Verif Require Import Common.Text Common.Order Loc.Model.
Import ListNotations.

Section SPEC.
Context {D : Type}.
(** what happened, and where it is written *)
Inductive event : Type := Defined (l : loc) (n : text) (d : D) | Undefined (l : loc) (n : text).
Definition where_ (e : event) : loc := match e with Defined l _ _ => l | Undefined l _ => l end.
Definition about (n : text) (e : event) : bool := text_eqb (match e with Defined _ n' _ => n' | Undefined _ n' => n' end) n.

(** the definitions of a macro in force after a history, the latest first *)
Definition in_force (es : list event) (n : text) : list (loc * D) :=
  fold_left (fun st e =>
    if about n e then match e with Defined l _ d => (l, d) :: st | Undefined _ _ => tl st end else st) es [].

(** the part of a history written up to a place: a definition at the place counts, the end of one does not yet *)
Definition seen_from (q : loc) (e : event) : bool :=
  match e with Defined l _ _ => kleb l q | Undefined l _ => kltb l q end.
(** the events about one macro follow each other in the order of their places *)
Definition in_order (es : list event) : Prop := forall n, StronglySorted klt (map where_ (filter (about n) es)).
End SPEC.
Arguments event : clear implicits.
