(** Specification for C05, C18, C19. *)
From Coq Require Import List ZArith Bool Sorting.Sorted.
From Verif Require Import Common.Order Loc.Model.
Import ListNotations.
Open Scope Z_scope.

(** Comparison of locations: by file, then line, then column. *)
Definition beforeb (a b : loc) : bool :=
  (lfile a <? lfile b) ||
  (lfile a =? lfile b) &&
    ((lline a <? lline b) || (lline a =? lline b) && (lcol a <? lcol b)).
Definition before (a b : loc) : Prop := beforeb a b = true.

(** Locations whose [pred] is a proper predecessor. *)
Definition has_pred (l : loc) : Prop := l <> (0, (0, 0)) /\ l <> (FILEID_BAD, (0, 0)).

Definition loc_eqb (a b : loc) : bool :=
  (lfile a =? lfile b) && (lline a =? lline b) && (lcol a =? lcol b).
Definition range_eqb (a b : loc * loc) : bool :=
  loc_eqb (fst a) (fst b) && loc_eqb (snd a) (snd b).

(** [a] is not after [b] in the order of ranges: by start, then by end. *)
Definition range_le (a b : loc * loc) : Prop :=
  before (fst a) (fst b) \/ fst a = fst b /\ ~ before (snd b) (snd a).

Section S.
  Context {V : Type}.

  (** The half-open ranges handed to the API, in order: those of the receiver before those of the
      argument of [merge]. *)
  Fixpoint inserted (b : build V) : list (loc * loc * V) :=
    match b with
    | BNew => []
    | BInsert b s e v => inserted b ++ [(s, e, v)]
    | BMerge b1 b2 => inserted b1 ++ inserted b2
    end.

  (** Every range handed over has machine-representable ends and a proper predecessor of its end. *)
  Definition build_ok (b : build V) : Prop :=
    forall s e v, In (s, e, v) (inserted b) -> loc_ok s /\ loc_ok e /\ has_pred e.

  (** How a range handed over as [s..e] is reported: with the last location inside. *)
  Definition reported (x : loc * loc * V) : loc * loc * V :=
    let '(s, e, v) := x in (s, match pred e with Some p => p | None => e end, v).

  (** [res] reports exactly the inserted ranges satisfying [P] (a predicate on start and exclusive
      end): in order of their ranges, and for each range [k] the values it was given, each as often
      as it was given and in that order. *)
  Definition reports (b : build V) (P : loc -> loc -> bool) (res : list (loc * loc * V)) : Prop :=
    StronglySorted (fun x y => range_le (fst x) (fst y)) res /\
    forall k, filter (fun x => range_eqb (fst x) k) res =
              filter (fun x => range_eqb (fst x) k)
                (map reported (filter (fun x => P (fst (fst x)) (snd (fst x))) (inserted b))).
End S.
