(** Specification of the interval tree: a multimap from intervals to lists of values.
    It mentions nothing of the tree but the names of the calls ([op]). *)
From Coq Require Import List Sorting.Sorted.
From Verif Require Import Common.Order Itree.Model.
Import ListNotations.

(** Fibonacci numbers: the classical lower bound for the size of an AVL tree. *)
Fixpoint fib (n : nat) : nat :=
  match n with
  | 0 => 0
  | S n' => match n' with 0 => 1 | S n'' => fib n' + fib n'' end
  end.

Section Spec.
  Context {K : Type} `{TO : TotalOrd K} {V : Type}.

  (** What each key holds after a call. *)
  Definition spec_step (m : range -> list V) (o : op K V) : @range K -> list V :=
    match o with
    | Insert k v => fun k' => if keq_dec k' k then m k' ++ [v] else m k'
    | Remove k => fun k' => if keq_dec k' k then [] else m k'
    end.

  (** What each key holds after a history of calls on an empty map. *)
  Definition spec (ops : list (op K V)) : @range K -> list V :=
    fold_left spec_step ops (fun _ => []).

  (** Interval [k] and interval [q] share a point of the order: closed intervals. *)
  Definition meets (k q : @range K) : Prop :=
    kle (fst k) (snd q) /\ kle (fst q) (snd k).

  (** [res] lists, for the keys satisfying [P] and holding something in [m], each key with each
      of its values: keys in strictly increasing order, values in insertion order. *)
  Definition lists_exactly (m : range -> list V) (P : range -> Prop)
             (res : list (@range K * V)) : Prop :=
    exists ks : list range,
      StronglySorted klt ks /\
      (forall k, In k ks <-> P k /\ m k <> []) /\
      res = flat_map (fun k => map (fun v => (k, v)) (m k)) ks.
End Spec.
