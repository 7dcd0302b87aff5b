(** C01-C04: the interval tree (crates/interval-tree). *)
From Coq Require Import List Arith ZArith Lia Bool Sorting.Sorted.
From Verif Require Import Common.Order Itree.Model Itree.Spec Itree.Proofs.
Import ListNotations.

Section Props.
  Context {K : Type} `{TO : TotalOrd K} {V : Type}.
  Notation rng := (@range K).

  (** C01. After any history on a fresh tree, every lookup agrees with the multimap. *)
  Theorem C01_multimap :
    forall ops : list (op K V),
    exists t, run Leaf ops = Some t /\
      (forall k, get t k = match spec ops k with [] => None | vs => Some vs end) /\
      (forall k, contains t k = true <-> spec ops k <> []) /\
      (forall k dflt, get_or t k dflt = match spec ops k with [] => dflt | vs => vs end) /\
      (is_empty t = true <-> forall k, spec ops k = []).
  Proof. exact multimap_lemma. Qed.

  (** C02. No call panics, and the height is at most logarithmic in the number [length ks] of
      distinct keys that hold something. *)
  Theorem C02_no_panic_and_shallow :
    forall (ops : list (op K V)) (ks : list rng),
      NoDup ks -> (forall k, In k ks <-> spec ops k <> []) ->
      exists t, run Leaf ops = Some t /\
        fib (height t + 2) <= length ks + 1 /\
        2 ^ (height t / 2) <= length ks + 1.
  Proof. exact shallow_lemma. Qed.

  (** The key list of the previous theorem exists for every history. *)
  Theorem C02_live_keys_exist :
    forall ops : list (op K V),
    exists ks : list rng, NoDup ks /\ forall k, In k ks <-> spec ops k <> [].
  Proof. exact live_keys_lemma. Qed.

  (** C03. A range query yields exactly the pairs whose interval meets the query, and [iter]
      exactly all pairs; increasing keys, insertion order within a key. *)
  Theorem C03_range_query_exact :
    forall (ops : list (op K V)) (q : rng),
    exists t res, run Leaf ops = Some t /\ query t q = Some res /\
      lists_exactly (spec ops) (fun k => meets k q) res.
  Proof. exact query_lemma. Qed.

  Theorem C03_iter_exact :
    forall ops : list (op K V),
    exists t res, run Leaf ops = Some t /\ iter t = Some res /\
      lists_exactly (spec ops) (fun _ => True) res.
  Proof. exact iter_lemma. Qed.

  (** C04. *)
  Theorem C04_min_max :
    forall ops : list (op K V),
    exists t, run Leaf ops = Some t /\
      match min t with
      | None => forall k, spec ops k = []
      | Some (k, vs) => vs = spec ops k /\ vs <> [] /\ forall k', spec ops k' <> [] -> kle k k'
      end /\
      match max t with
      | None => forall k, spec ops k = []
      | Some (k, vs) => vs = spec ops k /\ vs <> [] /\ forall k', spec ops k' <> [] -> kle k' k
      end.
  Proof. exact min_max_lemma. Qed.

  Theorem C04_into_iter_exact :
    forall ops : list (op K V),
    exists t res, run Leaf ops = Some t /\ into_iter t = Some res /\ iter t = Some res /\
      lists_exactly (spec ops) (fun _ => True) res.
  Proof. exact into_iter_lemma. Qed.

  (** Merging two trees with arbitrary histories never panics; afterwards every lookup and every
      query sees the receiver's values followed by the argument's. *)
  Theorem C04_merge :
    forall ops1 ops2 : list (op K V),
    exists t1 t2 t, run Leaf ops1 = Some t1 /\ run Leaf ops2 = Some t2 /\ merge t1 t2 = Some t /\
      (forall k, get t k = match spec ops1 k ++ spec ops2 k with [] => None | vs => Some vs end) /\
      (forall q, exists res, query t q = Some res /\
         lists_exactly (fun k => spec ops1 k ++ spec ops2 k) (fun k => meets k q) res).
  Proof. exact merge_lemma. Qed.
End Props.

Print Assumptions C01_multimap.
Print Assumptions C02_no_panic_and_shallow.
Print Assumptions C02_live_keys_exist.
Print Assumptions C03_range_query_exact.
Print Assumptions C03_iter_exact.
Print Assumptions C04_min_max.
Print Assumptions C04_into_iter_exact.
Print Assumptions C04_merge.

(** Concrete history over [Z] keys: double rotation, duplicate key, removal of an inner node. *)
Open Scope Z_scope.
Example demo_ops : list (op Z nat) :=
  [Insert (5, 9) 1%nat; Insert (1, 20) 2%nat; Insert (3, 4) 3%nat; Insert (5, 9) 4%nat;
   Insert (7, 8) 5%nat; Insert (8, 8) 6%nat; Insert (9, 30) 7%nat; Remove (3, 4); Remove (100, 100)].

Example demo_runs : exists t, run Leaf demo_ops = Some t /\ get t (5, 9) = Some [1%nat; 4%nat] /\
  get t (3, 4) = None /\ query t (8, 8) = Some [((1,20), 2%nat); ((5,9),1%nat); ((5,9),4%nat); ((7,8),5%nat); ((8,8),6%nat)] /\
  height t = 3%nat.
Proof. eexists; repeat split; vm_compute; reflexivity. Qed.

Example demo_spec : spec demo_ops (5, 9) = [1%nat; 4%nat] /\ spec demo_ops (3, 4) = [].
Proof. split; vm_compute; reflexivity. Qed.
