(** Model of crates/interval-tree/src/{node,tree,iterators,range}.rs *)
From Coq Require Import List Arith ZArith Lia Bool.
From Verif Require Import Common.Order.
Import ListNotations.

Section Model.
  Context {K : Type} `{TO : TotalOrd K} {V : Type}.

  (** range.rs:1-12 RangeInclusive; derived [Ord] is lexicographic on (start, end) (range.rs:1). *)
  Definition range : Type := (K * K)%type.

  (** node.rs:5-12 [Node] wrapped in [Option<Box<Node>>]; [Leaf] is [None].
      [h] is the cached height (u32; modelled by nat), [m] the cached maximum end. *)
  Inductive tree : Type :=
  | Leaf
  | Node (k : range) (d : list V) (h : nat) (m : K) (l r : tree).

  (** node.rs:227-229 height *)
  Definition height (t : tree) : nat :=
    match t with Leaf => 0 | Node _ _ h _ _ _ => h end.

  (** node.rs:15-24 Node::new *)
  Definition new_node (k : range) (v : V) : tree := Node k [v] 1 (snd k) Leaf Leaf.

  (** node.rs:37-46: the two conditional overwrites of [self.max] *)
  Definition bump_max (m : K) (t : tree) : K :=
    match t with
    | Leaf => m
    | Node _ _ _ m' _ _ => if kltb m m' then m' else m
    end.

  (** node.rs:34-47 update_height *)
  Definition update_height (t : tree) : tree :=
    match t with
    | Leaf => Leaf
    | Node k d _ _ l r =>
        Node k d (Nat.max (height l) (height r) + 1) (bump_max (bump_max (snd k) l) r) l r
    end.

  (** node.rs:64-71 rotate_right; [None] = panic "Avl broken" *)
  Definition rotate_right (t : tree) : option tree :=
    match t with
    | Node k d h m (Node lk ld lh lm ll lr) r =>
        let self := update_height (Node k d h m lr r) in
        Some (update_height (Node lk ld lh lm ll self))
    | _ => None
    end.

  (** node.rs:74-81 rotate_left; [None] = panic "Avl broken" *)
  Definition rotate_left (t : tree) : option tree :=
    match t with
    | Node k d h m l (Node rk rd rh rm rl rr) =>
        let self := update_height (Node k d h m l rl) in
        Some (update_height (Node rk rd rh rm self rr))
    | _ => None
    end.

  (** node.rs:84-94 rotate_left_successor; [None] = panic *)
  Definition rotate_left_successor (t : tree) : option tree :=
    match t with
    | Node k d h m (Node _ _ _ _ ll lr as left) r =>
        if height ll <? height lr then
          match rotate_left left with
          | Some rotated => rotate_right (update_height (Node k d h m rotated r))
          | None => None
          end
        else rotate_right (Node k d h m left r)
    | _ => None
    end.

  (** node.rs:97-107 rotate_right_successor; [None] = panic *)
  Definition rotate_right_successor (t : tree) : option tree :=
    match t with
    | Node k d h m l (Node _ _ _ _ rl rr as right) =>
        if height rr <? height rl then
          match rotate_right right with
          | Some rotated => rotate_left (update_height (Node k d h m l rotated))
          | None => None
          end
        else rotate_left (Node k d h m l right)
    | _ => None
    end.

  (** node.rs:26-30 diff_of_successors_height *)
  Definition diff_of_successors_height (t : tree) : Z :=
    match t with
    | Leaf => 0
    | Node _ _ _ _ l r => (Z.of_nat (height l) - Z.of_nat (height r))%Z
    end.

  (** node.rs:110-117 rotate_if_necessary; the [_ => unreachable!()] arm is [None] *)
  Definition rotate_if_necessary (t : tree) : option tree :=
    let diff := diff_of_successors_height t in
    if (diff =? 2)%Z then rotate_left_successor t
    else if ((-1 <=? diff) && (diff <=? 1))%Z then Some t
    else if (diff =? -2)%Z then rotate_right_successor t
    else None.

  (** node.rs:120-123 updated_node *)
  Definition updated_node (t : tree) : option tree :=
    rotate_if_necessary (update_height t).

  (** node.rs:136-149 drop_min / drop_min_from_left.  The detached minimal node is
      represented by its own fields (its children have been taken). *)
  Fixpoint drop_min (t : tree) : option (tree * (range * list V * nat * K)) :=
    match t with
    | Leaf => None
    | Node k d h m Leaf r => Some (r, (k, d, h, m))
    | Node k d h m l r =>
        match drop_min l with
        | Some (new_left, mn) =>
            match updated_node (Node k d h m new_left r) with
            | Some t' => Some (t', mn)
            | None => None
            end
        | None => None
        end
    end.

  (** node.rs:152-158 combine_two_subtrees *)
  Definition combine_two_subtrees (l r : tree) : option tree :=
    match drop_min r with
    | Some (remaining, (k, d, h, m)) => updated_node (Node k d h m l remaining)
    | None => None
    end.

  (** node.rs:126-133 delete_root *)
  Definition delete_root (l r : tree) : option tree :=
    match l, r with
    | Leaf, Leaf => Some Leaf
    | _, Leaf => Some l
    | Leaf, _ => Some r
    | _, _ => combine_two_subtrees l r
    end.

  (** node.rs:164-181 delete *)
  Fixpoint delete (t : tree) (key : range) : option tree :=
    match t with
    | Leaf => Some Leaf (* not reached: callers test for [Some] first *)
    | Node k d h m l r =>
        match kcmp k key with
        | Eq => delete_root l r
        | Lt =>
            match r with
            | Leaf => Some t
            | _ => match delete r key with
                   | Some r' => updated_node (Node k d h m l r')
                   | None => None
                   end
            end
        | Gt =>
            match l with
            | Leaf => Some t
            | _ => match delete l key with
                   | Some l' => updated_node (Node k d h m l' r)
                   | None => None
                   end
            end
        end
    end.

  (** node.rs:200-224 insert / insert_in_successor; [Leaf] is the [None] successor *)
  Fixpoint insert (t : tree) (key : range) (v : V) : option tree :=
    match t with
    | Leaf => Some (new_node key v)
    | Node k d h m l r =>
        match kcmp k key with
        | Eq => Some (Node k (d ++ [v]) h m l r)
        | Lt => match insert r key v with
                | Some r' => updated_node (Node k d h m l r')
                | None => None
                end
        | Gt => match insert l key v with
                | Some l' => updated_node (Node k d h m l' r)
                | None => None
                end
        end
    end.

  (** node.rs:184-195 search / search_pair, tree.rs:114-119 get *)
  Fixpoint get (t : tree) (key : range) : option (list V) :=
    match t with
    | Leaf => None
    | Node k d _ _ l r =>
        match kcmp k key with
        | Eq => Some d
        | Lt => get r key
        | Gt => get l key
        end
    end.

  (** tree.rs:133-135 get_or *)
  Definition get_or (t : tree) (key : range) (default : list V) : list V :=
    match get t key with Some d => d | None => default end.

  (** tree.rs:148-150 contains *)
  Definition contains (t : tree) (key : range) : bool :=
    match get t key with Some _ => true | None => false end.

  (** tree.rs:40-42 is_empty *)
  Definition is_empty (t : tree) : bool :=
    match t with Leaf => true | _ => false end.

  (** node.rs:50-61, tree.rs:165-184 min / max *)
  Fixpoint min (t : tree) : option (range * list V) :=
    match t with
    | Leaf => None
    | Node k d _ _ Leaf _ => Some (k, d)
    | Node _ _ _ _ l _ => min l
    end.

  Fixpoint max (t : tree) : option (range * list V) :=
    match t with
    | Leaf => None
    | Node k d _ _ _ Leaf => Some (k, d)
    | Node _ _ _ _ _ r => max r
    end.

  (** tree.rs:75-80 insert and tree.rs:96-100 remove on the whole tree are [insert]/[delete]
      on the root ([delete] on an empty tree does nothing). *)
  Inductive op := Insert (k : range) (v : V) | Remove (k : range).

  Definition apply_op (t : tree) (o : op) : option tree :=
    match o with
    | Insert k v => insert t k v
    | Remove k => delete t k
    end.

  (** A history of calls on a fresh tree (tree.rs:25-27 [new]); [None] = some call panicked. *)
  Definition run (t : tree) (ops : list op) : option tree :=
    fold_left (fun acc o => match acc with Some t => apply_op t o | None => None end)
              ops (Some t).

  (** ** RangePairIter (iterators.rs:14-86) *)

  (** std::ops::Bound; [range] queries use Included, [iter] uses Unbounded *)
  Inductive bound := Included (k : K) | Excluded (k : K) | Unbounded.

  (** iterators.rs:7-12 *)
  Inductive visiting := VLeft | VCenter | VMiddle (i : nat) | VRight.

  (** iterators.rs:36-40 left_subtree_relevant *)
  Definition left_relevant (start : bound) (m : K) : bool :=
    match start with
    | Included s => kleb s m
    | Excluded s => kltb s m
    | Unbounded => true
    end.

  (** iterators.rs:50-54 right_subtree_relevant *)
  Definition right_relevant (fin : bound) (kstart : K) : bool :=
    match fin with
    | Included e => kleb kstart e
    | Excluded e => kltb kstart e
    | Unbounded => true
    end.

  (** iterators.rs:106-116 intersect *)
  Definition intersect (start fin : bound) (k : range) : bool :=
    (match start with
     | Included s => kleb s (snd k)
     | Excluded s => kltb s (snd k)
     | Unbounded => true
     end) &&
    (match fin with
     | Included e => kleb (fst k) e
     | Excluded e => kltb (fst k) e
     | Unbounded => true
     end).

  (** One turn of the [while let] loop of get_next_node (iterators.rs:70-86): pops the top of the
      stack (head of the list), pushes, and possibly returns an item.  Stack entries are
      references to nodes, so a [Leaf] entry does not occur (it is simply dropped). *)
  Definition iter_step (start fin : bound) (top : tree * visiting) (rest : list (tree * visiting))
    : list (tree * visiting) * option (range * V) :=
    match top with
    | (Leaf, _) => (rest, None)
    | (Node k d _ m l r as n, VLeft) =>
        (* visit_left, iterators.rs:31-46 *)
        match l with
        | Leaf => ((n, VCenter) :: rest, None)
        | _ => if left_relevant start m
               then ((l, VLeft) :: (n, VCenter) :: rest, None)
               else ((n, VCenter) :: rest, None)
        end
    | (Node k d _ m l r as n, VRight) =>
        (* visit_right, iterators.rs:48-60 *)
        if right_relevant fin (fst k) then
          match r with
          | Leaf => (rest, None)
          | _ => ((r, VLeft) :: rest, None)
          end
        else (rest, None)
    | (Node k d _ m l r as n, VCenter) =>
        (* visit_center, iterators.rs:62-68 *)
        if intersect start fin k then ((n, VMiddle 0) :: rest, None)
        else ((n, VRight) :: rest, None)
    | (Node k d _ m l r as n, VMiddle i) =>
        match nth_error d i with
        | None => ((n, VRight) :: rest, None)
        | Some v => ((n, VMiddle (i + 1)) :: rest, Some (k, v))
        end
    end.

  (** Iterator::next (iterators.rs:89-96): loop until an item is produced ([Some (Some it, stack)])
      or the stack is empty ([Some (None, [])]); [None] = out of fuel. *)
  Fixpoint iter_next (fuel : nat) (start fin : bound) (stack : list (tree * visiting))
    : option (option (range * V) * list (tree * visiting)) :=
    match fuel with
    | 0 => None
    | S fuel' =>
        match stack with
        | [] => Some (None, [])
        | top :: rest =>
            match iter_step start fin top rest with
            | (stack', Some it) => Some (Some it, stack')
            | (stack', None) => iter_next fuel' start fin stack'
            end
        end
    end.

  (** Driving the iterator to exhaustion with [for (k, v) in ...].  [fuel] bounds both loops. *)
  Fixpoint iter_collect (fuel : nat) (inner : nat) (start fin : bound)
           (stack : list (tree * visiting)) : option (list (range * V)) :=
    match fuel with
    | 0 => None
    | S fuel' =>
        match iter_next inner start fin stack with
        | None => None
        | Some (None, _) => Some []
        | Some (Some it, stack') =>
            match iter_collect fuel' inner start fin stack' with
            | Some its => Some (it :: its)
            | None => None
            end
        end
    end.

  (** Loop bound: number of loop turns the iterator makes on [t] plus one. *)
  Fixpoint iter_fuel (t : tree) : nat :=
    match t with
    | Leaf => 0
    | Node _ d _ _ l r => 4 + length d + iter_fuel l + iter_fuel r
    end.

  (** iterators.rs:23-29 RangePairIter::new *)
  Definition iter_init (t : tree) : list (tree * visiting) :=
    match t with Leaf => [] | _ => [(t, VLeft)] end.

  Definition pairs_between (t : tree) (start fin : bound) : option (list (range * V)) :=
    iter_collect (S (iter_fuel t)) (S (iter_fuel t)) start fin (iter_init t).

  (** tree.rs:217-223 range *)
  Definition query (t : tree) (q : range) : option (list (range * V)) :=
    pairs_between t (Included (fst q)) (Included (snd q)).

  (** tree.rs:234-236 iter *)
  Definition iter (t : tree) : option (list (range * V)) :=
    pairs_between t Unbounded Unbounded.

  (** ** IntoIter (iterators.rs:118-165) *)

  (** A node on the IntoIter stack: its left child has been taken. *)
  Definition into_entry : Type := (range * list V * tree)%type.

  (** iterators.rs:133-138 push_node *)
  Fixpoint push_node (t : tree) (stack : list into_entry) : list into_entry :=
    match t with
    | Leaf => stack
    | Node k d _ _ l r => push_node l ((k, d, r) :: stack)
    end.

  (** iterators.rs:144-159 next: [current] is the node being drained. *)
  Fixpoint into_next (fuel : nat) (stack : list into_entry) (current : option (range * list V))
    : option (option (range * V) * list into_entry * option (range * list V)) :=
    match fuel with
    | 0 => None
    | S fuel' =>
        match current with
        | Some (k, v :: vs) => Some (Some (k, v), stack, Some (k, vs))
        | _ =>
            (* current has been taken and is now None *)
            match stack with
            | [] => Some (None, [], None)
            | (k, d, r) :: rest => into_next fuel' (push_node r rest) (Some (k, d))
            end
        end
    end.

  Fixpoint into_collect (fuel inner : nat) (stack : list into_entry)
           (current : option (range * list V)) : option (list (range * V)) :=
    match fuel with
    | 0 => None
    | S fuel' =>
        match into_next inner stack current with
        | None => None
        | Some (None, _, _) => Some []
        | Some (Some it, stack', current') =>
            match into_collect fuel' inner stack' current' with
            | Some its => Some (it :: its)
            | None => None
            end
        end
    end.

  Fixpoint into_fuel (t : tree) : nat :=
    match t with
    | Leaf => 0
    | Node _ d _ _ l r => 1 + length d + into_fuel l + into_fuel r
    end.

  Definition into_iter (t : tree) : option (list (range * V)) :=
    into_collect (S (into_fuel t)) (S (into_fuel t)) (push_node t []) None.

  (** tree.rs:187-191 merge *)
  Definition merge (t other : tree) : option tree :=
    match into_iter other with
    | None => None
    | Some pairs => run t (map (fun p => Insert (fst p) (snd p)) pairs)
    end.
End Model.

Arguments tree : clear implicits.
Arguments tree K V : assert.
Arguments op : clear implicits.
Arguments op K V : assert.
Arguments bound : clear implicits.
