(** Model of crates/spaceman-dmm/src/history.rs. *)
From Coq Require Import List Arith Lia Bool.
Import ListNotations.

Section History.
  (** [T] document, [E] environment *)
  Context {T E : Type}.

  (** history.rs:19-22: an edit's closures.  [undo : E -> T -> T]; [redo] performs the edit and
      returns a fresh undo. *)
  Definition undo_fn := E -> T -> T.
  Definition redo_fn := E -> T -> T * undo_fn.

  (** a petgraph edge with its weight *)
  Record edge := { source : nat; target : nat; e_redo : redo_fn; e_undo : undo_fn }.

  (** history.rs:8-13.  Nodes are 0 .. nodes-1 (their descriptions are not modelled); edges are in
      order of insertion, an edge's id is its position. *)
  Record history := { current : T; idx : nat; clean_idx : nat; nodes : nat; edges : list edge }.

  (** history.rs:25-35 new *)
  Definition new (t : T) : history :=
    {| current := t; idx := 0; clean_idx := 0; nodes := 1; edges := [] |}.

  (** petgraph [edges_directed]: a node's edges form a list linked newest first (Graph::add_edge
      pushes at the head), here with their ids *)
  Fixpoint with_ids (i : nat) (l : list edge) : list (nat * edge) :=
    match l with [] => [] | e :: l' => (i, e) :: with_ids (S i) l' end.
  Definition outgoing (h : history) (n : nat) : list (nat * edge) :=
    rev (filter (fun p => source (snd p) =? n) (with_ids 0 (edges h))).
  Definition incoming (h : history) (n : nat) : list (nat * edge) :=
    rev (filter (fun p => target (snd p) =? n) (with_ids 0 (edges h))).

  (** Iterator::last *)
  Fixpoint last_opt {A} (l : list A) : option A :=
    match l with [] => None | [x] => Some x | _ :: l' => last_opt l' end.

  (** history.rs:47-53 *)
  Definition is_dirty (h : history) : bool := negb (clean_idx h =? idx h).
  Definition mark_clean (h : history) : history :=
    {| current := current h; idx := idx h; clean_idx := idx h; nodes := nodes h; edges := edges h |}.

  (** history.rs:55-76 edit *)
  Definition edit (env : E) (f : redo_fn) (h : history) : history :=
    let '(t, undo) := f env (current h) in
    {| current := t; idx := nodes h; clean_idx := clean_idx h; nodes := S (nodes h);
       edges := edges h ++ [{| source := idx h; target := nodes h; e_redo := f; e_undo := undo |}] |}.

  (** history.rs:78-86 parent, can_undo *)
  Definition can_undo (h : history) : bool :=
    match incoming h (idx h) with [] => false | _ => true end.

  (** history.rs:88-97 undo *)
  Definition undo (env : E) (h : history) : history :=
    match last_opt (incoming h (idx h)) with
    | None => h
    | Some (_, e) =>
        {| current := e_undo e env (current h); idx := source e; clean_idx := clean_idx h;
           nodes := nodes h; edges := edges h |}
    end.

  (** history.rs:99-104 can_redo *)
  Definition can_redo (h : history) : bool :=
    match outgoing h (idx h) with [] => false | _ => true end.

  (** history.rs:118: [edge_weight_mut(id).undo = undo] *)
  Fixpoint set_undo (l : list edge) (i : nat) (u : undo_fn) : list edge :=
    match l, i with
    | [], _ => []
    | e :: l', 0 => {| source := source e; target := target e; e_redo := e_redo e; e_undo := u |} :: l'
    | e :: l', S i' => e :: set_undo l' i' u
    end.

  (** history.rs:106-120 redo *)
  Definition redo (env : E) (h : history) : history :=
    match last_opt (outgoing h (idx h)) with
    | None => h
    | Some (i, e) =>
        let '(t, u) := e_redo e env (current h) in
        {| current := t; idx := target e; clean_idx := clean_idx h; nodes := nodes h;
           edges := set_undo (edges h) i u |}
    end.

  (** A session: calls made through the API. *)
  Inductive op := Edit (f : redo_fn) | Undo | Redo | MarkClean.
  Definition step (env : E) (h : history) (o : op) : history :=
    match o with
    | Edit f => edit env f h
    | Undo => undo env h
    | Redo => redo env h
    | MarkClean => mark_clean h
    end.
  Definition run (env : E) (h : history) (ops : list op) : history := fold_left (step env) ops h.
End History.
Arguments history : clear implicits.
Arguments op : clear implicits.
Arguments edge : clear implicits.
