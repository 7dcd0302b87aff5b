(** Specification for C22: a session is described by a tree of edits and a cursor, without any undo
    actions. *)
From Coq Require Import List Arith.
From Verif Require Import History.Model.
Import ListNotations.

Section Spec.
  Context {T E : Type}.

  (** Applying the returned undo to the edited document gives back the document before. *)
  Definition reversible (env : E) (f : @redo_fn T E) : Prop :=
    forall t, snd (f env t) env (fst (f env t)) = t.
  Definition apply (env : E) (t : T) (f : @redo_fn T E) : T := fst (f env t).

  (** Node [n + 1] was made by the [n]-th edit: its parent and its edit. *)
  Record session := { made : list (nat * @redo_fn T E); at_ : nat; saved_at : nat }.

  Definition parent (s : session) (n : nat) : option (nat * @redo_fn T E) :=
    match n with 0 => None | S m => nth_error (made s) m end.

  (** The edits from the root to node [n], in order. *)
  Inductive path (s : session) : nat -> list (@redo_fn T E) -> Prop :=
  | path_root : path s 0 []
  | path_edit : forall n p f fs, parent s n = Some (p, f) -> path s p fs -> path s n (fs ++ [f]).

  (** [n]'s first child, by creation. *)
  Definition first_child (s : session) (n m : nat) : Prop :=
    (exists f, parent s m = Some (n, f)) /\
    (forall m' f, parent s m' = Some (n, f) -> m <= m').

  Inductive spec_step : session -> op T E -> session -> Prop :=
  | s_edit : forall s f, spec_step s (Edit f)
      {| made := made s ++ [(at_ s, f)]; at_ := S (length (made s)); saved_at := saved_at s |}
  | s_undo : forall s p f, parent s (at_ s) = Some (p, f) ->
      spec_step s Undo {| made := made s; at_ := p; saved_at := saved_at s |}
  | s_undo_root : forall s, parent s (at_ s) = None -> spec_step s Undo s
  | s_redo : forall s m, first_child s (at_ s) m ->
      spec_step s Redo {| made := made s; at_ := m; saved_at := saved_at s |}
  | s_redo_leaf : forall s, (forall m f, parent s m <> Some (at_ s, f)) -> spec_step s Redo s
  | s_clean : forall s, spec_step s MarkClean {| made := made s; at_ := at_ s; saved_at := at_ s |}.

  Inductive spec_run : session -> list (op T E) -> session -> Prop :=
  | r_nil : forall s, spec_run s [] s
  | r_cons : forall s o s' ops s'', spec_step s o s' -> spec_run s' ops s'' -> spec_run s (o :: ops) s''.

  Definition start : session := {| made := []; at_ := 0; saved_at := 0 |}.

  Definition all_reversible (env : E) (ops : list (op T E)) : Prop :=
    forall f, In (Edit f) ops -> reversible env f.
End Spec.
Arguments session : clear implicits.
