(** C74: examples, and names that lead elsewhere. *)
From Coq Require Import List Arith NArith Bool String Lia Relations.
From Verif Require Import Common.Text Parse.Ast Objtree.Ispath Objtree.Model Objtree.Lemmas Objtree.Spec Objtree.Wf Objtree.Assign Objtree.Paths Objtree.InheritProps Objtree.Demo.
From Verif Require Import Lsp.Completion Lsp.CompletionSpec Lsp.CompletionProps Lsp.CompletionDemo Lsp.Goto Lsp.GotoSpec Lsp.GotoProps.
Import ListNotations.
Open Scope nat_scope.

Notation co_goto := (goto_definition nat nat nat co_tree co_vars co_params).
Notation co_goto_type := (goto_type_definition nat nat nat co_tree co_vars co_params).
Notation co_symbol := (symbol_at nat nat nat co_tree co_vars co_params).
Notation co_help := (signature_help nat nat nat co_tree co_vars co_params).
Notation co_goes := (goes nat nat nat co_tree co_vars co_params).
Notation co_names := (names nat nat nat co_tree co_vars co_params).
(** in [/datum/item/tick(a, b)], with the local variable [z] of the type /mob *)
Definition at_tick (m : mark nat) : list (mark nat) := [OnBlock [lit "datum"]; m; OnBody [lit "datum"; lit "item"; lit "tick"] 0; OnLocal 7 [lit "mob"] (lit "z")].

(** Where the names lead, the types of the variables, the symbols and the help for the call [owner.held.tick(...)] *)
Theorem C74_demo : finished co_tree [] /\ acyclic co_tree /\
  co_goto (at_tick (OnCall (lit "look"))) = [ToProc (1, lit "look", 0)] /\ co_goto (at_tick OnParent) = [ToProc (1, lit "tick", 0)] /\
  co_goto (at_tick (OnName (lit "z"))) = [ToLocation 7] /\ co_goto (at_tick (OnName (lit "b"))) = [ToParameter 2 (lit "tick") 0 1] /\ co_goto (at_tick (OnName (lit "owner"))) = [ToVar 2 (lit "owner")] /\
  co_goto (at_tick (OnName (lit "debug"))) = [ToVar 0 (lit "debug")] /\
  co_goto (at_tick (OnField [lit "owner"] (lit "held"))) = [ToVar 5 (lit "held")] /\ co_goto (at_tick (OnMethod [lit "z"; lit "held"] (lit "tick"))) = [ToProc (2, lit "tick", 0)] /\
  co_goto [OnTreePath true [lit "datum"; lit "item"]] = [ToType 2] /\ co_goto [OnTypePath [(PathSlash, lit "datum"); (PathSlash, lit "proc"); (PathSlash, lit "tick")]] = [ToProc (1, lit "tick", 0)] /\
  co_goto [OnBlock [lit "datum"]; OnTreePath false [lit "item"; lit "look"]] = [ToProc (1, lit "look", 0)] /\
  co_goto_type (at_tick (OnName (lit "owner"))) = Some 5 /\ co_goto_type (at_tick (OnName (lit "z"))) = Some 5 /\ co_goto_type (at_tick (OnField [lit "owner"] (lit "held"))) = Some 2 /\ co_goto_type (at_tick (OnName (lit "debug"))) = None /\
  co_symbol (at_tick (OnName (lit "owner"))) = Some (NameVar 1 (lit "owner")) /\ co_symbol (at_tick (OnMethod [lit "z"; lit "held"] (lit "tick"))) = Some (NameProc 1 (lit "tick")) /\
  co_symbol [OnVariable [lit "datum"; lit "item"; lit "var"; lit "owner"]] = Some (NameVar 1 (lit "owner")) /\ co_symbol [OnHeader [lit "datum"; lit "item"; lit "proc"; lit "tick"] 0] = Some (NameProc 1 (lit "tick")) /\
  co_symbol [OnTreePath true [lit "mob"]] = Some (NameType 5) /\
  co_help [OnArgument 1; OnArguments [] (lit "tick") 0; OnBody [lit "datum"; lit "tick"] 0] = Some (lit "/datum/tick(a, datum/item/b)", [(12, 13); (26, 27)], 1).
Proof. split; [exact co_finished|]. split; [exact co_acyclic|]. repeat split; vm_compute; reflexivity. Qed.
(** The hypotheses of C74_parent, C74_call and C74_local hold there. *)
Theorem C74_here :
  let marks := at_tick OnParent in around nat nat co_tree (map as_note marks) 2 /\ here nat nat co_tree (map as_note marks) 2 /\ in_proc (map as_note marks) [lit "datum"; lit "item"] (lit "tick") 0 /\ (exists p, procs_of co_tree 2 (lit "tick") = Some p /\ 0 < List.length (p_values p)) /\ stands nat nat nat co_tree co_vars co_params marks (lit "z") (IsLocal 7 [lit "mob"]) /\
  stands nat nat nat co_tree co_vars co_params marks (lit "a") (IsParam 2 (lit "tick") 0 0 []) /\ stands nat nat nat co_tree co_vars co_params marks (lit "owner") (IsMember 2).
Proof.
  cbv zeta. pose proof (finished_tidy nat nat co_tree [] co_finished) as T. pose proof (around_iff nat nat nat co_tree T (at_tick OnParent)) as C.
  assert (E : find_type_context nat nat co_tree (map as_note (at_tick OnParent)) = (Some 2, Some (lit "tick", 0))) by (vm_compute; reflexivity). rewrite E in C. destruct C as (C1 & C2 & C3).
  split; [apply C1; reflexivity|]. split; [apply C3; reflexivity|]. split; [exists [TreeBlock [lit "datum"]; OtherNote], [LocalVarScope [lit "mob"] (lit "z")]; split; [reflexivity|]; split; [exists [lit "datum"; lit "item"; lit "tick"], 0; reflexivity|]; intros m [<-|[<-|[]]] (path & idx & Q); discriminate|].
  split; [eexists; split; [vm_compute; reflexivity|cbn; lia]|].
  split; [|split]; apply (unscoped_iff nat nat nat co_tree co_vars co_params T co_acyclic); vm_compute; reflexivity.
Qed.
(** C74: a path that names neither a type nor an overridden procedure leads to the global procedure of that name: the way up ends at the root. *)
Theorem C74_global_refuted :
  co_goto [OnTreePath true [lit "datum"; lit "setup"]] = [ToProc (0, lit "setup", 0)] /\ procs_of co_tree 1 (lit "setup") = None /\ find co_tree (lit "/datum/setup") = None.
Proof. repeat split; vm_compute; reflexivity. Qed.
(** C74: a path of a type that does not exist leads to what of it exists, and has its references. *)
Theorem C74_nothing_refuted :
  find co_tree (lit "/datum/nothing/more") = None /\ co_goto [OnTypePath [(PathSlash, lit "datum"); (PathSlash, lit "nothing"); (PathSlash, lit "more")]] = [ToType 1] /\
  co_symbol [OnTypePath [(PathSlash, lit "datum"); (PathSlash, lit "nothing"); (PathSlash, lit "more")]] = Some (NameType 1) /\
  co_goto [OnTypePath [(PathSlash, lit "nothing")]] = [ToType 0].
Proof. repeat split; vm_compute; reflexivity. Qed.
(** C74: the references of a local variable and of a parameter are not found. *)
Theorem C74_local_refuted : forall (A : Type) (table : name_of -> list A),
  co_goto (at_tick (OnName (lit "z"))) = [ToLocation 7] /\ look_up nat nat nat co_tree co_vars co_params table (at_tick (OnName (lit "z"))) = [] /\
  co_goto (at_tick (OnName (lit "b"))) = [ToParameter 2 (lit "tick") 0 1] /\ look_up nat nat nat co_tree co_vars co_params table (at_tick (OnName (lit "b"))) = [].
Proof. intros A table. repeat split; vm_compute; reflexivity. Qed.
(** C74: [src.setup()] is not a call of the global procedure, [setup()] is one; but [..()] leads to it as well. *)
Theorem C74_parent_refuted :
  co_goto (at_tick (OnMethod [lit "src"] (lit "setup"))) = [] /\ co_goto (at_tick (OnCall (lit "setup"))) = [ToProc (0, lit "setup", 0)] /\
  co_goto [OnParent; OnBody [lit "datum"; lit "setup"] 0] = [ToProc (0, lit "setup", 0)].
Proof. repeat split; vm_compute; reflexivity. Qed.
(** C74: the help for [b.tick(] shows the procedure of the type that [b] is declared with, [/datum/item/tick(a, b)].  Of nested calls, as in
    [b.tick(look(1))] with the place in the inner one, the help is that of the outer call: the annotations come in the order of their beginnings
    (C03), and the first one counts. *)
Theorem C74_help_refuted :
  co_help [OnArguments [lit "b"] (lit "tick") 1; OnArgument 0; OnBody [lit "datum"; lit "tick"] 0] = Some (lit "/datum/item/tick(a, b)", [(17, 18); (20, 21)], 0) /\
  co_help [OnArguments [lit "b"] (lit "tick") 1; OnArgument 0; OnArguments [] (lit "look") 1; OnArgument 0; OnBody [lit "datum"; lit "tick"] 0] = Some (lit "/datum/item/tick(a, b)", [(17, 18); (20, 21)], 0) /\
  co_help [OnArguments [] (lit "look") 1; OnArgument 0; OnBody [lit "datum"; lit "tick"] 0] = Some (lit "/datum/look()", [], 0).
Proof. repeat split; vm_compute; reflexivity. Qed.
(** C74: for the same reason a name in the block of /datum/item, inside the block of /datum, is looked up in /datum. *)
Theorem C74_block_refuted :
  co_goto [OnBlock [lit "datum"]; OnBlock [lit "datum"; lit "item"]; OnName (lit "owner")] = [ToVar 1 (lit "owner")] /\
  co_goto [OnBlock [lit "datum"; lit "item"]; OnName (lit "owner")] = [ToVar 2 (lit "owner")].
Proof. repeat split; vm_compute; reflexivity. Qed.
(** What the annotations say of the place, for every annotation *)
Theorem C74_marks : forall (L : Type) (m : mark L) (n : note), as_note m = n <-> says_place L m n.
Proof.
  intros L m n. split.
  - intros <-. destruct m; cbn [as_note]; constructor; intros; discriminate.
  - intros [path|path idx|loc ty x|idx|m' H1 H2 H3 H4]; try reflexivity. destruct m'; cbn [as_note]; try reflexivity; exfalso.
    all: first [eapply H1; reflexivity|eapply H2; reflexivity|eapply H3; reflexivity|eapply H4; reflexivity].
Qed.
(** On a part of a path the names lead to what the path says up to that part. *)
Theorem C74_sequence_demo :
  co_goto [OnSequence 0; OnTreePath true [lit "datum"; lit "item"]] = [ToType 1] /\ co_goto [OnSequence 1; OnTreePath true [lit "datum"; lit "item"]] = [ToType 2] /\
  co_goto [OnSequence 0; OnTypePath [(PathSlash, lit "datum"); (PathSlash, lit "item")]] = [ToType 1] /\ co_goto [OnSequence 1; OnTypePath [(PathSlash, lit "datum"); (PathSlash, lit "item")]] = [ToType 2] /\
  co_symbol [OnSequence 0; OnTreePath true [lit "datum"; lit "item"]] = Some (NameType 1) /\ co_symbol [OnSequence 0; OnTypePath [(PathSlash, lit "datum"); (PathSlash, lit "item")]] = Some (NameType 1).
Proof. repeat split; vm_compute; reflexivity. Qed.
Print Assumptions C74_marks.
Print Assumptions C74_sequence_demo.
Print Assumptions C74_demo.
Print Assumptions C74_here.
Print Assumptions C74_global_refuted.
Print Assumptions C74_nothing_refuted.
Print Assumptions C74_local_refuted.
Print Assumptions C74_parent_refuted.
Print Assumptions C74_help_refuted.
Print Assumptions C74_block_refuted.
