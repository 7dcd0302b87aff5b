(** C72: examples, and what is offered wrongly. *)
From Coq Require Import List Arith NArith Bool String Lia Relations.
From Verif Require Import Common.Text Parse.Ast Objtree.Ispath Objtree.Model Objtree.Lemmas Objtree.Spec Objtree.Wf Objtree.Assign Objtree.Paths Objtree.InheritProps Objtree.Demo.
From Verif Require Import Lsp.Completion Lsp.CompletionSpec Lsp.CompletionProps.
Import ListNotations.
Open Scope nat_scope.

(** 1 /datum, 2 /datum/item, 3 /atom, 4 /atom/movable, 5 /mob, 6 /list; /datum declares [tick(a, datum/item/b)] and the verb [look()];
    /datum/item overrides [tick] *)
Definition co_ops : list op :=
  [OType 0 "datum"; OType 1 "item"; OType 0 "atom"; OType 3 "movable"; OType 0 "mob"; OType 0 "list"; OProc 1 "tick" (Some 0) 10; OProc 1 "look" (Some 1) 11; OProc 2 "tick" None 12; OProc 0 "setup" (Some 0) 13].
Definition co_tree0 : objtree nat nat := match run_ops co_ops (empty_tree nat nat) with Some t => t | None => empty_tree nat nat end.
Definition co_tree : objtree nat nat := match assign_parent_types co_tree0 with Some (t, _) => t | None => co_tree0 end.
Lemma co_built : built co_tree0.
Proof. apply (run_ops_built co_ops (empty_tree nat nat)); [constructor|]. unfold co_tree0. destruct (run_ops co_ops (empty_tree nat nat)) as [t|] eqn:E; [reflexivity|]. vm_compute in E. discriminate. Qed.
Lemma co_assigned : assign_parent_types co_tree0 = Some (co_tree, []).
Proof. unfold co_tree. destruct (assign_parent_types co_tree0) as [[t out]|] eqn:E; [|vm_compute in E; discriminate]. f_equal. f_equal. vm_compute in E. injection E as _ <-. reflexivity. Qed.
Lemma co_finished : finished co_tree [].
Proof. exists co_tree0. split; [exact co_built|exact co_assigned]. Qed.
Lemma co_acyclic : acyclic co_tree.
Proof. apply (acyclic_check co_tree (fun i => nth i [0; 1; 2; 2; 3; 4; 1] 0)). vm_compute. reflexivity. Qed.
(** /datum declares [owner], a /mob; /datum/item sets it; [debug] is global *)
Definition co_vars (i : nat) : list (text * option (list text)) :=
  match i with 0 => [(lit "debug", Some [])] | 1 => [(lit "owner", Some [lit "mob"])] | 2 => [(lit "owner", None)] | 5 => [(lit "held", Some [lit "datum"; lit "item"])] | _ => [] end.
Definition co_params (v : nat) : list (text * list text) := match v with 10 => [(lit "a", []); (lit "b", [lit "datum"; lit "item"])] | 12 => [(lit "a", []); (lit "b", [])] | _ => [] end.
Definition co_verb (d : nat) : bool := d =? 1.
(** for the examples everything that begins with the query fits *)
Definition co_fits (x q : text) : bool := starts_with q x.
Notation co_answer := (completion nat nat co_tree co_vars co_params co_verb [lit "MAX_TICKS"] co_fits).
Notation co_path := (path_completions nat nat co_tree co_vars co_verb co_fits).
Notation co_type := (find_scoped_type nat nat co_tree co_vars co_params).
Definition in_tick : list note := [TreeBlock [lit "datum"]; ProcBody [lit "datum"; lit "item"; lit "tick"] 0].

(** In [/datum/item/tick(a, b)]: the names that begin with [o], those that begin with [t], the type of [owner.held], the procedures of
    [b.owner.held.]; in /datum/item: the overrides; the types in [/datum/]; the verbs of [/datum/verb/] *)
Theorem C72_demo : finished co_tree [] /\ acyclic co_tree /\
  co_answer (Unscoped (lit "o") :: in_tick) = [Member false 2 (lit "owner") None] /\
  co_answer (Unscoped [] :: LocalVarScope [] (lit "z") :: in_tick) =
    map Keyword proc_keywords ++ [LocalVar (lit "z"); ParamVar (lit "a"); ParamVar (lit "b"); Macro (lit "MAX_TICKS"); Member false 2 (lit "owner") None; Member true 2 (lit "tick") (Some (lit "tick"));
      Member true 1 (lit "look") (Some (lit "look")); Member false 0 (lit "debug") None; Member true 0 (lit "setup") (Some (lit "setup"))] /\
  co_type in_tick [lit "owner"; lit "held"] = Some 2 /\
  co_answer (Scoped [lit "owner"; lit "held"] (lit "t") :: in_tick) = [Member true 2 (lit "tick") (Some (lit "tick"))] /\
  co_answer [TreePath false [lit "l"]; TreeBlock [lit "datum"; lit "item"]] = [Member true 1 (lit "look") (Some (lit "look()" ++ [10; 9]%N ++ lit ". = ..()" ++ [10; 9]%N))] /\
  co_answer [TreePath true [lit "datum"; lit "t"]] = [Member true 1 (lit "tick") (Some (lit "tick(a, datum/item/b)" ++ [10; 9]%N ++ lit ". = ..()" ++ [10; 9]%N))] /\
  co_answer [TypePath [(PathSlash, lit "datum"); (PathSlash, lit "i")]] = [Subtype (lit "item")] /\
  co_answer [TypePath [(PathSlash, lit "datum"); (PathSlash, lit "i")]; IncompleteTypePath [(PathSlash, lit "datum"); (PathSlash, lit "verb")]] = [Member true 1 (lit "look") None].
Proof. split; [exact co_finished|]. split; [exact co_acyclic|]. repeat split; vm_compute; reflexivity. Qed.

(** C72: after [/datum/item/proc/] the procedures that a type above declares are offered - unless a nearer type overrides them: then they are not
    offered at all. *)
Theorem C72_overridden_refuted :
  get_proc_declaration co_tree 8 2 (lit "tick") = Some (Some 0) /\ co_verb 0 = false /\ co_fits (lit "tick") [] = true /\
  co_path [] [(PathSlash, lit "datum"); (PathSlash, lit "item"); (PathSlash, lit "proc")] [] = [] /\
  co_path [] [(PathSlash, lit "datum"); (PathSlash, lit "proc")] [] = [Member true 1 (lit "tick") None].
Proof. repeat split; vm_compute; reflexivity. Qed.
(** C72: what is offered inside a type is to be overridden there - but global variables and procedures, which no type can override, are
    offered as well. *)
Theorem C72_global_refuted :
  In (Member false 0 (lit "debug") (Some (lit "debug = "))) (co_answer [TreeBlock [lit "datum"; lit "item"]]) /\
  (exists ins, In (Member true 0 (lit "setup") (Some ins)) (co_answer [TreeBlock [lit "datum"; lit "item"]])).
Proof. split; [vm_compute; tauto|]. eexists. vm_compute. repeat (try (left; reflexivity); right). Qed.
(** C72: in a path that names no type, the types are offered that would be right if the rest of the path were not there. *)
Theorem C72_unknown_refuted :
  find co_tree (lit "/datum/nothing/more") = None /\
  co_path [] [(PathSlash, lit "datum"); (PathSlash, lit "nothing"); (PathSlash, lit "more")] (lit "i") = [Subtype (lit "item")].
Proof. split; vm_compute; reflexivity. Qed.
(** C72: a local variable called [usr] (or [args], [global], [src], [caller], [callee]) hides the variable of the language, and so says the answer for
    [usr] itself; for [usr.held] its type is not looked at. *)
Theorem C72_hidden_refuted :
  co_type (LocalVarScope [lit "datum"] (lit "me") :: in_tick) [lit "me"] = Some 1 /\
  co_type (LocalVarScope [lit "datum"] (lit "usr") :: in_tick) [lit "usr"] = Some 5 /\
  var_type nat nat co_tree co_vars co_params (LocalVarScope [lit "datum"] (lit "usr") :: in_tick) (lit "usr") 1.
Proof.
  split; [vm_compute; reflexivity|]. split; [vm_compute; reflexivity|]. eapply vt_local.
  - exists [], in_tick. split; [reflexivity|]. split; [eexists; reflexivity|intros m []].
  - right. split; [discriminate|]. apply (proj1 (at_child nat nat co_tree (td_wf nat nat co_tree (finished_tidy nat nat co_tree [] co_finished)) 0 [] (lit "datum") 1 (CompletionProps.root_at nat nat co_tree (finished_tidy nat nat co_tree [] co_finished)))). vm_compute. reflexivity.
Qed.
(** C72: pointing at a component in the middle of a path, what is offered in its place is what is in it, and fits the last component. *)
Theorem C72_middle_refuted :
  co_answer [InSequence 0; TreePath true [lit "atom"; lit "movable"; lit "m"]] = [Subtype (lit "movable")].
Proof. vm_compute. reflexivity. Qed.
Print Assumptions C72_demo.
Print Assumptions C72_overridden_refuted.
Print Assumptions C72_global_refuted.
Print Assumptions C72_unknown_refuted.
Print Assumptions C72_hidden_refuted.
Print Assumptions C72_middle_refuted.
