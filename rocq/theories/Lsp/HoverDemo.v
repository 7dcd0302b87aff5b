(** C77: examples, and what is not shown as one would expect. *)
From Coq Require Import List Arith NArith Bool String Lia Relations.
From Verif Require Import Common.Text Parse.Ast Objtree.Ispath Objtree.Model Objtree.Lemmas Objtree.Spec Objtree.Wf Objtree.Assign Objtree.Paths Objtree.InheritProps Objtree.Demo.
From Verif Require Import Lsp.Completion Lsp.CompletionSpec Lsp.CompletionProps Lsp.CompletionDemo Lsp.Goto Lsp.GotoSpec Lsp.GotoProps Lsp.GotoDemo Lsp.Hover Lsp.HoverSpec Lsp.HoverProps.
Import ListNotations.
Open Scope nat_scope.

(** The tree of Lsp/CompletionDemo.v, with its variables and parameters; [owner] has documentation in /datum and in /datum/item; so has [tick] *)
Definition ho_vars (i : nat) : list (text * hvar nat) :=
  match i with
  | 0 => [(lit "debug", {| h_decl := Some ([], []); h_const := Some (lit "1"); h_loc := 60; h_docs := None |})]
  | 1 => [(lit "owner", {| h_decl := Some (lit "/tmp/", [lit "mob"]); h_const := None; h_loc := 61; h_docs := Some (lit "Who has it.") |})]
  | 2 => [(lit "owner", {| h_decl := None; h_const := Some (lit "null"); h_loc := 62; h_docs := Some (lit "Nobody.") |})]
  | 5 => [(lit "held", {| h_decl := Some ([], [lit "datum"; lit "item"]); h_const := None; h_loc := 65; h_docs := None |})]
  | _ => []
  end.
Definition ho_params (v : nat) : list hparam :=
  match v with
  | 10 => [{| q_name := lit "a"; q_flags := []; q_type := []; q_as := Some (lit "num") |}; {| q_name := lit "b"; q_flags := []; q_type := [lit "datum"; lit "item"]; q_as := None |}]
  | 12 => [{| q_name := lit "a"; q_flags := []; q_type := []; q_as := None |}; {| q_name := lit "b"; q_flags := []; q_type := []; q_as := None |}]
  | _ => []
  end.
Definition ho_docs (v : nat) : option text := match v with 10 => Some (lit "Ticks.") | 12 => Some (lit "Ticks twice.") | _ => None end.
Definition ho_kind (d : nat) : text := if d =? 1 then lit "verb" else lit "proc".
Definition ho_macro (l : nat) : option text := if l =? 70 then Some (lit "The most ticks.") else None.
(** 13: built in; 65: in no file *)
Definition ho_link (l : nat) : option text := if l =? 65 then None else Some (lit "a.dm#" ++ [N.of_nat (48 + l mod 10)]).
Notation ho_answer := (hover nat nat nat co_tree ho_vars ho_params (fun v => v) ho_docs ho_kind ho_macro (fun l => l =? 13) ho_link).
Notation ho_subject := (HoverSpec.subject nat nat nat co_tree ho_vars ho_params ho_macro).
Notation ho_page := (HoverSpec.page nat nat nat co_tree ho_vars ho_params (fun v => v) ho_docs ho_kind (fun l => l =? 13) ho_link).
Lemma ho_of_types : of_types nat nat nat co_tree ho_vars.
Proof.
  intros j x v H. assert (N : exists n, node_at co_tree j = Some n).
  { destruct j as [|[|[|[|[|[|j]]]]]]; try (vm_compute; eexists; reflexivity). discriminate H. }
  destruct N as (n & N). exact (at_some nat nat co_tree (td_wf nat nat co_tree (finished_tidy nat nat co_tree [] co_finished)) j n N).
Qed.
Definition block (s : string) : text := lit "```dm" ++ [10%N] ++ lit s ++ [10%N] ++ lit "```".

(** The declaration of a variable and of a procedure; uses of them; a global variable; a macro; a place with nothing; a refused request *)
Theorem C77_demo : finished co_tree [] /\ acyclic co_tree /\ of_types nat nat nat co_tree ho_vars /\
  ho_answer [OnVariable [lit "datum"; lit "item"; lit "var"; lit "owner"]] =
    Some (Some [block "var//tmp/mob/owner" ++ [10; 10]%N ++ lit "[/datum](a.dm#1)" ++ [10; 10]%N ++ lit "[/datum/item](a.dm#2)" ++ [10]%N ++ block "= null"; lit "Who has it."]) /\
  ho_answer [OnHeader [lit "datum"; lit "item"; lit "tick"] 0] =
    Some (Some [block "proc/tick" ++ [10; 10]%N ++ lit "[/datum](a.dm#0)  " ++ [10]%N ++ block "tick(a as num, datum/item/b)" ++ [10; 10]%N ++ lit "[/datum/item](a.dm#2)  " ++ [10]%N ++ block "tick(a, b)"; lit "Ticks."]) /\
  ho_answer (at_tick (OnName (lit "owner"))) = Some (Some [lit "[/datum](a.dm#1)" ++ [10]%N ++ block "var//tmp/mob/owner"; lit "Who has it."]) /\
  ho_answer (at_tick (OnName (lit "debug"))) = Some (Some [lit "[(global)](a.dm#0)" ++ [10]%N ++ block "var/debug"]) /\
  ho_answer (at_tick (OnCall (lit "tick"))) = Some (Some [lit "[/datum/item](a.dm#2)" ++ [10]%N ++ block "proc/tick(a, b)"; lit "Ticks."]) /\
  ho_answer (at_tick (OnCall (lit "setup"))) = Some (Some [lit "[(global)]()" ++ [10]%N ++ block "proc/setup()"]) /\
  ho_answer (at_tick (OnMethod [lit "z"; lit "held"] (lit "look"))) = Some (Some [lit "[/datum](a.dm#1)" ++ [10]%N ++ block "verb/look()"]) /\
  ho_answer [OnMacro 70] = Some (Some [lit "The most ticks."]) /\ ho_answer (at_tick (OnName (lit "z"))) = Some None /\ ho_answer [OnMacro 71] = Some None /\
  ho_answer (at_tick (OnField [lit "owner"] (lit "held"))) = None.
Proof. split; [exact co_finished|]. split; [exact co_acyclic|]. split; [exact ho_of_types|]. repeat split; vm_compute; reflexivity. Qed.
(** C77: one would expect the documentation of what is shown.  It is that of the topmost type that has one: of /datum, not of /datum/item, to which
    the link and the parameters belong. *)
Theorem C77_docs_refuted :
  ho_answer (at_tick (OnCall (lit "tick"))) = Some (Some [lit "[/datum/item](a.dm#2)" ++ [10]%N ++ block "proc/tick(a, b)"; lit "Ticks."]) /\
  co_goto (at_tick (OnCall (lit "tick"))) = [ToProc (2, lit "tick", 0)] /\ option_map ho_docs (match procs_of co_tree 2 (lit "tick") with Some p => nth_error (p_values p) 0 | None => None end) = Some (Some (lit "Ticks twice.")).
Proof. repeat split; vm_compute; reflexivity. Qed.
(** C77: a use of a variable that the type only sets shows neither the place where it is set nor the value; the declaration of it shows both. *)
Theorem C77_set_refuted :
  co_goto (at_tick (OnName (lit "owner"))) = [ToVar 2 (lit "owner")] /\
  ho_answer (at_tick (OnName (lit "owner"))) = Some (Some [lit "[/datum](a.dm#1)" ++ [10]%N ++ block "var//tmp/mob/owner"; lit "Who has it."]).
Proof. repeat split; vm_compute; reflexivity. Qed.
(** The request is refused for [owner.held]: the file of the declaration of [held] has no link. *)
Theorem C77_refused_here : exists a, ho_subject (at_tick (OnField [lit "owner"] (lit "held"))) (OnField [lit "owner"] (lit "held")) a /\ forall rs, ~ ho_page a rs.
Proof.
  pose proof (C77_refused nat nat nat co_tree ho_vars ho_params (fun v => v) ho_docs ho_kind ho_macro (fun l => l =? 13) ho_link [] (at_tick (OnField [lit "owner"] (lit "held"))) co_finished co_acyclic ho_of_types) as R.
  destruct (proj1 R) as (m & a & Hm & Ha & N); [vm_compute; reflexivity|]. exists a. split; [|exact N].
  destruct Hm as [<-|[<-|[<-|[<-|[]]]]]; [inversion Ha|exact Ha|inversion Ha|inversion Ha].
Qed.
(** The hypotheses of C77_call hold there. *)
Theorem C77_here :
  let marks := at_tick (OnCall (lit "tick")) in known nat nat nat co_tree ho_vars ho_params marks /\
  goes nat nat nat co_tree (plain_vars nat ho_vars) (plain_params nat ho_params) marks (OnCall (lit "tick")) (ToProc (2, lit "tick", 0)) /\
  exists rs, HoverSpec.part nat nat nat co_tree ho_vars ho_params (fun v => v) ho_docs ho_kind ho_macro (fun l => l =? 13) ho_link marks (OnCall (lit "tick")) rs.
Proof.
  cbv zeta. pose proof (finished_tidy nat nat co_tree [] co_finished) as T. split; [|split].
  - apply (known_iff nat nat nat co_tree ho_vars ho_params T co_acyclic). vm_compute. discriminate.
  - apply (goto_iff nat nat nat co_tree (plain_vars nat ho_vars) (plain_params nat ho_params) T co_acyclic). vm_compute. left. reflexivity.
  - eexists. apply (mark_iff nat nat nat co_tree ho_vars ho_params (fun v => v) ho_docs ho_kind ho_macro (fun l => l =? 13) ho_link T co_acyclic ho_of_types). vm_compute. reflexivity.
Qed.
Print Assumptions C77_demo.
Print Assumptions C77_docs_refuted.
Print Assumptions C77_set_refuted.
Print Assumptions C77_refused_here.
Print Assumptions C77_here.
