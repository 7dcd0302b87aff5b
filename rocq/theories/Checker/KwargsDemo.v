(** C66: an example that meets the hypotheses, and what the check does not find. *)
From Coq Require Import List Arith NArith Bool String Lia Relations.
From Verif Require Import Common.Text Objtree.Ispath Objtree.Model Objtree.Lemmas Objtree.Spec Objtree.Wf Objtree.Demo Checker.CallTree Checker.Spec Checker.SleepProofs Checker.TreeFacts Checker.DirectivesProps Checker.Kwargs Checker.KwargsSpec Checker.KwargsProps.
Import ListNotations.
Open Scope nat_scope.

(** /datum with [foo(a, b)]; /datum/A without it and /datum/A/B with [foo(x, b)]; /datum/C with [foo(a, b, c)]; /datum/E with [foo(b)], then [foo(a)];
    the global procedure [animate] *)
Definition kw_ops : list op :=
  [OType 0 "datum"; OType 1 "A"; OType 2 "B"; OType 1 "C"; OType 1 "E"; OProc 1 "foo" (Some 10) 10; OProc 3 "foo" None 30; OProc 4 "foo" None 40; OProc 5 "foo" None 50; OProc 5 "foo" None 51;
   OProc 0 "animate" (Some 1) 1].
Definition kw_tree0 : objtree nat nat := match run_ops kw_ops (empty_tree nat nat) with Some t => t | None => empty_tree nat nat end.
Definition kw_tree : objtree nat nat := match assign_parent_types kw_tree0 with Some (t, _) => t | None => kw_tree0 end.
Definition kw_params (v : nat) : list text :=
  match v with 10 => [lit "a"; lit "b"] | 30 => [lit "x"; lit "b"] | 40 => [lit "a"; lit "b"; lit "c"] | 50 => [lit "b"] | 51 => [lit "a"] | 1 => [lit "o"; lit "time"] | _ => [] end.
Definition kw_run := Kwargs.run kw_tree (fun v => v) kw_params 0.
Definition kw_call (src : nat) (p : procref) (args : list (option text)) (l : nat) : call nat := {| c_src := src; c_proc := p; c_exact := false; c_args := args; c_loc := l |}.
Definition foo (i k : nat) : procref := (i, lit "foo", k).

Lemma kw_finished : finished kw_tree [].
Proof.
  exists kw_tree0. split.
  - apply (run_ops_built kw_ops (empty_tree nat nat)); [constructor|]. unfold kw_tree0. destruct (run_ops kw_ops (empty_tree nat nat)) as [t|] eqn:E; [reflexivity|]. vm_compute in E. discriminate.
  - unfold kw_tree. destruct (assign_parent_types kw_tree0) as [[t out]|] eqn:E; [|vm_compute in E; discriminate]. f_equal. f_equal. vm_compute in E. injection E as _ <-. reflexivity.
Qed.
Lemma kw_acyclic : acyclic kw_tree.
Proof. apply (acyclic_check kw_tree (fun i => i)). vm_compute. reflexivity. Qed.
Lemma kw_words : forall i nm q, procs_of kw_tree i nm = Some q -> word nm.
Proof.
  intros i nm q. unfold procs_of. destruct (node_at kw_tree i) as [n|] eqn:E; [|discriminate]. intro G. apply get_in in G.
  assert (H : forallb (fun n => forallb (fun e => negb (match fst e with [] => true | _ => false end) && forallb (fun c => negb (N.eqb c SLASH) && negb (N.eqb c 93)) (fst e)) (n_procs n)) (graph kw_tree) = true) by (vm_compute; reflexivity).
  rewrite forallb_forall in H. unfold node_at in E. apply nth_error_In in E. specialize (H n E). rewrite forallb_forall in H. specialize (H _ G). cbn [fst] in H. apply andb_true_iff in H. destruct H as [H1 H2]. split; [intros ->; discriminate|].
  intros c Hc. rewrite forallb_forall in H2. specialize (H2 c Hc). apply andb_true_iff in H2. destruct H2 as [H2 H3]. split; intros ->; discriminate.
Qed.

(** Calls on a /datum with [a] at 101 and twice at 102, with [b] at 102, and with an unknown [c] at 103, where an argument without a name
    follows; [animate] at 104.  /datum/A/B lacks [a]; the last [foo] of /datum/E lacks [b]. *)
Definition kw_cs : list (call nat) :=
  [kw_call 1 (foo 1 0) [None; Some (lit "a")] 101; kw_call 1 (foo 1 0) [Some (lit "a"); Some (lit "b"); Some (lit "a")] 102; kw_call 1 (foo 1 0) [Some (lit "c"); None] 103;
   kw_call 0 (0, lit "animate", 0) [Some (lit "time"); None] 104].
Example C66_demo : finished kw_tree [] /\ acyclic kw_tree /\ (forall i nm q, procs_of kw_tree i nm = Some q -> word nm) /\ (forall c, In c kw_cs -> defined nat nat kw_tree (c_proc c)) /\
  kw_run kw_cs =
    ([BadKeyword 103 (lit "c") (foo 1 0) [foo 4 0]; AfterKeyword 103 (foo 1 0)],
     [{| r_base := lit "/datum/proc/foo"; r_loc := 10;
         r_overrides := [(lit "/datum/A/B", {| b_missing := [lit "a"]; b_loc := 30 |}); (lit "/datum/E", {| b_missing := [lit "b"]; b_loc := 51 |})];
         r_calls := [(lit "a", {| ca_loc := 101; ca_others := 2 |}); (lit "b", {| ca_loc := 102; ca_others := 0 |})] |}]) /\
  own kw_tree (lit "foo") 1 = [foo 1 0] /\ overrides kw_tree (foo 3 0) (foo 1 0) /\ effective kw_tree (foo 3 0) /\ uses kw_tree kw_params kw_cs 1 (lit "foo") (lit "a") = [101; 102; 102].
Proof.
  split; [exact kw_finished|]. split; [exact kw_acyclic|]. split; [exact kw_words|]. split.
  { intros c H. unfold defined. repeat (destruct H as [<-|H]; [eexists; split; [vm_compute; reflexivity|cbn; lia]|]). destruct H. }
  split; [vm_compute; reflexivity|]. split; [vm_compute; reflexivity|]. split.
  { apply (parents_overrides nat nat kw_tree [] kw_finished kw_acyclic); [eexists; split; [vm_compute; reflexivity|cbn; lia]|]. vm_compute. left. reflexivity. }
  split; [|vm_compute; reflexivity]. eexists. split; [vm_compute; reflexivity|reflexivity].
Qed.

(** A redefinition that no call can find is reported too, when the one that hides it is right. *)
Example C66_hidden : exists b, In (lit "/datum/E", b) (flat_map r_overrides (snd (kw_run [kw_call 1 (foo 1 0) [Some (lit "a")] 101]))) /\ b_loc b = 50 /\ effective kw_tree (foo 5 1) /\ In (lit "a") (parameters kw_tree kw_params (foo 5 1)).
Proof. eexists. split; [vm_compute; right; left; reflexivity|]. split; [reflexivity|]. split; [eexists; split; [vm_compute; reflexivity|reflexivity]|vm_compute; auto]. Qed.

Definition all_found : Prop := forall (cs : list (call nat)) i nm k p, (forall c, In c cs -> defined nat nat kw_tree (c_proc c)) -> is_root kw_tree i = false -> goes_wrong kw_tree kw_params cs i nm k p ->
  exists r b, In r (snd (kw_run cs)) /\ In (path_of kw_tree (pr_ty p), b) (r_overrides r) /\ In k (b_missing b).
Lemma sub_step i j : parent_type kw_tree i = Some j -> subtype kw_tree i j.
Proof. intro H. apply rt_step. exact H. Qed.
(** C66: a call on a type that inherits the procedure: what goes wrong is not reported. *)
Theorem C66_inherited_refuted : ~ all_found.
Proof.
  intro H. destruct (H [kw_call 2 (foo 1 0) [Some (lit "a")] 101] 2 (lit "foo") (lit "a") (foo 3 0)) as (r & b & Hr & _).
  - intros c [<-|[]]. eexists. split; [vm_compute; reflexivity|cbn; lia].
  - vm_compute. reflexivity.
  - split; [vm_compute; discriminate|]. split; [reflexivity|]. split; [apply sub_step; vm_compute; reflexivity|]. split; [eexists; split; [vm_compute; reflexivity|reflexivity]|]. vm_compute. intuition discriminate.
  - vm_compute in Hr. exact Hr.
Qed.

(** C66: the same holds where a type defines the procedure twice: /datum/F with [foo(a)] twice, /datum/F/G with [foo(b)]. *)
Definition kw_tree20 : objtree nat nat := match run_ops [OType 0 "datum"; OType 1 "F"; OType 2 "G"; OProc 2 "foo" (Some 51) 51; OProc 2 "foo" None 51; OProc 3 "foo" None 50] (empty_tree nat nat) with Some t => t | None => empty_tree nat nat end.
Definition kw_tree2 : objtree nat nat := match assign_parent_types kw_tree20 with Some (t, _) => t | None => kw_tree20 end.
Theorem C66_twice_refuted : let cs := [kw_call 2 (foo 2 1) [Some (lit "a")] 101] in
  goes_wrong kw_tree2 kw_params cs 2 (lit "foo") (lit "a") (foo 3 0) /\ effective kw_tree2 (foo 2 1) /\ Kwargs.run kw_tree2 (fun v => v) kw_params 0 cs = ([], []).
Proof.
  split; [|split; [eexists; split; [vm_compute; reflexivity|reflexivity]|vm_compute; reflexivity]].
  split; [vm_compute; discriminate|]. split; [reflexivity|]. split; [apply rt_step; vm_compute; reflexivity|]. split; [eexists; split; [vm_compute; reflexivity|reflexivity]|]. vm_compute. intuition discriminate.
Qed.

Print Assumptions C66_sound.
Print Assumptions C66_complete_partial.
Print Assumptions C66_calls.
Print Assumptions C66_demo.
Print Assumptions C66_hidden.
Print Assumptions C66_inherited_refuted.
Print Assumptions C66_twice_refuted.
