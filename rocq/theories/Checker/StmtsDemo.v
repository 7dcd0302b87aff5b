(** C71: examples, and what the checker misses in the body of a procedure. *)
From Coq Require Import List Arith NArith ZArith Bool String Lia Relations.
From Verif Require Import Common.Text Objtree.Ispath Objtree.Model Objtree.Lemmas Objtree.Spec Objtree.Wf Objtree.Demo Parse.Ast Stmt.Ast Checker.CallTree Checker.Spec Checker.SleepProofs Checker.Directives Checker.TypeExpr Checker.Filters Checker.Exprs Checker.ExprsSpec Checker.ExprsProps Checker.ExprsDemo Checker.Stmts Checker.StmtsSpec Checker.StmtsProps.
From Verif Require Flow.Model.
Import ListNotations.
Open Scope nat_scope.

(** /datum with [foo(a)] and [New()]; /list; /datum/A; /atom, /atom/movable, /mob; /world; /alist; /callee; the global procedure [rest()] *)
Definition st_ops : list op :=
  [OType 0 "datum"; OType 0 "list"; OType 1 "A"; OType 0 "atom"; OType 4 "movable"; OType 0 "mob"; OType 0 "world"; OType 0 "alist"; OType 0 "callee"; OProc 1 "foo" (Some 10) 10; OProc 1 "New" (Some 11) 11; OProc 0 "rest" (Some 1) 1].
Definition st_tree0 : objtree nat nat := match run_ops st_ops (empty_tree nat nat) with Some t => t | None => empty_tree nat nat end.
Definition st_tree : objtree nat nat := match assign_parent_types st_tree0 with Some (t, _) => t | None => st_tree0 end.
Lemma st_finished : finished st_tree [].
Proof.
  exists st_tree0. split.
  - apply (run_ops_built st_ops (empty_tree nat nat)); [constructor|]. unfold st_tree0. destruct (run_ops st_ops (empty_tree nat nat)) as [t|] eqn:E; [reflexivity|]. vm_compute in E. discriminate.
  - unfold st_tree. destruct (assign_parent_types st_tree0) as [[t out]|] eqn:E; [|vm_compute in E; discriminate]. f_equal. f_equal. vm_compute in E. injection E as _ <-. reflexivity.
Qed.
Definition st_zero (n : nat) : bool := n =? 0.
(** [foo] is SHOULD_BE_PURE(FALSE) *)
Definition st_pure : entries nat := [((1, lit "foo", 0), (false, 77))].
Definition st_run (params : list (text * list text)) (b : list (stmt nat)) : list (sevent nat nat) * list (complaint nat) :=
  run st_zero st_tree no_rules st_pure (fun _ => None) ex_vars (fun p => pr_ty p =? 0) (fun _ => lit "proc") (1, lit "foo", 0) params b.
Notation st_within := (within st_zero st_tree no_rules (fun _ => None) ex_vars (fun p => pr_ty p =? 0) (fun _ => lit "proc") (1, lit "foo", 0)).
Notation st_tells := (tells st_zero st_tree no_rules st_pure (fun _ => None) ex_vars (fun p => pr_ty p =? 0) (fun _ => lit "proc") (1, lit "foo", 0)).
Definition var_of (path : list String.string) (x : String.string) (e : option (expr nat)) : stmt nat := Var {| v_type := {| v_flags := 0; v_path := map lit path |}; v_name := lit x; v_value := e |}.
Definition call (x : String.string) (args : list (expr nat)) : expr nat := Base (MCall (lit x) args) [].
Definition num (z : Z) : expr nat := Base (MInt z) [].
(** proc/foo(datum/a, nothing/b)
      set waitfor = 0
      var/datum/A/v = new
      for(var/x in v) throw x
      if(1) ..()
      else rest()
      do { v = usr; break } while(y)
      spawn(5) return v
      if(v.d) return a.x
      else { var/z = 3; crash(z) }
      rest() *)
Definition st_body : list (stmt nat) :=
  [Setting (lit "waitfor") SetAssign (num 0);
   var_of ["datum"; "A"]%string "v" (Some (Base (MNewImplicit None) []));
   ForList (Some {| v_flags := 0; v_path := [] |}) (lit "x") None (Some (name "v")) [Throw (name "x")];
   If [(num 1, [Expr (Base (MParentCall []) [])])] (Some [Expr (call "rest" [])]);
   DoWhile [Expr (Assign AAssign (name "v") (name "usr")); Break None] (name "y");
   Spawn (Some (num 5)) [Return (Some (name "v"))];
   If [(dot "v" "d", [Return (Some (dot "a" "x"))])] (Some [var_of [] "z" (Some (num 3)); Crash (Some (name "z"))]);
   Expr (call "rest" [])].
Definition st_params : list (text * list text) := [(lit "a", [lit "datum"]); (lit "b", [lit "nothing"])].
Definition rest_call (fresh : bool) : sevent nat nat := Said (Calls (0, lit "rest", 0) 1 false true fresh []).
Definition y_unknown : sevent nat nat := Said (UndefinedVar (lit "y")).
Theorem C71_demo : finished st_tree [] /\
  st_run st_params st_body =
    ([Said (TypeProblem (Undefined [lit "nothing"])); NoWaitfor; Said (Calls (1, lit "New", 0) 3 true false false []); Iterates 3; StaticCondition; Said CallsParentProc; Said NoParent; Flows (Flow.Model.AlwaysTrue tt);
      Flows (Flow.Model.UnreachableElse tt); rest_call false; y_unknown; ReturnsInSpawn; Flows (Flow.Model.Unreachable tt)], []) /\
  (exists l0 i, get (lit "a") l0 = Some {| x_type := SType 1; x_val := None; x_impure := true |} /\ get (lit "src") l0 = Some (of_type (SType 1)) /\ st_within (IB false true l0 st_body) i /\ st_tells i y_unknown) /\
  stops st_zero (firstn 7 st_body) /\ ~ stops st_zero (firstn 6 st_body).
Proof.
  split; [exact st_finished|]. split; [vm_compute; reflexivity|]. split; [|split; [vm_compute; reflexivity|vm_compute; discriminate]].
  destruct (C71_run nat nat nat nat st_zero st_tree no_rules st_pure (fun _ => None) ex_vars (fun p => pr_ty p =? 0) (fun _ => lit "proc") (1, lit "foo", 0) st_params st_body) as (l0 & Hl & He & _).
  assert (H : In y_unknown (fst (st_run st_params st_body))) by (vm_compute; do 10 right; left; reflexivity).
  unfold st_run in H. apply (proj1 (He y_unknown)) in H. destruct H as [(x & path & Hi & p & _ & Q)|(i & Hw & Ht)]; [discriminate Q|]. exists l0, i. split; [|split; [|split; [exact Hw|exact Ht]]].
  - apply Hl. apply (st_param _ _ _ _ _ [] (lit "a") [lit "datum"] [(lit "b", [lit "nothing"])] (SType 1)); [reflexivity|intros [Q|[]]; discriminate Q|]. eapply (proj2 (typed_iff nat nat nat nat st_tree [lit "datum"] true (SType 1))). vm_compute. reflexivity.
  - apply Hl. apply (st_src nat nat st_tree (1, lit "foo", 0) st_params); [intros [Q|[Q|[]]]; discriminate Q|]. vm_compute. discriminate.
Qed.

(** C71: where a [for] loop counts a variable that it does not declare, its first value is not looked at: [for(var/x = y to 5)] has an unknown
    variable, [for(x = y to 5)] has none. *)
Theorem C71_range_refuted :
  fst (st_run [] [ForRange (Some {| v_flags := 0; v_path := [] |}) (lit "x") (name "y") (num 5) None []]) = [y_unknown] /\
  fst (st_run [] [var_of [] "x" None; ForRange None (lit "x") (name "y") (num 5) None []]) = [] /\
  fst (st_run [] [Expr (Assign AAssign (name "x") (name "y"))]) = [Said (Impure (lit "Assignment on purity breaking expression")); y_unknown].
Proof. repeat split; vm_compute; reflexivity. Qed.
(** C71: the delay of [spawn()] is waited for, but taken as a part of what is spawned: that [input()] sleeps, and that [rest()] is called from
    here, is missed. *)
Theorem C71_spawn_refuted :
  fst (st_run [] [Expr (Base (MInput [] None None) [])]) = [Said (Sleeps (lit "input"))] /\
  fst (st_run [] [Spawn (Some (Base (MInput [] None None) [])) []]) = [] /\
  fst (st_run [] [Expr (call "rest" [])]) = [rest_call false] /\
  fst (st_run [] [Spawn (Some (call "rest" [])) []]) = [rest_call true].
Proof. repeat split; vm_compute; reflexivity. Qed.
(** C71: that a procedure is said not to be pure counts as saying that it is: its result may not be discarded. *)
Theorem C71_pure_refuted :
  get_self_or_parent st_tree st_pure (1, lit "foo", 0) = Some ((1, lit "foo", 0), false, 77) /\
  In (Discards (lit "foo") 77) (fst (st_run [] [Expr (call "foo" [])])).
Proof. split; vm_compute; [reflexivity|left; reflexivity]. Qed.
(** C71: the left side of [<<] as a statement is looked at twice, and so is reported twice what is wrong there, and called twice what is
    called there; as part of another expression it is not. *)
Theorem C71_twice_refuted :
  fst (st_run [] [Expr (Bin BLShift (name "y") (num 5))]) = [y_unknown; y_unknown] /\
  fst (st_run [] [Return (Some (Bin BLShift (name "y") (num 5)))]) = [y_unknown].
Proof. split; vm_compute; reflexivity. Qed.
(** C71: the value of a setting is not looked at. *)
Theorem C71_setting_refuted : fst (st_run [] [Setting (lit "name") SetAssign (name "y")]) = [].
Proof. vm_compute. reflexivity. Qed.
(** C71: [catch()] takes the last word of its parameter as its name; before it [var] and flags are skipped. *)
Theorem C71_names :
  (forall path x, catches path [] x <-> exists v fs, path = v ++ fs ++ [x] /\ (v = [lit "var"] \/ v = [] /\ hd_error fs <> Some (lit "var")) /\ forall w, In w fs -> flag w) /\
  catches [lit "var"; lit "tmp"; lit "exception"; lit "e"] [lit "exception"] (lit "e").
Proof.
  split.
  - intros path x. split.
    + intros H. remember [] as q eqn:Eq. destruct H as [v fs q x Hv Hf _]. subst q. exists v, fs. split; [reflexivity|]. split; [|exact Hf]. destruct Hv as [H|[H1 H2]]; [left; exact H|right; split; [exact H1|]]. rewrite app_nil_r in H2. exact H2.
    + intros (v & fs & -> & Hv & Hf). apply (ct v fs [] x); [|exact Hf|discriminate]. rewrite app_nil_r. exact Hv.
  - apply (ct [lit "var"] [lit "tmp"] [lit "exception"] (lit "e")); [left; reflexivity|intros w [<-|[]]; unfold flag; cbn [map In]; tauto|].
    intros w p Q. injection Q as <- _. intros H. cbn [map In] in H. repeat (destruct H as [H|H]; [discriminate H|]). destruct H.
Qed.

Print Assumptions C71_events.
Print Assumptions C71_scope.
Print Assumptions C71_block.
Print Assumptions C71_flow.
Print Assumptions C71_run.
Print Assumptions C71_everything.
Print Assumptions C71_demo.
Print Assumptions C71_range_refuted.
Print Assumptions C71_spawn_refuted.
Print Assumptions C71_pure_refuted.
Print Assumptions C71_twice_refuted.
Print Assumptions C71_setting_refuted.
Print Assumptions C71_names.
