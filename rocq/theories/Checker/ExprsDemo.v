(** C69: examples, and what the rules do not do. *)
From Coq Require Import List Arith NArith ZArith Bool String Lia Relations.
From Verif Require Import Common.Text Objtree.Ispath Objtree.Model Objtree.Lemmas Objtree.Spec Objtree.Wf Objtree.Demo Parse.Ast Checker.CallTree Checker.Spec Checker.SleepProofs Checker.Directives Checker.TypeExpr Checker.Filters Checker.Exprs Checker.ExprsSpec Checker.ExprsProps Checker.ExprsQuiet.
Import ListNotations.
Open Scope nat_scope.

(** /datum with [foo(a)] and [New()]; /list; /datum/A and /datum/A/B; /mob and /savefile; the global procedure [animate] *)
Definition ex_ops : list op :=
  [OType 0 "datum"; OType 0 "list"; OType 1 "A"; OType 3 "B"; OType 0 "atom"; OType 5 "movable"; OType 0 "mob"; OType 0 "savefile"; OProc 1 "foo" (Some 10) 10; OProc 1 "New" (Some 11) 11; OProc 0 "animate" (Some 1) 1].
Definition ex_tree0 : objtree nat nat := match run_ops ex_ops (empty_tree nat nat) with Some t => t | None => empty_tree nat nat end.
Definition ex_tree : objtree nat nat := match assign_parent_types ex_tree0 with Some (t, _) => t | None => ex_tree0 end.
Lemma ex_finished : finished ex_tree [].
Proof.
  exists ex_tree0. split.
  - apply (run_ops_built ex_ops (empty_tree nat nat)); [constructor|]. unfold ex_tree0. destruct (run_ops ex_ops (empty_tree nat nat)) as [t|] eqn:E; [reflexivity|]. vm_compute in E. discriminate.
  - unfold ex_tree. destruct (assign_parent_types ex_tree0) as [[t out]|] eqn:E; [|vm_compute in E; discriminate]. f_equal. f_equal. vm_compute in E. injection E as _ <-. reflexivity.
Qed.
Lemma ex_acyclic : acyclic ex_tree.
Proof. apply (acyclic_check ex_tree (fun i => nth i [0; 1; 2; 2; 3; 2; 3; 4; 2] 0)). vm_compute. reflexivity. Qed.

(** /datum has [x] without a type and [d], a /datum; /datum/A has the private [p] *)
Definition decl (ty : list String.string) (private : bool) : option vdecl := Some {| vd_type := map lit ty; vd_private := private; vd_protected := false |}.
Definition ex_vars (i : nat) : list (text * option vdecl) :=
  match i with 1 => [(lit "x", decl [] false); (lit "d", decl ["datum"%string] false)] | 3 => [(lit "p", decl [] true); (lit "x", None)] | _ => [] end.
Definition no_rules : env nat := {| e_private := []; e_protected := []; e_no_override := []; e_must_call := []; e_must_not_call := []; e_redefinable := [] |}.
Definition ex_visit (self : nat) (locals : text -> option ana) (h : option nat) (e : expr nat) : out nat nat :=
  visit ex_tree no_rules (fun _ => None) ex_vars (fun p => pr_ty p =? 0) (fun _ => lit "proc") (self, lit "foo", 0) false locals h e.
Definition no_locals : text -> option ana := fun _ => None.
Definition local (k : String.string) (ty : nat) : text -> option ana := fun x => if text_eqb x (lit k) then Some (of_type (SType ty)) else None.
Definition name (x : String.string) : expr nat := Base (MIdent (lit x)) [].
Definition dot (x y : String.string) : expr nat := Base (MIdent (lit x)) [FField KDot (lit y)].
Definition five : expr nat := Base (MInt 5) [].
Definition foo_proc : procref := (1, lit "foo", 0).

Notation ex_quiet self locals h e := (quiet nat nat nat nat ex_tree no_rules (fun _ => None) ex_vars (fun p => pr_ty p =? 0) (fun _ => lit "proc") (self, lit "foo", 0) false locals h e).
(** [d.foo(a = x)] in /datum/proc/foo; the same in /datum/A; [undefined + d.y], [mob << new /datum/C], [x = new] *)
Theorem C69_demo : finished ex_tree [] /\ acyclic ex_tree /\
  ex_visit 1 no_locals None (Base (MIdent (lit "d")) [FCall KDot (lit "foo") [Assign AAssign (name "a") (name "x")]]) = (empty, [Calls foo_proc 1 false false false [Some (lit "a")]]) /\
  ex_quiet 1 no_locals None (Base (MIdent (lit "d")) [FCall KDot (lit "foo") [Assign AAssign (name "a") (name "x")]]) /\
  declares ex_tree ex_vars 4 (lit "x") {| vd_type := []; vd_private := false; vd_protected := false |} /\
  ex_visit 1 no_locals None (Bin BAdd (name "undefined") (dot "d" "y")) = (empty, [UndefinedVar (lit "undefined"); UndefinedField (lit "y") (Some 1)]) /\
  ex_visit 1 (local "m" 7) None (Bin BLShift (name "m") (Base (MNewPrefab [(PathSlash, lit "datum"); (PathSlash, lit "C")] [] None) [])) =
    (empty, [BadPath [(PathSlash, lit "datum"); (PathSlash, lit "C")]; Impure (lit "LShift onto mob")]) /\
  ex_visit 1 no_locals None (Assign AAssign (name "x") (Base (MNewImplicit None) [])) = (empty, [Impure (lit "Assignment on purity breaking expression"); NoHint]) /\
  ex_visit 1 no_locals None (Assign AAssign (name "d") (Base (MNewImplicit None) [])) = (empty, [Impure (lit "Assignment on purity breaking expression"); Calls (1, lit "New", 0) 1 true false false []]).
Proof.
  split; [exact ex_finished|]. split; [exact ex_acyclic|]. split; [vm_compute; reflexivity|]. split.
  { intros ev H. assert (Q : ev = Calls foo_proc 1 false false false [Some (lit "a")]) by (vm_compute in H; destruct H as [<-|[]]; vm_compute; reflexivity). subst ev. exact (fun x => x). }
  split. { apply (dc_parent _ _ _ _ 4 3); [intros d H; discriminate H|vm_compute; reflexivity|]. apply (dc_parent _ _ _ _ 3 1); [intros d H; vm_compute in H; discriminate H|vm_compute; reflexivity|]. apply dc_here. vm_compute. reflexivity. }
  repeat split; vm_compute; reflexivity.
Qed.

(** C69: that something is changed is only seen when the name of the variable is all that is written: [x = 5] is reported, [src.x = 5] is not,
    [d.x = 5] is not. *)
Theorem C69_changes_refuted :
  In (Impure (lit "Assignment on purity breaking expression")) (snd (ex_visit 1 (local "src" 1) None (Assign AAssign (name "x") five))) /\
  snd (ex_visit 1 (local "src" 1) None (Assign AAssign (dot "src" "x") five)) = [] /\
  snd (ex_visit 1 (local "src" 1) None (Assign AAssign (dot "d" "x") five)) = [].
Proof. split; [vm_compute; left; reflexivity|]. split; vm_compute; reflexivity. Qed.
(** C69: what [new /list(...)] has between its parentheses is not looked at. *)
Theorem C69_new_list_refuted :
  snd (ex_visit 1 no_locals None (name "undefined")) = [UndefinedVar (lit "undefined")] /\
  snd (ex_visit 1 no_locals None (Base (MNewPrefab [(PathSlash, lit "list")] [] (Some [name "undefined"])) [])) = [].
Proof. split; vm_compute; reflexivity. Qed.
(** C69: a private variable is taken as that of the type of the value, not of the type that declares it: code of /datum/A is told off for [b.p]
    where [b] is a /datum/A/B; code of /datum/A/B is not. *)
Theorem C69_private_refuted :
  declares ex_tree ex_vars 4 (lit "p") {| vd_type := []; vd_private := true; vd_protected := false |} /\ get (lit "p") (ex_vars 4) = None /\
  snd (ex_visit 3 (local "b" 4) None (dot "b" "p")) = [PrivateVar (lit "p") 4] /\
  snd (ex_visit 4 (local "b" 4) None (dot "b" "p")) = [].
Proof.
  split. { apply (dc_parent _ _ _ _ 4 3); [intros d H; discriminate H|vm_compute; reflexivity|]. apply dc_here. vm_compute. reflexivity. }
  repeat split; vm_compute; reflexivity.
Qed.
(** C69: [c ? a : b] has the type of [a]; [__IMPLIED_TYPE__] is the type of the code, not the one that is expected. *)
Theorem C69_branches_refuted :
  x_type (fst (ex_visit 1 no_locals None (Tern (name "x") (name "d") (name "x")))) = SType 1 /\
  x_type (fst (ex_visit 1 no_locals None (Tern (name "x") (name "x") (name "d")))) = SNone /\
  x_val (fst (ex_visit 3 no_locals (Some 1) (Base MImplied []))) = Some (VPath [lit "datum"; lit "A"]).
Proof. repeat split; vm_compute; reflexivity. Qed.

Print Assumptions C69_types.
Print Assumptions C69_events.
Print Assumptions C69_lookup.
Print Assumptions C69_demo.
Print Assumptions C69_changes_refuted.
Print Assumptions C69_new_list_refuted.
Print Assumptions C69_private_refuted.
Print Assumptions C69_branches_refuted.
