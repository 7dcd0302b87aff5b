(** C73: examples, and what the references do not say. *)
From Coq Require Import List Arith NArith ZArith Bool String Lia Relations.
From Verif Require Import Common.Text Objtree.Ispath Objtree.Model Objtree.Lemmas Objtree.Spec Objtree.Wf Objtree.Assign Objtree.Paths Objtree.InheritProps Objtree.Demo Parse.Ast Stmt.Ast.
From Verif Require Import Checker.CallTree Checker.Kwargs Checker.TypeExpr Checker.Exprs Checker.ExprsSpec Checker.Stmts Checker.StmtsSpec Lsp.References Lsp.ReferencesSpec Lsp.ReferencesProps Lsp.ReferencesStmts.
Import ListNotations.
Open Scope nat_scope.

(** 1 /datum, 2 /datum/item, 3 /atom, 4 /atom/movable, 5 /mob, 6 /list; /datum declares [tick], and /datum/item overrides it; [setup] is global;
    /datum/item declares [spin] *)
Definition rf_ops : list op :=
  [OType 0 "datum"; OType 1 "item"; OType 0 "atom"; OType 3 "movable"; OType 0 "mob"; OType 0 "list"; OProc 1 "tick" (Some 0) 10; OProc 2 "tick" None 12; OProc 0 "setup" (Some 0) 13; OProc 2 "spin" (Some 0) 14].
Definition rf_tree0 : objtree nat nat := match run_ops rf_ops (empty_tree nat nat) with Some t => t | None => empty_tree nat nat end.
Definition rf_tree : objtree nat nat := match assign_parent_types rf_tree0 with Some (t, _) => t | None => rf_tree0 end.
Lemma rf_built : built rf_tree0.
Proof. apply (run_ops_built rf_ops (empty_tree nat nat)); [constructor|]. unfold rf_tree0. destruct (run_ops rf_ops (empty_tree nat nat)) as [t|] eqn:E; [reflexivity|]. vm_compute in E. discriminate. Qed.
Lemma rf_assigned : assign_parent_types rf_tree0 = Some (rf_tree, []).
Proof. unfold rf_tree. destruct (assign_parent_types rf_tree0) as [[t out]|] eqn:E; [|vm_compute in E; discriminate]. f_equal. f_equal. vm_compute in E. injection E as _ <-. reflexivity. Qed.
Lemma rf_finished : finished rf_tree [].
Proof. exists rf_tree0. split; [exact rf_built|exact rf_assigned]. Qed.
Lemma rf_acyclic : acyclic rf_tree.
Proof. apply (acyclic_check rf_tree (fun i => nth i [0; 1; 2; 2; 3; 4; 1] 0)). vm_compute. reflexivity. Qed.

Definition name (x : string) : expr nat := Base (MIdent (lit x)) [].
Definition num (z : Z) : expr nat := Base (MInt z) [].
Definition then_ (e : expr nat) (f : follow nat) : expr nat := match e with Base x fs => Base x (fs ++ [f]) | _ => e end.
Definition dot (e : expr nat) (x : string) : expr nat := then_ e (FField KDot (lit x)).
Definition call (e : expr nat) (x : string) (l : list (expr nat)) : expr nat := then_ e (FCall KDot (lit x) l).
Definition typed (ws : list string) : vartype := {| v_flags := 0%N; v_path := map lit ws |}.
Definition var (ws : list string) (x : string) (o : option (expr nat)) : vardecl nat := {| v_type := typed ws; v_name := lit x; v_value := o |}.
Definition param (ws : list string) (x : string) (d i : option (expr nat)) : rparam nat := {| rp_name := lit x; rp_path := map lit ws; rp_default := d; rp_in := i |}.
Definition slash (ws : list string) : list (pathop * text) := map (fun w => (PathSlash, lit w)) ws.

(** [debug] is global; /datum has [mob/owner], /datum/item sets it; /mob has [datum/item/held = new] *)
Definition rf_vars (i : nat) : list (text * rvar nat) :=
  match i with
  | 0 => [(lit "debug", {| rv_decl := Some []; rv_value := Some (num 1) |})]
  | 1 => [(lit "owner", {| rv_decl := Some [lit "mob"]; rv_value := None |})]
  | 2 => [(lit "owner", {| rv_decl := None; rv_value := Some (name "debug") |})]
  | 5 => [(lit "held", {| rv_decl := Some [lit "datum"; lit "item"]; rv_value := Some (Base (MNewImplicit None) []) |})]
  | _ => []
  end.
Definition held_of (x : string) : expr nat := dot (name x) "held".
Definition rf_tick : list (stmt nat) :=
  [Var (var ["datum"; "item"]%string "other" (Some (held_of "owner")));
   If [(name "a", [Expr (call (name "other") "tick" [name "a"])])] (Some [Expr (Assign AAssign (dot (name "src") "owner") (Base (MNewPrefab (slash ["mob"]%string) [(lit "held", Base MImplied [])] None) []))]);
   Return (Some (name "debug"))].
Definition rf_code (v : nat) : list (rparam nat) * option (list (stmt nat)) :=
  match v with
  | 10 => ([param [] "a" None None], Some rf_tick)
  | 12 => ([param ["mob"]%string "a" (Some (name "owner")) None], Some [Expr (Base (MParentCall [name "a"]) []); Expr (Base (MCall (lit "spin") []) [])])
  | 14 => ([], Some [Expr (Base (MPrefab (slash ["datum"; "proc"; "tick"]%string) []) [])])
  | _ => ([], None)
  end.
Notation rf_find := (find_references rf_tree rf_vars).
Notation rf_impl := (find_implementations rf_tree rf_vars).
Definition tick1 : procref := (1, lit "tick", 0). Definition tick2 : procref := (2, lit "tick", 0). Definition spin2 : procref := (2, lit "spin", 0). Definition setup : procref := (0, lit "setup", 0).

(** Where [owner], [held], [debug], [tick], [spin] and /mob are used, and the local variable [other]; where they are implemented *)
Definition rf_new : term nat := MNewPrefab (slash ["mob"]%string) [(lit "held", Base MImplied [])] None.
Theorem C73_demo : finished rf_tree [] /\ acyclic rf_tree /\
  rf_find rf_code (SVar 1 (lit "owner")) = [(InProc tick1, AtTerm (MIdent (lit "owner"))); (InProc tick1, AtFollow (FField KDot (lit "owner"))); (InProc tick2, AtTerm (MIdent (lit "owner")))] /\
  rf_find rf_code (SVar 5 (lit "held")) = [(InProc tick1, AtFollow (FField KDot (lit "held"))); (InProc tick1, AtTerm rf_new)] /\
  rf_find rf_code (SVar 0 (lit "debug")) = [(InProc tick1, AtTerm (MIdent (lit "debug"))); (InVar 2 (lit "owner"), AtTerm (MIdent (lit "debug")))] /\
  rf_find rf_code (SProcDecl 1 (lit "tick")) = [(InProc tick1, AtFollow (FCall KDot (lit "tick") [name "a"])); (InProc spin2, AtTerm (MPrefab (slash ["datum"; "proc"; "tick"]%string) []))] /\
  rf_find rf_code (SProcDecl 2 (lit "spin")) = [(InProc tick2, AtTerm (MCall (lit "spin") []))] /\
  rf_find rf_code (STyp 5) = [(InProc tick1, AtTerm rf_new); (InProc tick2, AtParam (param ["mob"]%string "a" (Some (name "owner")) None))] /\
  rf_find rf_code (SLocal tick1 6) = [(InProc tick1, AtStmt (Var (var ["datum"; "item"]%string "other" (Some (held_of "owner"))))); (InProc tick1, AtTerm (MIdent (lit "other")))] /\
  rf_impl (SVar 1 (lit "owner")) = [OfVar 1 (lit "owner"); OfVar 2 (lit "owner")] /\
  rf_impl (SProcDecl 1 (lit "tick")) = [OfProc 1 (lit "tick"); OfProc 2 (lit "tick")] /\
  rf_impl (STyp 2) = [OfType 2].
Proof. split; [exact rf_finished|]. split; [exact rf_acyclic|]. repeat split; vm_compute; reflexivity. Qed.

(** ** What is found wrongly, or not found *)
(** The references in one procedure, [/datum/tick] with this code and these parameters *)
Definition in_tick (ps : list (rparam nat)) (b : list (stmt nat)) (v : nat) : list (rparam nat) * option (list (stmt nat)) := match v with 10 => (ps, Some b) | _ => ([], None) end.
Notation owner_in ps b := (rf_find (in_tick ps b) (SVar 1 (lit "owner"))).
Notation owner_use := (InProc tick1, AtTerm (MIdent (lit "owner"))).
(** what the theorems above say, of this tree *)
Theorem rf_exact : forall code sym r, In r (rf_find code sym) <-> reference nat nat nat rf_tree rf_vars code sym r.
Proof. intros code sym r. apply (C73_references nat nat nat rf_tree rf_vars code [] sym r rf_finished rf_acyclic). Qed.
(** C73: a variable is visible until the end of the block that declares it.  Here it hides the variable of the type until the end of the
    procedure: in [if(src) { var/owner }; del owner], the last name is taken for the local variable. *)
Theorem C73_block_refuted :
  owner_in [] [Del (name "owner")] = [owner_use] /\
  owner_in [] [If [(name "src", [Var (var [] "owner" None)])] None; Del (name "owner")] = [] /\
  rf_find (in_tick [] [If [(name "src", [Var (var [] "owner" None)])] None; Del (name "owner")]) (SLocal tick1 5) = [(InProc tick1, AtStmt (Var (var [] "owner" None))); owner_use].
Proof. repeat split; vm_compute; reflexivity. Qed.
(** ... and of two variables of one name, one in a block inside that of the other, the outer one loses the uses that follow the inner block. *)
Theorem C73_arms_refuted :
  rf_find (in_tick [] [If [(name "src", [Var (var [] "x" None); If [(name "src", [Var (var [] "x" None)])] None; Del (name "x")])] None]) (SLocal tick1 5) = [(InProc tick1, AtStmt (Var (var [] "x" None)))].
Proof. vm_compute. reflexivity. Qed.
(** C73: what is only used in [CRASH(...)], in the value of a setting, or as the start of a loop over a range whose variable is not
    declared there, is not found. *)
Theorem C73_skipped_refuted :
  owner_in [] [Crash (Some (name "owner"))] = [] /\
  owner_in [] [Setting (lit "name") SetAssign (name "owner")] = [] /\
  owner_in [] [Var (var [] "i" None); ForRange None (lit "i") (name "owner") (num 10) None []] = [] /\
  owner_in [] [ForRange (Some (typed [])) (lit "i") (name "owner") (num 10) None []] = [owner_use].
Proof. repeat split; vm_compute; reflexivity. Qed.
(** C73: so are the arguments of a call of an unknown procedure (but not those of an unknown method, or with [global.]), of [new] of a type that is
    not known or has no [New], of [new x(...)], and what variables are set to after the path of a procedure *)
Theorem C73_arguments_refuted :
  owner_in [] [Expr (Base (MCall (lit "unknown") [name "owner"]) [])] = [] /\
  owner_in [] [Expr (call (name "src") "unknown" [name "owner"])] = [owner_use] /\
  owner_in [] [Expr (Base (MGlobalCall (lit "unknown") [name "owner"]) [])] = [owner_use] /\
  owner_in [] [Expr (Base (MNewImplicit (Some [name "owner"])) [])] = [] /\
  owner_in [] [Expr (Base (MNewPrefab (slash ["mob"]%string) [] (Some [name "owner"])) [])] = [] /\
  owner_in [] [Expr (Base (MNewMini (lit "usr") [] (Some [name "owner"])) [])] = [] /\
  owner_in [] [Expr (Base (MPrefab (slash ["datum"; "proc"; "tick"]%string) [(lit "name", name "owner")]) [])] = [].
Proof. repeat split; vm_compute; reflexivity. Qed.
(** C73: the list that a parameter is to be chosen from is not looked at. *)
Theorem C73_parameter_refuted :
  owner_in [param [] "a" None (Some (name "owner"))] [] = [] /\ owner_in [param [] "a" (Some (name "owner")) None] [] = [owner_use].
Proof. split; vm_compute; reflexivity. Qed.
(** C73: a name that hides the variable, but is declared after it, or in its own value: [var/owner = owner] is the variable of the type. *)
Theorem C73_own_value_demo :
  owner_in [] [Var (var [] "owner" (Some (name "owner"))); Del (name "owner")] = [owner_use] /\
  rf_find (in_tick [] [Var (var [] "owner" (Some (name "owner"))); Del (name "owner")]) (SLocal tick1 5) = [(InProc tick1, AtStmt (Var (var [] "owner" (Some (name "owner"))))); owner_use].
Proof. split; vm_compute; reflexivity. Qed.
(** C73: a call of an overridden procedure counts for the declaration; there is no telling which of the implementations it is.  [..()]
    and [.()] are no references. *)
Theorem C73_parent_demo :
  rf_find rf_code (SProcDecl 2 (lit "tick")) = [] /\ ~ In (InProc tick2, AtTerm (MParentCall [name "a"])) (rf_find rf_code (SProcDecl 1 (lit "tick"))).
Proof. split; [vm_compute; reflexivity|]. vm_compute. intros [H|[H|[]]]; discriminate H. Qed.
Print Assumptions C73_demo.
Print Assumptions C73_block_refuted.
Print Assumptions C73_arms_refuted.
Print Assumptions C73_skipped_refuted.
Print Assumptions C73_arguments_refuted.
Print Assumptions C73_parameter_refuted.
Print Assumptions C73_own_value_demo.
Print Assumptions C73_parent_demo.
Print Assumptions C73_references.
Print Assumptions C73_implementations.
Print Assumptions C73_procedure.
Print Assumptions C73_expression.
Print Assumptions C73_types.
Print Assumptions C73_latest.
Print Assumptions C73_others.
Print Assumptions C73_catch.
Print Assumptions C73_complete.
