(** C47: a tree whose variables refer to each other across types, and where the outcome is not what one would like. *)
From Coq Require Import List NArith ZArith Bool String Lia.
From Verif Require Import Common.Text Parse.Ast Const.Model Const.Related Const.Tree Const.TreeSpec Const.TreeProofs Const.TreeProps Const.Demo.
Import ListNotations.
Open Scope nat_scope.

Notation ex := (expr Z).
Definition num (z : Z) : ex := Base (MInt z) [].
Definition id_ (i : string) : ex := Base (MIdent (lit i)) [].
Definition plain : decl := {| d_const := false; d_static := false; d_protected := false; d_path := [] |}.
Definition const_ : decl := {| d_const := true; d_static := true; d_protected := false; d_path := [] |}.
Definition typed (p : string) : decl := {| d_const := false; d_static := false; d_protected := false; d_path := [lit p] |}.
Definition def_ (i : string) (d : option decl) (e : option ex) : text * var Z := (lit i, {| v_decl := d; v_expr := e; v_const := None |}).
Definition type_at (p : list string) (parent : option nat) (vs : list (text * var Z)) : type_ Z :=
  {| ty_path := map lit p; ty_parent := parent; ty_vars := vs |}.
Notation run_all T := (evaluate_all Z tenths T (fun _ _ => None) (fun _ _ => None) None no_rgb).
Notation value_in T := (value Z tenths T (fun _ _ => None) (fun _ _ => None) None no_rgb).

(** [var/const/g = h + 4] needs the later [h]; [x] is overridden in /datum/a and used by its child, [w] reads another type. *)
Definition demo_tree : tree Z :=
  [ type_at [] None [def_ "g" (Some const_) (Some (Bin BAdd (id_ "h") (num 4))); def_ "skip" (Some plain) (Some (id_ "nowhere")); def_ "h" (Some const_) (Some (num 1))];
    type_at ["datum"] (Some 0) [def_ "x" (Some plain) (Some (Bin BAdd (id_ "g") (num 1))); def_ "o" (Some (typed "datum")) None];
    type_at ["datum"; "a"] (Some 1) [def_ "x" None (Some (Bin BMul (id_ "g") (num 2))); def_ "z" (Some plain) (Some (Bin BAdd (id_ "x") (id_ "lost")))];
    type_at ["datum"; "a"; "b"] (Some 2) [def_ "w" (Some plain) (Some (Bin BAdd (id_ "x") (Base (MPrefab [(PathSlash, lit "datum")] []) [FStaticField (lit "x")])))] ]%string.
Lemma demo_acyclic : acyclic Z demo_tree.
Proof.
  assert (H0 : Acc (fun p ty => parent_of Z demo_tree ty = Some p) 0) by (constructor; discriminate).
  assert (H1 : Acc (fun p ty => parent_of Z demo_tree ty = Some p) 1) by (constructor; intros p Q; injection Q as <-; exact H0).
  assert (H2 : Acc (fun p ty => parent_of Z demo_tree ty = Some p) 2) by (constructor; intros p Q; injection Q as <-; exact H1).
  assert (H3 : Acc (fun p ty => parent_of Z demo_tree ty = Some p) 3) by (constructor; intros p Q; injection Q as <-; exact H2).
  intros [|[|[|[|n]]]]; try assumption. constructor. intros p Q. unfold parent_of in Q. cbn in Q. destruct n; discriminate.
Qed.
Lemma demo_fieldless : fieldless Z demo_tree.
Proof.
  intros ty i v e Hv He.
  assert (K : forallb (fun t => forallb (fun x => match v_expr (snd x) with Some e => no_field Z e | None => true end) (ty_vars t)) demo_tree = true) by (vm_compute; reflexivity).
  rewrite forallb_forall in K. unfold var_of, vars_of, assoc in Hv. destruct (nth_error demo_tree ty) as [t|] eqn:Et; [|discriminate].
  specialize (K t (nth_error_In _ _ Et)). rewrite forallb_forall in K. destruct (find _ (ty_vars t)) as [x|] eqn:Ef; [|discriminate]. injection Hv as <-.
  specialize (K x (proj1 (find_some _ _ Ef))). rewrite He in K. exact K.
Qed.
Lemma demo_eligible : eligible Z demo_tree 3 (lit "w") plain /\ eligible Z demo_tree 2 (lit "x") plain /\ eligible Z demo_tree 0 (lit "g") const_.
Proof.
  repeat split; cbn; try (eexists; reflexivity); try (right; discriminate); try (left; reflexivity); try (right; split; reflexivity).
  - eapply declared_here; reflexivity.
  - eapply declared_up; [intros v Q; vm_compute in Q; injection Q as <-; reflexivity|reflexivity|]. eapply declared_here; reflexivity.
  - eapply declared_here; reflexivity.
Qed.
(** What is stored: [g] is 5, [h] is 1, [x] is 6 in /datum and 10 in /datum/a, [w] is 10 + 6; [z] mentions a variable that does not
    exist and is reported. *)
Example C47_demo : exists out s, run_all demo_tree = Some (out, s) /\ map (fun r => (fst (fst r), snd (fst r))) out = [(2, lit "z")] /\
  map (fun q => fst (s (fst q) (lit (snd q)))) [(0, "g"); (0, "skip"); (0, "h"); (1, "x"); (1, "o"); (2, "x"); (2, "z"); (3, "w")]%string =
  [Some (CFloat 50%Z); None; Some (CFloat 10%Z); Some (CFloat 60%Z); Some (CNull (Some [lit "datum"])); Some (CFloat 100%Z); None; Some (CFloat 160%Z)].
Proof.
  destruct (run_all demo_tree) as [[out s]|] eqn:E; [|destruct (C47_terminates Z tenths demo_tree (fun _ _ => None) (fun _ _ => None) None no_rgb demo_acyclic E)].
  exists out, s. split; [reflexivity|]. vm_compute in E. injection E as <- <-. vm_compute. auto.
Qed.

(** ** Circles *)
Definition ring : tree Z :=
  [ type_at [] None [];
    type_at ["datum"] (Some 0) [def_ "x" (Some plain) (Some (Bin BAdd (id_ "y") (num 1))); def_ "y" (Some plain) (Some (id_ "x"))] ]%string.
Example C47_ring_demo : exists out s, run_all ring = Some (out, s) /\
  map (fun r => (snd (fst r), snd r)) out = [(lit "x", ERecursive (lit "x")); (lit "y", ERecursive (lit "y"))] /\ fst (s 1 (lit "x")) = None /\ fst (s 1 (lit "y")) = None.
Proof.
  destruct (run_all ring) as [[out s]|] eqn:E; [|vm_compute in E; discriminate]. exists out, s. vm_compute in E. injection E as <- <-. vm_compute. auto.
Qed.
(** The hypothesis of [C47_circle] is met by this ring. *)
Lemma ring_circle : forall ty i, ty = 1 /\ (i = lit "x" \/ i = lit "y") -> exists v d e, var_of Z ring ty i = Some v /\ declared Z ring ty i d /\ v_const v = None /\ v_expr v = Some e /\
  forall known c, (forall ty' i' m o, owner Z ring ty' i' o -> (o = 1 /\ (i' = lit "x" \/ i' = lit "y")) -> known ty' i' m = None) ->
    ev_expr Z tenths (given Z ring (fun _ _ => None) (fun _ _ => None) None no_rgb known ty) e (match d_path d with [] => None | p => Some p end) tt <> EOk c tt.
Proof.
  intros ty i [-> [-> | ->]]; do 3 eexists; (split; [vm_compute; reflexivity|split; [eapply declared_here; reflexivity|split; [reflexivity|split; [reflexivity|]]]]); intros known c Hk Q.
  - assert (K : known 1 (lit "y") false = None) by (apply (Hk 1 (lit "y") false 1); [eapply owner_here; reflexivity|auto]). vm_compute in K, Q. rewrite K in Q. discriminate.
  - assert (K : known 1 (lit "x") false = None) by (apply (Hk 1 (lit "x") false 1); [eapply owner_here; reflexivity|auto]). vm_compute in K, Q. rewrite K in Q. discriminate.
Qed.

(** ** What one would like and does not get *)
(** Whether [t.n] is a constant depends on which of the two types comes first. *)
Definition thing : type_ Z := type_at ["thing"%string] (Some 0) [def_ "n" (Some plain) (Some (num 1))].
Definition user : type_ Z := type_at ["user"%string] (Some 0) [def_ "t" (Some (typed "thing")) None; def_ "m" (Some plain) (Some (Base (MIdent (lit "t")) [FField KDot (lit "n")]))].
Definition first_thing : tree Z := [type_at [] None []; thing; user].
Definition first_user : tree Z := [type_at [] None []; user; thing].
Theorem C47_field_order_refuted : exists out1 s1 out2 s2, run_all first_thing = Some (out1, s1) /\ run_all first_user = Some (out2, s2) /\
  fst (s1 2 (lit "m")) = Some (CFloat 10%Z) /\ out1 = [] /\ fst (s2 1 (lit "m")) = None /\ out2 = [(1, lit "m", ENotConst (lit "n"))].
Proof.
  destruct (run_all first_thing) as [[out1 s1]|] eqn:E1; [|vm_compute in E1; discriminate]. destruct (run_all first_user) as [[out2 s2]|] eqn:E2; [|vm_compute in E2; discriminate].
  exists out1, s1, out2, s2. vm_compute in E1, E2. injection E1 as <- <-. injection E2 as <- <-. vm_compute. auto 10.
Qed.
(** A variable that only uses one whose evaluation failed is reported as recursive, though nothing refers to itself. *)
Definition broken : tree Z :=
  [ type_at [] None []; type_at ["datum"] (Some 0) [def_ "x" (Some plain) (Some (id_ "nowhere")); def_ "y" (Some plain) (Some (id_ "x"))] ]%string.
Theorem C47_blame_refuted : exists out s, run_all broken = Some (out, s) /\ In (1, lit "y", ERecursive (lit "x")) out.
Proof.
  destruct (run_all broken) as [[out s]|] eqn:E; [|vm_compute in E; discriminate]. exists out, s. split; [reflexivity|]. vm_compute in E. injection E as <- <-. vm_compute. auto.
Qed.
(** Two types that are each other's parent, as [parent_type] can say: looking for a declaration goes round for ever. *)
Definition knot : tree Z := [type_at [] None []; type_at ["a"%string] (Some 2) []; type_at ["b"%string] (Some 1) []].
Theorem C47_knot_refuted : forall fuel i, walk_decl Z knot fuel 1 i = None.
Proof.
  assert (K : forall fuel i, walk_decl Z knot fuel 1 i = None /\ walk_decl Z knot fuel 2 i = None).
  { induction fuel as [|fuel IH]; intro i; [auto|]. destruct (IH i) as [H1 H2]. split; cbn; assumption. }
  intros fuel i. apply K.
Qed.
Print Assumptions C47_terminates.
Print Assumptions C47_values.
Print Assumptions C47_reports.
Print Assumptions C47_consistent.
Print Assumptions C47_exact.
Print Assumptions C47_order.
Print Assumptions C47_circle.
Print Assumptions C47_find.
