(** Concrete trees for C49 and C50, and what goes wrong with circles. *)
From Coq Require Import List Arith NArith Bool String Lia Relations Sorted.
From Verif Require Import Common.Text Parse.Ast Objtree.Ispath Objtree.Model Objtree.Lemmas Objtree.Spec Objtree.Wf Objtree.Assign Objtree.Paths Objtree.PathsProps Objtree.Inherit Objtree.Calls Objtree.InheritProps.
Import ListNotations.
Open Scope nat_scope.

Inductive op : Type := OType (parent : nat) (name : string) | OVar (ty : nat) (v : pvar) | OProc (ty : nat) (name : string) (d : option nat) (v : nat).
Definition slash_freeb (s : text) : bool := forallb (fun c => negb (c =? SLASH)%N) s.
Lemma slash_freeb_ok s : slash_freeb s = true -> slash_free s.
Proof. unfold slash_freeb. rewrite forallb_forall. intros H Q. specialize (H _ Q). rewrite N.eqb_refl in H. discriminate. Qed.
Fixpoint run_ops (ops : list op) (t : objtree nat nat) : option (objtree nat nat) :=
  match ops with
  | [] => Some t
  | OType p name :: ops' => if slash_freeb (lit name) then match subtype_or_add t p (lit name) with Some (t', _) => run_ops ops' t' | None => None end else None
  | OVar ty v :: ops' => match set_parent_type_var t ty v with Some t' => run_ops ops' t' | None => None end
  | OProc ty name d v :: ops' => match register_proc t ty (lit name) d v with Some t' => run_ops ops' t' | None => None end
  end.
Lemma run_ops_built ops : forall t t', built t -> run_ops ops t = Some t' -> built t'.
Proof.
  induction ops as [|o ops IH]; intros t t' B E; cbn [run_ops] in E; [injection E as <-; exact B|]. destruct o as [p name|ty v|ty name d v].
  - destruct (slash_freeb (lit name)) eqn:S; [|discriminate]. destruct (subtype_or_add t p (lit name)) as [[t1 i]|] eqn:Q; [|discriminate]. apply (IH t1); [|exact E]. exact (built_type _ _ _ _ _ _ _ B (slash_freeb_ok _ S) Q).
  - destruct (set_parent_type_var t ty v) as [t1|] eqn:Q; [|discriminate]. apply (IH t1); [|exact E]. exact (built_var _ _ _ _ _ _ B Q).
  - destruct (register_proc t ty (lit name) d v) as [t1|] eqn:Q; [|discriminate]. apply (IH t1); [|exact E]. exact (built_proc _ _ _ _ _ _ _ _ B Q).
Qed.

(** ** An ordinary tree, with settings *)
Definition ops : list op :=
  [OType 0 "datum"; OType 0 "atom"; OType 2 "movable"; OType 0 "obj"; OType 0 "mob"; OType 0 "turf"; OType 0 "list"; OType 0 "client";
   OType 4 "item"; OType 9 "sword"; OType 9 "axe"; OType 1 "odd"; OVar 12 {| pv_value := PPath [lit "obj"; lit "item"]; pv_expr := true |};
   OType 1 "lost"; OVar 13 {| pv_value := PString (lit "/nowhere"); pv_expr := true |}; OVar 7 {| pv_value := POther; pv_expr := true |};
   OType 9 "hammer"; OType 1 "bad"; OVar 15 {| pv_value := POther; pv_expr := true |}; OType 0 "item"; OType 12 "sword"; OType 0 "world";
   OProc 9 "use" None 20; OProc 1 "use" (Some 1) 10; OProc 10 "use" None 30; OProc 10 "use" None 31; OProc 12 "use" None 40; OProc 9 "use" None 21; OProc 1 "use" None 11].
Definition built_tree : objtree nat nat := match run_ops ops (empty_tree nat nat) with Some t => t | None => empty_tree nat nat end.
Lemma built_tree_ok : built built_tree.
Proof.
  apply (run_ops_built ops (empty_tree nat nat)); [constructor|]. unfold built_tree. destruct (run_ops ops (empty_tree nat nat)) as [t|] eqn:E; [reflexivity|]. vm_compute in E. discriminate.
Qed.
Definition demo_out : list preport := [BadValue (lit "/datum/bad"); BadParent (lit "/datum/lost") (lit "/nowhere"); NotAllowed (lit "/list")].
Definition demo : objtree nat nat := match assign_parent_types built_tree with Some (t, _) => t | None => built_tree end.
Lemma demo_finished : finished demo demo_out.
Proof.
  exists built_tree. split; [exact built_tree_ok|]. unfold demo. destruct (assign_parent_types built_tree) as [[t out]|] eqn:E; [|vm_compute in E; discriminate]. f_equal. f_equal. vm_compute in E. injection E as _ <-. reflexivity.
Qed.
Definition path_of (i : nat) : text := match nth_error (graph demo) i with Some n => n_path n | None => lit "?" end.
Definition see (l : option (list nat)) : option (list text) := option_map (map path_of) l.
Example demo_recurse : see (recurse demo 20 4) = Some (map lit ["/obj"; "/obj/item"; "/obj/item/axe"; "/obj/item/hammer"; "/obj/item/sword"]%string).
Proof. vm_compute. reflexivity. Qed.
Example demo_recurse_types : see (recurse_types demo 20 4) = Some (map lit ["/obj"; "/obj/item"; "/obj/item/axe"; "/obj/item/hammer"; "/obj/item/sword"; "/datum/odd"; "/datum/odd/sword"]%string).
Proof. vm_compute. reflexivity. Qed.
Example demo_steps :
  navigate demo 20 10 PathDot (lit "sword") = Some (Some 10) /\ navigate demo 20 10 PathDot (lit "item") = Some (Some 9) /\ navigate demo 20 10 PathDot (lit "turf") = Some (Some 6) /\
  navigate demo 20 0 PathColon (lit "sword") = Some (Some 17) /\ navigate demo 20 4 PathColon (lit "sword") = Some (Some 10) /\ navigate demo 20 10 PathSlash (lit "item") = Some None /\
  navigate_path demo 20 10 [(PathDot, lit "item"); (PathSlash, lit "axe")] = Some (Some (NType 11)) /\ find demo (lit "/obj/item/axe") = Some 11 /\
  type_by_path demo [lit "list"; lit "of"; lit "things"] = Some 7 /\ type_by_path_approx demo [lit "obj"; lit "item"; lit "spoon"; lit "small"] = (false, 9).
Proof. vm_compute. repeat split. Qed.
Example demo_calls :
  get_proc demo 20 17 (lit "use") = Some (Some (12, lit "use", 0)) /\
  call_chain demo 20 20 (12, lit "use", 0) = Some [(12, lit "use", 0); (9, lit "use", 1); (9, lit "use", 0); (1, lit "use", 1); (1, lit "use", 0)] /\
  procs_of demo 1 (lit "use") = Some {| p_values := [10; 11]; p_decl := Some 1 |} /\ get_proc_declaration demo 20 10 (lit "use") = Some (Some 1) /\
  recurse_children demo 20 (4, lit "use", 0) = Some [(9, lit "use", 1); (10, lit "use", 1); (12, lit "use", 0)].
Proof. vm_compute. repeat split. Qed.
(** the hypotheses of C49: *)
Example C49_demo : tree demo /\ at_ demo 10 [lit "obj"; lit "item"; lit "sword"] /\ List.length (graph demo) <= 20.
Proof.
  split; [right; exists demo_out; exact demo_finished|]. split; [|vm_compute; lia]. split; [intros c [<-|[<-|[<-|[]]]]; sf|]. destruct (nth_error (graph demo) 10) as [n|] eqn:E; [|vm_compute in E; discriminate]. exists n. split; [reflexivity|]. vm_compute in E. injection E as <-. reflexivity.
Qed.
(** and of C50, with a measure that the one setting lowers *)
Definition table : list (list text) :=
  [[]; [lit "datum"]; [lit "atom"]; [lit "atom"; lit "movable"]; [lit "obj"]; [lit "mob"]; [lit "turf"]; [lit "list"]; [lit "client"]; [lit "obj"; lit "item"]; [lit "obj"; lit "item"; lit "sword"];
   [lit "obj"; lit "item"; lit "axe"]; [lit "datum"; lit "odd"]; [lit "datum"; lit "lost"]; [lit "obj"; lit "item"; lit "hammer"]; [lit "datum"; lit "bad"]; [lit "item"]; [lit "datum"; lit "odd"; lit "sword"]; [lit "world"]].
(** settings count: all that go anywhere are lowered *)
Definition height (cs : list text) : nat := match cs with x :: y :: _ => if text_eqb y (lit "odd") || text_eqb y (lit "lost") then 1 else 0 | _ => 0 end.
Definition choosesb (cs : list text) (v : option pvar) : bool :=
  negb (fixed cs) && match v with Some w => match pv_value w with PString _ | PPath _ => true | _ => false end | None => false end.
Definition table_ok (t : objtree nat nat) (tab : list (list text)) : bool :=
  forallb (fun i => match nth_error tab i, nth_error (graph t) i with Some cs, Some n => text_eqb (render cs) (n_path n) && forallb slash_freeb cs | _, _ => false end) (seq 0 (List.length (graph t))).
Definition heights_ok (t : objtree nat nat) (tab : list (list text)) (m : list text -> nat) : bool :=
  forallb (fun i => match nth_error tab i, nth_error (graph t) i with
      | Some (c :: cs), Some n => match nth_error tab (match chosen_parent (c :: cs) (n_pvar n) with None => 0 | Some q => match get q (types t) with Some i => i | None => 0 end end) with
          | Some ds => (m ds <? m (c :: cs)) || (negb (choosesb (c :: cs) (n_pvar n)) && (m ds <=? m (c :: cs))) | None => false end
      | _, _ => true end) (seq 0 (List.length (graph t))).
Lemma measure_check (t : objtree nat nat) tab m : built t -> table_ok t tab = true -> heights_ok t tab m = true ->
  forall i n cs p ds, nth_error (graph t) i = Some n -> at_ t i cs -> cs <> [] -> right_parent t cs (n_pvar n) p -> at_ t p ds ->
  (chooses cs (n_pvar n) -> m ds < m cs) /\ (~ chooses cs (n_pvar n) -> m ds <= m cs).
Proof.
  intros B L C. pose proof (wf_built _ _ t B) as W. unfold table_ok in L. unfold heights_ok in C. rewrite forallb_forall in L, C.
  assert (T : forall i cs, at_ t i cs -> nth_error tab i = Some cs).
  { intros i cs (Hn & n & Hi & P). specialize (L i). rewrite Hi in L. assert (Q : In i (seq 0 (List.length (graph t)))) by (apply in_seq; pose proof (nth_lt _ _ _ Hi); lia).
    specialize (L Q). destruct (nth_error tab i) as [ds|]; [|discriminate]. apply andb_true_iff in L. destruct L as [L1 L2]. apply text_eqb_eq in L1. f_equal. apply render_inj; [|exact Hn|congruence]. rewrite forallb_forall in L2. intros c Hc. apply slash_freeb_ok. auto. }
  intros i n cs p ds Hn Hcs Hne Hr Hp. specialize (C i). assert (Q : In i (seq 0 (List.length (graph t)))) by (apply in_seq; pose proof (nth_lt _ _ _ Hn); lia). specialize (C Q). rewrite (T i cs Hcs), Hn in C.
  destruct cs as [|c cs]; [congruence|]. apply (right_parent_eq _ _ t (c :: cs) (n_pvar n) p W) in Hr. rewrite <- Hr, (T p ds Hp) in C. apply orb_true_iff in C. rewrite andb_true_iff, negb_true_iff, Nat.ltb_lt, Nat.leb_le in C. split.
  - intros (F & w & Ew & Hv). destruct C as [C|[C _]]; [exact C|]. exfalso. unfold choosesb in C. rewrite F, Ew in C. destruct Hv as [(s0 & Hv)|(s0 & Hv)]; rewrite Hv in C; discriminate.
  - intros _. lia.
Qed.
Example C50_acyclic_demo : forall i n cs p ds, nth_error (graph built_tree) i = Some n -> at_ built_tree i cs -> cs <> [] -> right_parent built_tree cs (n_pvar n) p -> at_ built_tree p ds ->
  (chooses cs (n_pvar n) -> height ds < height cs) /\ (~ chooses cs (n_pvar n) -> height ds <= height cs).
Proof. apply (measure_check built_tree table height built_tree_ok); vm_compute; reflexivity. Qed.
Lemma acyclic_check (t : objtree nat nat) (f : nat -> nat) : forallb (fun i => match parent_type t i with Some p => f p <? f i | None => true end) (seq 0 (List.length (graph t))) = true -> acyclic t.
Proof.
  intros H. rewrite forallb_forall in H. assert (L : forall i p, inherits t i p -> f p < f i).
  { intros i p Q. assert (Hi : In i (seq 0 (List.length (graph t)))) by (apply in_seq; pose proof (parent_bound _ _ t i p Q); lia). specialize (H i Hi). unfold inherits in Q. rewrite Q in H. apply Nat.ltb_lt in H. exact H. }
  assert (A : forall n i, f i = n -> Acc (fun p i => inherits t i p) i).
  { induction n as [n IH] using lt_wf_ind. intros i Hn. constructor. intros p Hp. apply (IH (f p)); [pose proof (L i p Hp); lia|reflexivity]. }
  intro i. eapply A. reflexivity.
Qed.
Definition steps_up (i : nat) : nat := match line 20 (parent_type demo) i with Some l => List.length l | None => 0 end.
Example C50_demo : finished demo demo_out /\ acyclic demo /\ 10 < List.length (graph demo) /\ List.length (graph demo) <= 20 /\ subtype demo 17 1 /\ ~ subtype demo 13 1.
Proof.
  assert (A : acyclic demo) by (apply (acyclic_check demo steps_up); vm_compute; reflexivity).
  split; [exact demo_finished|]. split; [exact A|]. split; [vm_compute; lia|]. split; [vm_compute; lia|]. split.
  - destruct (C50_subtype _ _ demo demo_out 17 1 20 demo_finished A) as (b & E & H); [vm_compute; lia|]. apply H. vm_compute in E. injection E as <-. reflexivity.
  - destruct (C50_subtype _ _ demo demo_out 13 1 20 demo_finished A) as (b & E & H); [vm_compute; lia|]. rewrite <- H. vm_compute in E. injection E as <-. discriminate.
Qed.

(** ** Circles *)
Definition knot_ops : list op :=
  [OType 0 "datum"; OType 1 "a"; OType 1 "b"; OVar 2 {| pv_value := PString (lit "/datum/b"); pv_expr := true |}; OVar 3 {| pv_value := PPath [lit "datum"; lit "a"]; pv_expr := true |}].
Definition knot0 : objtree nat nat := match run_ops knot_ops (empty_tree nat nat) with Some t => t | None => empty_tree nat nat end.
Definition knot : objtree nat nat := match assign_parent_types knot0 with Some (t, _) => t | None => knot0 end.
(** Two types that name each other as parents: nothing is reported, and most questions about them are never answered. *)
Theorem C50_knot_refuted :
  finished knot [] /\ parent_type knot 2 = Some 3 /\ parent_type knot 3 = Some 2 /\ ~ acyclic knot /\
  forall fuel, is_subtype_of knot fuel 2 1 = None /\ get_proc knot fuel 2 (lit "nothing") = None /\ recurse_types knot fuel 2 = None.
Proof.
  assert (P2 : parent_type knot 2 = Some 3) by (vm_compute; reflexivity). assert (P3 : parent_type knot 3 = Some 2) by (vm_compute; reflexivity).
  split; [|split; [exact P2|split; [exact P3|split]]].
  - exists knot0. split.
    + apply (run_ops_built knot_ops (empty_tree nat nat)); [constructor|]. unfold knot0. destruct (run_ops knot_ops (empty_tree nat nat)) as [t|] eqn:E; [reflexivity|]. vm_compute in E. discriminate.
    + unfold knot. destruct (assign_parent_types knot0) as [[t out]|] eqn:E; [|vm_compute in E; discriminate]. f_equal. f_equal. vm_compute in E. injection E as _ <-. reflexivity.
  - intro A. assert (Q : forall i, i = 2 \/ i = 3 -> False); [|exact (Q 2 (or_introl eq_refl))]. intro i. induction (A i) as [i _ IH]. intros [-> | ->]; [apply (IH 3 P2); auto|apply (IH 2 P3); auto].
  - assert (S : forall (A : Type) (f : nat -> option A), f 2 = None -> f 3 = None -> forall fuel, search fuel (parent_type knot) f 2 = None /\ search fuel (parent_type knot) f 3 = None).
    { intros A f F2 F3. induction fuel as [|fuel [I2 I3]]; [split; reflexivity|]. cbn [search]. rewrite F2, F3, P2, P3. split; assumption. }
    intro fuel. split; [|split].
    + unfold is_subtype_of. rewrite (proj1 (S _ (fun j => if j =? 1 then Some tt else None) eq_refl eq_refl fuel)). reflexivity.
    + unfold get_proc. apply S; vm_compute; reflexivity.
    + assert (R : recurse_types knot fuel 2 = None /\ recurse_types knot fuel 3 = None); [|tauto]. assert (D2 : filter (has_parent knot 2) (children knot 2) ++ filter (has_parent knot 2) (redirected knot) = [3]) by (vm_compute; reflexivity).
      assert (D3 : filter (has_parent knot 3) (children knot 3) ++ filter (has_parent knot 3) (redirected knot) = [2]) by (vm_compute; reflexivity).
      induction fuel as [|fuel [I2 I3]]; [split; reflexivity|]. cbn [recurse_types]. rewrite D2, D3. cbn [map all_of]. rewrite I2, I3. split; reflexivity.
Qed.
Print Assumptions C49_find. Print Assumptions C49_place. Print Assumptions C49_add. Print Assumptions C49_finish. Print Assumptions C49_recurse. Print Assumptions C49_navigate.
Print Assumptions C49_navigate_path. Print Assumptions C49_absolute. Print Assumptions C49_type_by_path. Print Assumptions C49_demo.
Print Assumptions C50_parent. Print Assumptions C50_acyclic. Print Assumptions C50_plain_acyclic. Print Assumptions C50_subtype. Print Assumptions C50_subtypes. Print Assumptions C50_calls.
Print Assumptions C50_declaration. Print Assumptions C50_overrides. Print Assumptions C50_register. Print Assumptions C50_demo. Print Assumptions C50_acyclic_demo. Print Assumptions C50_knot_refuted.
