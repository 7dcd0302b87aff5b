(** C51, C52, C53: examples that meet the hypotheses, and what does not hold. *)
From Coq Require Import List Arith NArith Bool String Lia Relations.
From Verif Require Import Common.Text Objtree.Model Objtree.Spec Objtree.Wf Objtree.Demo Checker.CallTree Checker.Spec Checker.SleepProofs Checker.TreeFacts Checker.SleepProps Checker.PureProofs Checker.PureProps
  Checker.Directives Checker.DirectivesSpec Checker.DirectivesProps.
Import ListNotations.
Open Scope nat_scope.

(** /datum with [go], overridden by /datum/a and, twice, by /datum/a/b; /datum/c with [rest]; some global procedures *)
Definition ops : list op :=
  [OType 0 "datum"; OType 1 "a"; OType 2 "b"; OType 1 "c"; OProc 1 "go" (Some 10) 10; OProc 2 "go" None 20; OProc 3 "go" None 30; OProc 3 "go" None 31;
   OProc 4 "rest" (Some 40) 40; OProc 0 "main" (Some 1) 1; OProc 0 "wait" (Some 2) 2; OProc 0 "tick" (Some 3) 3].
Definition tree0 : objtree nat nat := match run_ops ops (empty_tree nat nat) with Some t => t | None => empty_tree nat nat end.
Definition tree1 : objtree nat nat := match assign_parent_types tree0 with Some (t, _) => t | None => tree0 end.
Lemma tree1_finished : finished tree1 [].
Proof.
  exists tree0. split.
  - apply (run_ops_built ops (empty_tree nat nat)); [constructor|]. unfold tree0. destruct (run_ops ops (empty_tree nat nat)) as [t|] eqn:E; [reflexivity|]. vm_compute in E. discriminate.
  - unfold tree1. destruct (assign_parent_types tree0) as [[t out]|] eqn:E; [|vm_compute in E; discriminate]. f_equal. f_equal. vm_compute in E. injection E as _ <-. reflexivity.
Qed.
Lemma tree1_acyclic : acyclic tree1.
Proof. apply (acyclic_check tree1 (fun i => i)). vm_compute. reflexivity. Qed.

Definition go (i k : nat) : procref := (i, lit "go", k).
Definition main : procref := (0, lit "main", 0).
Definition wait : procref := (0, lit "wait", 0).
Definition tick : procref := (0, lit "tick", 0).
Definition rest : procref := (4, lit "rest", 0).
Definition call (p : procref) (l : nat) (src : nat) : edge nat := {| e_proc := p; e_loc := l; e_new := false; e_src := src; e_exact := false; e_inherit := false |}.
Definition spawned (p : procref) (l : nat) : edge nat := {| e_proc := p; e_loc := l; e_new := true; e_src := 4; e_exact := false; e_inherit := false |}.

(** *** checking what the theorems ask for *)
Fixpoint distinct (l : list procref) : bool := match l with [] => true | p :: l' => negb (pr_in p l') && distinct l' end.
Lemma distinct_ok l : distinct l = true -> NoDup l.
Proof.
  induction l as [|p l IH]; cbn [distinct]; intro H; constructor; apply andb_true_iff in H; destruct H as [H1 H2]; [|auto]. intro Q. apply pr_in_iff in Q. rewrite Q in H1. discriminate.
Qed.
Lemma keyed_check (f : facts nat nat) : distinct (map fst (call_tree _ _ f)) && distinct (map fst (sleeping _ _ f)) && distinct (map fst (impure _ _ f)) && distinct (map fst (must_not_sleep _ _ f)) && distinct (map fst (must_be_pure _ _ f)) = true -> keyed f.
Proof. intro H. rewrite !andb_true_iff in H. destruct H as ((((H1 & H2) & H3) & H4) & H5). repeat split; apply distinct_ok; assumption. Qed.
(** states that are closed under everything that can happen *)
Definition state_eqb (a b : procref * nat * bool) : bool := pr_eqb (fst (fst a)) (fst (fst b)) && (snd (fst a) =? snd (fst b)) && Bool.eqb (snd a) (snd b).
Definition after (e : edge nat) (recv : nat) : procref * nat * bool := (e_proc _ e, receiver_of e recv, e_exact _ e).
Definition closed (t : objtree nat nat) (f : facts nat nat) (S : list (procref * nat * bool)) : bool :=
  forallb (fun r => forallb (fun e => existsb (state_eqb (after e (pr_ty (fst r)))) S) (calls_of nat nat f (fst r))) (must_not_sleep _ _ f) &&
  forallb (fun s => forallb (fun e => existsb (state_eqb (after e (snd (fst s)))) S) (calls_of nat nat f (fst (fst s)))) S &&
  forallb (fun s => snd s || (pr_ty (fst (fst s)) =? 0) || forallb (fun c => pr_eqb c (fst (fst s)) || existsb (state_eqb (c, pr_ty c, true)) S) (tree_within t (fst (fst s)) (snd (fst s)))) S.
Lemma state_eqb_in s S : existsb (state_eqb s) S = true -> In s S.
Proof.
  intro H. apply existsb_exists in H. destruct H as ([[p r] e] & H & Q). destruct s as [[p' r'] e']. unfold state_eqb in Q. cbn [fst snd] in Q. rewrite !andb_true_iff in Q. destruct Q as ((Q1 & Q2) & Q3).
  destruct (pr_eqb_spec p' p); [|discriminate]. apply Nat.eqb_eq in Q2. apply Bool.eqb_prop in Q3. subst. exact H.
Qed.
Lemma calls_of_in (f : facts nat nat) p e : keyed f -> calls f p e -> In e (calls_of nat nat f p).
Proof. intros (K & _) (l & Hl & He). unfold calls_of. apply (pr_get_iff p _ l K) in Hl. rewrite Hl. exact He. Qed.
Lemma closed_reach (t : objtree nat nat) pre (f : facts nat nat) S : finished t pre -> acyclic t -> keyed f -> closed t f S = true ->
  forall root l, In (root, l) (must_not_sleep _ _ f) -> forall stack called p recv ex, reach t f root stack called p recv ex -> In (p, recv, ex) S.
Proof.
  intros F AC K C. unfold closed in C. rewrite !andb_true_iff, !forallb_forall in C. destruct C as ((C1 & C2) & C3). intros root l Hr. specialize (C1 _ Hr). rewrite forallb_forall in C1. cbn [fst] in C1.
  induction 1 as [e He N|stack called p recv c R IH P Ty Hc Nc|stack called p recv ex e R IH P He N].
  - apply state_eqb_in. apply C1. apply calls_of_in; assumption.
  - specialize (C3 _ IH). cbn [fst snd orb] in C3. destruct (Nat.eqb_spec (pr_ty p) 0); [congruence|]. cbn [orb] in C3. rewrite forallb_forall in C3. apply state_eqb_in. specialize (C3 c (proj2 (within_iff nat nat t pre F AC p recv c) Hc)). destruct (pr_eqb_spec c p); [congruence|exact C3].
  - specialize (C2 _ IH). rewrite forallb_forall in C2. apply state_eqb_in. apply C2. apply calls_of_in; assumption.
Qed.
Definition same_dispatch (t : objtree nat nat) (S : list (procref * nat * bool)) : bool :=
  forallb (fun a => snd a || (pr_ty (fst (fst a)) =? 0) || forallb (fun b => negb (pr_eqb (fst (fst a)) (fst (fst b))) ||
    forallb (fun c => pr_eqb c (fst (fst a)) || (negb (snd b) && pr_in c (tree_within t (fst (fst b)) (snd (fst b))))) (tree_within t (fst (fst a)) (snd (fst a)))) S) S.
Lemma uniform_check (t : objtree nat nat) pre (f : facts nat nat) S : finished t pre -> acyclic t -> keyed f -> closed t f S = true -> same_dispatch t S = true -> uniform t f.
Proof.
  intros F AC K C U r1 s1 c1 r2 s2 c2 p recv1 ex1 recv2 c (l1 & H1) (l2 & H2) R1 R2 Ty Hc. pose proof (closed_reach t pre f S F AC K C r1 l1 H1 _ _ _ _ _ R1) as I1. pose proof (closed_reach t pre f S F AC K C r2 l2 H2 _ _ _ _ _ R2) as I2.
  unfold same_dispatch in U. rewrite forallb_forall in U. specialize (U _ I1). cbn [fst snd orb] in U. destruct (Nat.eqb_spec (pr_ty p) 0); [congruence|]. cbn [orb] in U. rewrite forallb_forall in U. specialize (U _ I2). cbn [fst snd] in U.
  destruct (pr_eqb_spec p p) as [_|N]; [|congruence]. cbn [negb orb] in U. rewrite forallb_forall in U. specialize (U c (proj2 (within_iff nat nat t pre F AC p recv1 c) Hc)). apply orb_true_iff in U. destruct U as [U|U].
  - left. destruct (pr_eqb_spec c p); [assumption|discriminate].
  - right. apply andb_true_iff in U. destruct U as [U1 U2]. apply pr_in_iff in U2. apply (within_iff nat nat t pre F AC) in U2. split; [destruct ex1; [discriminate|reflexivity]|exact U2].
Qed.

(** ** C51 *)
(** [main] calls [go] on something that is a /datum, [wait], and spawns [rest]; [tick] sleeps itself. *)
Definition states1 : list (procref * nat * bool) := [(go 1 0, 1, false); (wait, 0, false); (rest, 4, false); (go 2 0, 2, true); (go 3 1, 3, true)].
Definition facts1 : facts nat nat :=
  {| call_tree := [(main, [call (go 1 0) 71 1; call wait 72 0; spawned rest 73]); (go 2 0, [call wait 74 0]); (tick, [call wait 75 0])];
     sleeping := [(wait, [5]); (go 3 1, [6; 7]); (rest, [8]); (tick, [9])]; impure := []; waitfor := []; sleep_exempt := []; must_not_sleep := [(main, 100); (tick, 200)]; must_be_pure := []; impure_overrides := [] |}.
Example C51_demo : finished tree1 [] /\ acyclic tree1 /\ keyed facts1 /\ uniform tree1 facts1 /\
  tree_sleep tree1 facts1 50 = Some [Sleeps nat nat main 100 (Calls) wait [(wait, 72)] [5]; Sleeps nat nat main 100 (Override (go 1 0)) (go 3 1) [(go 1 0, 71)] [6; 7]; SleepsItself nat nat tick 200 [9]] /\
  (forall root l other l' stack called receiver exact, In (root, l) (must_not_sleep _ _ facts1) -> In (other, l') (must_not_sleep _ _ facts1) -> ~ reach tree1 facts1 other stack called root receiver exact).
Proof.
  assert (K : keyed facts1) by (apply keyed_check; vm_compute; reflexivity). assert (C : closed tree1 facts1 states1 = true) by (vm_compute; reflexivity).
  split; [exact tree1_finished|]. split; [exact tree1_acyclic|]. split; [exact K|]. split; [|split].
  - apply (uniform_check tree1 [] facts1 states1 tree1_finished tree1_acyclic K C). vm_compute. reflexivity.
  - vm_compute. reflexivity.
  - intros root l other l' stack called recv ex H1 H2 R. pose proof (closed_reach tree1 [] facts1 states1 tree1_finished tree1_acyclic K C other l' H2 _ _ _ _ _ R) as Q.
    assert (T : forallb (fun s => negb (pr_in (fst (fst s)) (map fst (must_not_sleep _ _ facts1)))) states1 = true) by (vm_compute; reflexivity). rewrite forallb_forall in T. specialize (T _ Q). cbn [fst] in T.
    assert (H : pr_in root (map fst (must_not_sleep _ _ facts1)) = true) by (apply pr_in_iff, in_map_iff; exists (root, l); auto). rewrite H in T. discriminate.
Qed.

(** What [C51_complete_partial] leaves out does happen.  Two procedures must not sleep, the first calls the second, and the second sleeps:
    nothing is reported, since the second counts as seen when the first has been gone through. *)
Definition facts_skipped : facts nat nat :=
  {| call_tree := [(main, [call tick 71 0])]; sleeping := [(tick, [9])]; impure := []; waitfor := []; sleep_exempt := []; must_not_sleep := [(main, 100); (tick, 200)]; must_be_pure := []; impure_overrides := [] |}.
Theorem C51_skipped_refuted : finished tree1 [] /\ acyclic tree1 /\ keyed facts_skipped /\ uniform tree1 facts_skipped /\
  In (tick, 200) (must_not_sleep _ _ facts_skipped) /\ sleeps facts_skipped tick [9] /\ tree_sleep tree1 facts_skipped 50 = Some [].
Proof.
  assert (K : keyed facts_skipped) by (apply keyed_check; vm_compute; reflexivity). split; [exact tree1_finished|]. split; [exact tree1_acyclic|]. split; [exact K|]. split; [|split; [|split]].
  - apply (uniform_check tree1 [] facts_skipped [(tick, 0, false)] tree1_finished tree1_acyclic K); vm_compute; reflexivity.
  - right. left. reflexivity.
  - left. reflexivity.
  - vm_compute. reflexivity.
Qed.
(** [go] is called twice: first on an object that is known to be a /datum/c, then on any /datum.  The override that sleeps can only be
    reached by the second call, and is not found, since [go] has been seen. *)
Definition facts_narrow : facts nat nat :=
  {| call_tree := [(main, [call (go 1 0) 71 4; call (go 1 0) 72 1])]; sleeping := [(go 3 1, [6; 7])]; impure := []; waitfor := []; sleep_exempt := []; must_not_sleep := [(main, 100)]; must_be_pure := []; impure_overrides := [] |}.
Theorem C51_narrow_refuted : finished tree1 [] /\ acyclic tree1 /\ keyed facts_narrow /\ In (main, 100) (must_not_sleep _ _ facts_narrow) /\
  reach tree1 facts_narrow main [(go 1 0, 72)] (go 1 0) (go 3 1) 3 true /\ ~ stops facts_narrow (go 3 1) /\ sleeps facts_narrow (go 3 1) [6; 7] /\ tree_sleep tree1 facts_narrow 50 = Some [].
Proof.
  assert (K : keyed facts_narrow) by (apply keyed_check; vm_compute; reflexivity). split; [exact tree1_finished|]. split; [exact tree1_acyclic|]. split; [exact K|]. split; [left; reflexivity|]. split; [|split; [|split]].
  - apply (reach_override _ _ _ _ tree1 facts_narrow main [(go 1 0, 72)] (go 1 0) (go 1 0) 1 (go 3 1)).
    + apply (reach_first _ _ _ _ tree1 facts_narrow main (call (go 1 0) 72 1)); [|reflexivity]. eexists. split; [left; reflexivity|]. right. left. reflexivity.
    + split; [intros [[]|[[]|(l & [Q|[]])]]; discriminate|]. intros what [Q|[]]. discriminate.
    + discriminate.
    + refine (proj1 (within_iff nat nat tree1 [] tree1_finished tree1_acyclic (go 1 0) 1 (go 3 1)) _). apply pr_in_iff. vm_compute. reflexivity.
    + discriminate.
  - intros [[]|[[]|(l & [Q|[]])]]. discriminate.
  - left. reflexivity.
  - vm_compute. reflexivity.
Qed.

(** ** C52 *)
(** [main] must be pure; it calls [wait], which calls [go] of /datum; its override in /datum/a is not pure, and neither is [tick], which
    is called by [wait] too. *)
Definition facts_pure : facts nat nat :=
  {| call_tree := [(main, [call wait 71 0]); (wait, [call (go 1 0) 72 1; call tick 73 0; call main 74 0])]; sleeping := []; impure := [(go 2 0, [6]); (tick, [9])]; waitfor := []; sleep_exempt := [];
     must_not_sleep := []; must_be_pure := [(main, 100); (tick, 200)]; impure_overrides := [] |}.
Example C52_demo : finished tree1 [] /\ acyclic tree1 /\ keyed facts_pure /\
  tree_pure tree1 facts_pure 50 = Ended _ [ImpureOverride nat nat main 100 (go 1 0) [(wait, 71); (go 1 0, 100)] (go 2 0) [6]; ImpureCall nat nat main 100 tick [(wait, 71); (tick, 100)] [9]; ImpureItself nat nat tick 200 [9]].
Proof.
  split; [exact tree1_finished|]. split; [exact tree1_acyclic|]. split; [apply keyed_check; vm_compute; reflexivity|]. vm_compute. reflexivity.
Qed.
(** The call of [tick] is said to be at the location of the directive of [main], where there is no call. *)
Theorem C52_location_refuted : exists reports, tree_pure tree1 facts_pure 50 = Ended _ reports /\ In (ImpureCall nat nat main 100 tick [(wait, 71); (tick, 100)] [9]) reports /\ forall p e, calls facts_pure p e -> e_loc _ e <> 100.
Proof.
  eexists. split; [exact (proj2 (proj2 (proj2 C52_demo)))|]. split; [right; left; reflexivity|]. intros p e (l & [Q|[Q|[]]] & He); injection Q as _ <-; repeat (destruct He as [<-|He]; [discriminate|]); destruct He.
Qed.

(** ** C53 *)
Definition strict : rules := {| can_be_disabled := false; set_at_definition := true; can_be_global := false |}.
Definition loose : rules := {| can_be_disabled := true; set_at_definition := false; can_be_global := true |}.
Definition set_ (p : procref) (v : option bool) (l : nat) : setting nat := {| s_proc := p; s_value := v; s_loc := l |}.
Definition settings : list (setting nat) :=
  [set_ main (Some true) 51; set_ (go 1 0) None 52; set_ (go 1 0) (Some false) 53; set_ (go 1 0) (Some true) 54; set_ (go 1 0) (Some true) 55; set_ (go 3 1) (Some true) 56; set_ rest (Some true) 57].
Example C53_demo :
  finished tree1 [] /\ acyclic tree1 /\
  gather tree1 (fun v => v) (fun d => d) Nat.eqb strict [] settings =
    ([(rest, (true, 57)); (go 1 0, (true, 54))], [(set_ main (Some true) 51, NotGlobal nat); (set_ (go 1 0) None 52, BadSetting nat); (set_ (go 1 0) (Some false) 53, NotDisabled nat); (set_ (go 1 0) (Some true) 55, Twice nat 54); (set_ (go 3 1) (Some true) 56, NotAtDefinition nat)]) /\
  copied tree1 loose [(go 3 0, (false, 58)); (go 1 0, (true, 54))] [go 3 1; go 2 0; main] = [(go 2 0, (true, 54)); (go 3 0, (false, 58)); (go 1 0, (true, 54))] /\
  (forall p, In p [go 3 1; go 2 0; main] -> exists_ tree1 p).
Proof.
  split; [exact tree1_finished|]. split; [exact tree1_acyclic|]. split; [vm_compute; reflexivity|]. split; [vm_compute; reflexivity|]. intros p [<-|[<-|[<-|[]]]]; (eexists; split; [vm_compute; reflexivity|vm_compute; lia]).
Qed.
Definition env1 : env nat :=
  {| e_private := [(go 1 0, (true, 54))]; e_protected := [(go 1 0, (true, 60)); (rest, (true, 61))]; e_no_override := [(go 2 0, (false, 62)); (go 1 0, (true, 63))]; e_must_call := [(go 1 0, (true, 64))];
     e_must_not_call := [(go 3 0, (true, 65))]; e_redefinable := [] |}.
Example C53_check_demo : tidy_env env1 /\
  check_override tree1 env1 (fun _ => false) (go 3 1) true = [OverridesPrivate nat (go 1 0) 54; CallsParent nat (go 3 0) 65; Redefines nat (go 3 0)] /\
  check_override tree1 env1 (fun _ => false) (go 2 0) false = [OverridesPrivate nat (go 1 0) 54; NeverCallsParent nat (go 1 0) 64] /\
  check_follow tree1 env1 0 1 (go 1 0) = [CallsProtected nat (go 1 0) 60; CallsPrivate nat (go 1 0) 54] /\
  check_follow tree1 env1 4 4 rest = [] /\ check_follow tree1 env1 0 4 rest = [CallsProtected nat rest 61].
Proof.
  split; [repeat split; apply distinct_ok; vm_compute; reflexivity|]. split; [vm_compute; reflexivity|]. split; [vm_compute; reflexivity|]. split; [vm_compute; reflexivity|]. split; vm_compute; reflexivity.
Qed.
Print Assumptions C51_ends. Print Assumptions C51_sound. Print Assumptions C51_complete_partial. Print Assumptions C51_demo. Print Assumptions C51_skipped_refuted. Print Assumptions C51_narrow_refuted.
Print Assumptions C52_exact. Print Assumptions C52_demo. Print Assumptions C52_location_refuted.
Print Assumptions C53_gather. Print Assumptions C53_copied. Print Assumptions C53_override. Print Assumptions C53_access. Print Assumptions C53_demo. Print Assumptions C53_check_demo.
