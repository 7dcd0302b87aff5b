(** C23: model of [DualPool] (crates/spaceman-dmm/src/map_repr.rs:482-539) and its theorems. *)
From Coq Require Import List Arith Lia Bool Sorting.Permutation Sorting.Sorted.
Import ListNotations.

Section ListUpdate.
  Context {A : Type}.
  (** [v[i] = x]; [None] = index out of range (panic) *)
  Fixpoint set_nth (i : nat) (x : A) (l : list A) : option (list A) :=
    match l, i with
    | [], _ => None
    | _ :: l', O => Some (x :: l')
    | y :: l', S i' => match set_nth i' x l' with Some r => Some (y :: r) | None => None end
    end.
  Lemma set_nth_spec : forall l i x l', set_nth i x l = Some l' ->
    List.length l' = List.length l /\ forall j, nth_error l' j = if j =? i then (if i <? List.length l then Some x else None) else nth_error l j.
  Proof.
    induction l as [|y l IH]; intros [|i] x l' H; cbn [set_nth] in H; try discriminate.
    - injection H as <-. split; [reflexivity|]. intros [|j]; reflexivity.
    - destruct (set_nth i x l) as [r|] eqn:E; [|discriminate]. injection H as <-.
      destruct (IH i x r E) as [H1 H2]. split; [cbn [List.length]; lia|].
      intros [|j]; cbn [nth_error]; [reflexivity|]. rewrite H2. reflexivity.
  Qed.
  Lemma set_nth_total : forall l i x, i < List.length l -> exists l', set_nth i x l = Some l'.
  Proof.
    induction l as [|y l IH]; intros [|i] x H; cbn [List.length] in H; try lia; cbn [set_nth]; [eauto|].
    destruct (IH i x ltac:(lia)) as [r ->]. eauto.
  Qed.
  Lemma set_nth_some : forall l i x l', set_nth i x l = Some l' -> i < List.length l.
  Proof.
    induction l as [|y l IH]; intros [|i] x l' H; cbn [set_nth] in H; try discriminate; cbn [List.length]; [lia|].
    destruct (set_nth i x l) as [r|] eqn:E; [|discriminate]. apply IH in E. lia.
  Qed.
End ListUpdate.

Section Pool.
  Context {K V : Type}.

  (** map_repr.rs:481-486; the head of [freelist] is the top of the Vec used as a stack *)
  Record pool := { keys : list K; vals : list V; freelist : list nat }.

  (** map_repr.rs:488-496 *)
  Definition empty : pool := {| keys := []; vals := []; freelist := [] |}.

  (** map_repr.rs:504-518 push; [None] = panic *)
  Definition push (p : pool) (k : K) (v : V) : option (pool * nat) :=
    match freelist p with
    | idx :: fl =>
        match set_nth idx k (keys p), set_nth idx v (vals p) with
        | Some ks, Some vs => Some ({| keys := ks; vals := vs; freelist := fl |}, idx)
        | _, _ => None
        end
    | [] =>
        let idx := List.length (keys p) in
        if idx =? List.length (vals p)
        then Some ({| keys := keys p ++ [k]; vals := vals p ++ [v]; freelist := [] |}, idx)
        else None
    end.

  Definition mem (i : nat) (l : list nat) : bool := existsb (Nat.eqb i) l.

  (** map_repr.rs:520-523 free; [None] = failed debug assertion (double free) *)
  Definition free (p : pool) (idx : nat) : option pool :=
    if mem idx (freelist p) then None
    else Some {| keys := keys p; vals := vals p; freelist := idx :: freelist p |}.

  (** map_repr.rs:525-527 get_key ([None] = panic), 529-531 len, 499-502 values *)
  Definition get_key (p : pool) (idx : nat) : option K := nth_error (keys p) idx.
  Definition len (p : pool) : nat := List.length (keys p) - List.length (freelist p).
  Definition values (p : pool) : list V := vals p.

  (** map_repr.rs:533-538 keys_iter *)
  Fixpoint enumerate {A} (i : nat) (l : list A) : list (nat * A) :=
    match l with [] => [] | x :: l' => (i, x) :: enumerate (S i) l' end.
  Definition keys_iter (p : pool) : list (nat * K) :=
    filter (fun q => negb (mem (fst q) (freelist p))) (enumerate 0 (keys p)).

  (** ** Specification: what is alive *)
  Definition contents := nat -> option (K * V).
  Definition update (c : contents) (i : nat) (x : option (K * V)) : contents :=
    fun j => if j =? i then x else c j.

  Inductive op := Push (k : K) (v : V) (got : nat) | Free (i : nat).
  (** a client only frees indices that are alive; [got] is the index push returned *)
  Definition spec_step (c : contents) (o : op) : contents :=
    match o with Push k v i => update c i (Some (k, v)) | Free i => update c i None end.

  Inductive runs : pool -> contents -> list op -> Prop :=
  | runs_nil : runs empty (fun _ => None) []
  | runs_push : forall p c ops k v p' i, runs p c ops -> push p k v = Some (p', i) ->
      runs p' (spec_step c (Push k v i)) (ops ++ [Push k v i])
  | runs_free : forall p c ops i p', runs p c ops -> c i <> None -> free p i = Some p' ->
      runs p' (spec_step c (Free i)) (ops ++ [Free i]).

  (** ** Proofs *)
  Record wf (p : pool) (c : contents) : Prop := {
    wf_len : List.length (keys p) = List.length (vals p);
    wf_nodup : NoDup (freelist p);
    wf_free : forall i, In i (freelist p) -> i < List.length (keys p) /\ c i = None;
    wf_live : forall i, ~ In i (freelist p) -> c i =
       match nth_error (keys p) i, nth_error (vals p) i with Some k, Some v => Some (k, v) | _, _ => None end }.

  Lemma mem_In : forall i l, mem i l = true <-> In i l.
  Proof.
    intros i l. unfold mem. rewrite existsb_exists. split.
    - intros (x & H & E). apply Nat.eqb_eq in E. subst. exact H.
    - intro H. exists i. split; [exact H | apply Nat.eqb_refl].
  Qed.

  Lemma nth_error_range : forall A (l : list A) i, nth_error l i = None <-> List.length l <= i.
  Proof. intros. apply nth_error_None. Qed.

  Lemma wf_push : forall p c k v, wf p c -> exists p' i, push p k v = Some (p', i) /\ c i = None /\
    wf p' (update c i (Some (k, v))).
  Proof.
    intros p c k v W. unfold push. destruct (freelist p) as [|idx fl] eqn:Ef.
    - rewrite (wf_len _ _ W), Nat.eqb_refl. eexists _, _. split; [reflexivity|].
      assert (Hc : c (List.length (vals p)) = None).
      { rewrite (wf_live _ _ W) by (rewrite Ef; intros []).
        destruct (nth_error (keys p) _) eqn:E; [|reflexivity].
        assert (nth_error (vals p) (List.length (vals p)) = None) by (apply nth_error_None; lia). rewrite H. reflexivity. }
      split; [exact Hc|]. pose proof (wf_len _ _ W) as HL.
      split; cbn [keys vals freelist].
      + rewrite !app_length. cbn. lia.
      + constructor.
      + intros i [].
      + intros i _. unfold update. destruct (Nat.eqb_spec i (List.length (vals p))) as [->|Hne].
        * rewrite (nth_error_app2 (vals p)) by lia. rewrite (nth_error_app2 (keys p)) by lia.
          rewrite HL, Nat.sub_diag. reflexivity.
        * rewrite (wf_live _ _ W) by (rewrite Ef; intros []).
          destruct (Nat.lt_ge_cases i (List.length (vals p))) as [L|L].
          -- rewrite (nth_error_app1 (vals p)) by lia. rewrite (nth_error_app1 (keys p)) by lia. reflexivity.
          -- assert (N1 : nth_error (keys p) i = None) by (apply nth_error_None; lia).
             assert (N2 : nth_error (keys p ++ [k]) i = None) by (apply nth_error_None; rewrite app_length; cbn; lia).
             rewrite N1, N2. reflexivity.
    - destruct (wf_free _ _ W idx) as [Hi Hc]; [rewrite Ef; left; reflexivity|].
      pose proof (wf_len _ _ W) as HL.
      destruct (set_nth_total (keys p) idx k Hi) as [ks Ek]. destruct (set_nth_total (vals p) idx v ltac:(lia)) as [vs Ev].
      rewrite Ek, Ev. exists {| keys := ks; vals := vs; freelist := fl |}, idx. split; [reflexivity|]. split; [exact Hc|].
      destruct (set_nth_spec _ _ _ _ Ek) as [K1 K2]. destruct (set_nth_spec _ _ _ _ Ev) as [V1 V2].
      pose proof (wf_nodup _ _ W) as Hnd. rewrite Ef in Hnd. inversion Hnd as [|? ? Hni Hnd']; subst.
      split; cbn [keys vals freelist].
      + lia.
      + exact Hnd'.
      + intros i Hin. destruct (wf_free _ _ W i) as [A B]; [rewrite Ef; right; exact Hin|].
        split; [lia|]. unfold update. destruct (Nat.eqb_spec i idx) as [->|]; [contradiction | exact B].
      + intros i Hin. rewrite K2, V2. unfold update. destruct (Nat.eqb_spec i idx) as [->|Hne].
        * destruct (Nat.ltb_spec idx (List.length (keys p))) as [|]; [|lia].
          destruct (Nat.ltb_spec idx (List.length (vals p))) as [|]; [reflexivity | lia].
        * apply (wf_live _ _ W). rewrite Ef. intros [|]; [congruence | contradiction].
  Qed.

  Lemma wf_free_op : forall p c i, wf p c -> c i <> None -> exists p', free p i = Some p' /\ wf p' (update c i None).
  Proof.
    intros p c i W Hi. unfold free. destruct (mem i (freelist p)) eqn:Em.
    - apply mem_In in Em. destruct (wf_free _ _ W i Em) as [_ H]. contradiction.
    - assert (Hni : ~ In i (freelist p)) by (intro H; apply mem_In in H; congruence).
      eexists. split; [reflexivity|]. split; cbn [keys vals freelist].
      + apply (wf_len _ _ W).
      + constructor; [exact Hni | apply (wf_nodup _ _ W)].
      + intros j [<-|Hj].
        * unfold update. rewrite Nat.eqb_refl. split; [|reflexivity].
          rewrite (wf_live _ _ W i Hni) in Hi. destruct (nth_error (keys p) i) eqn:E; [|contradiction].
          apply nth_error_Some. congruence.
        * destruct (wf_free _ _ W j Hj) as [A B]. split; [exact A|]. unfold update. destruct (j =? i); [reflexivity | exact B].
      + intros j Hj. unfold update. destruct (Nat.eqb_spec j i) as [->|Hne]; [contradiction Hj; left; reflexivity|].
        apply (wf_live _ _ W). intro H. apply Hj. right. exact H.
  Qed.

  Lemma wf_empty : wf empty (fun _ => None).
  Proof. split; cbn; try reflexivity; [constructor | intros i [] | intros [|i] _; reflexivity]. Qed.

  Lemma wf_ext : forall p c c', (forall i, c i = c' i) -> wf p c -> wf p c'.
  Proof.
    intros p c c' E W. split; try apply W.
    - intros i H. rewrite <- E. apply (wf_free _ _ W i H).
    - intros i H. rewrite <- E. apply (wf_live _ _ W i H).
  Qed.

  Lemma runs_wf : forall p c ops, runs p c ops -> wf p c.
  Proof.
    induction 1 as [|p c ops k v p' i H IH E|p c ops i p' H IH Hl E].
    - apply wf_empty.
    - destruct (wf_push p c k v IH) as (p2 & i2 & E2 & _ & W). rewrite E in E2. injection E2 as <- <-. exact W.
    - destruct (wf_free_op p c i IH Hl) as (p2 & E2 & W). rewrite E in E2. injection E2 as <-. exact W.
  Qed.

  Lemma in_enumerate : forall A (l : list A) i j x, In (j, x) (enumerate i l) <-> i <= j /\ nth_error l (j - i) = Some x.
  Proof.
    induction l as [|y l IH]; intros i j x; cbn [enumerate In].
    - split; [tauto|]. intros [_ H]. destruct (j - i); discriminate.
    - rewrite IH. split.
      + intros [H|[H1 H2]].
        * injection H as <- <-. rewrite Nat.sub_diag. split; [lia | reflexivity].
        * split; [lia|]. replace (j - i) with (S (j - S i)) by lia. exact H2.
      + intros [H1 H2]. destruct (Nat.eq_dec i j) as [<-|Hne].
        * left. rewrite Nat.sub_diag in H2. injection H2 as ->. reflexivity.
        * right. split; [lia|]. replace (j - i) with (S (j - S i)) in H2 by lia. exact H2.
  Qed.

  Lemma fst_enumerate : forall A (l : list A) i, map fst (enumerate i l) = seq i (List.length l).
  Proof. induction l as [|y l IH]; intro i; cbn [enumerate map seq List.length fst]; [reflexivity|]. rewrite IH. reflexivity. Qed.

  Lemma map_filter_fst : forall A (f : nat -> bool) (l : list (nat * A)), map fst (filter (fun q => f (fst q)) l) = filter f (map fst l).
  Proof. induction l as [|x l IH]; cbn [filter map]; [reflexivity|]. destruct (f (fst x)); cbn [map]; rewrite IH; reflexivity. Qed.

  Lemma keys_iter_fst : forall p, map fst (keys_iter p) = filter (fun i => negb (mem i (freelist p))) (seq 0 (List.length (keys p))).
  Proof. intro p. unfold keys_iter. rewrite (map_filter_fst K (fun i => negb (mem i (freelist p)))), fst_enumerate. reflexivity. Qed.

  Lemma filter_split : forall A (f : A -> bool) l, List.length (filter f l) + List.length (filter (fun x => negb (f x)) l) = List.length l.
  Proof. induction l as [|x l IH]; cbn [filter List.length]; [reflexivity|]. destruct (f x); cbn [negb List.length]; lia. Qed.

  Lemma len_count : forall p c, wf p c -> len p = List.length (keys_iter p).
  Proof.
    intros p c W. unfold len. rewrite <- (map_length fst (keys_iter p)), keys_iter_fst.
    pose proof (filter_split nat (fun i => mem i (freelist p)) (seq 0 (List.length (keys p)))) as H. rewrite seq_length in H.
    assert (P : Permutation (filter (fun i => mem i (freelist p)) (seq 0 (List.length (keys p)))) (freelist p)).
    { apply NoDup_Permutation; [apply NoDup_filter, seq_NoDup | apply (wf_nodup _ _ W)|].
      intro i. rewrite filter_In, in_seq, mem_In. split; [tauto|]. intro Hi. destruct (wf_free _ _ W i Hi). split; [lia | exact Hi]. }
    apply Permutation_length in P. lia.
  Qed.

  Lemma keys_iter_In : forall p c i k, wf p c -> (In (i, k) (keys_iter p) <-> exists v, c i = Some (k, v)).
  Proof.
    intros p c i k W. unfold keys_iter. rewrite filter_In, in_enumerate, Nat.sub_0_r. cbn [fst].
    destruct (mem i (freelist p)) eqn:Em; cbn [negb].
    - apply mem_In in Em. destruct (wf_free _ _ W i Em) as [_ Hc]. rewrite Hc. split; [intros [_ H]; discriminate | intros [v H]; discriminate].
    - assert (Hni : ~ In i (freelist p)) by (intro H; apply mem_In in H; congruence).
      rewrite (wf_live _ _ W i Hni). split.
      + intros [[_ H] _]. rewrite H. destruct (nth_error (vals p) i) as [v|] eqn:Ev; [exists v; reflexivity|].
        apply nth_error_None in Ev. pose proof (wf_len _ _ W).
        assert (i < List.length (keys p)) by (apply nth_error_Some; congruence). lia.
      + intros [v H]. destruct (nth_error (keys p) i) as [k'|]; [|discriminate]. destruct (nth_error (vals p) i); [|discriminate].
        injection H as -> ->. split; [split; [lia | reflexivity] | reflexivity].
  Qed.
End Pool.
Arguments pool : clear implicits.
Arguments contents : clear implicits.
Arguments op : clear implicits.

Lemma seq_sorted : forall n i, StronglySorted lt (seq i n).
Proof.
  induction n as [|n IH]; intro i; cbn [seq]; constructor; [apply IH|].
  apply Forall_forall. intros x H. apply in_seq in H. lia.
Qed.
Lemma filter_sorted : forall f l, StronglySorted lt l -> StronglySorted lt (filter f l).
Proof.
  intros f l H. induction H as [|x l Hs IH Hf]; cbn [filter]; [constructor|].
  destruct (f x); [|exact IH]. constructor; [exact IH|].
  apply Forall_forall. intros y Hy. apply filter_In in Hy. rewrite Forall_forall in Hf. apply Hf. tauto.
Qed.

(** C23.  Whatever pushes and frees (of live indices) were made: nothing panics, a push returns an
    index that was not alive, every live index reads back the key and value last stored there, and
    keys_iter lists exactly the live entries in index order, len of them. *)
Theorem C23_pool : forall (K V : Type) (p : pool K V) (c : contents K V) ops, runs p c ops ->
  (forall k v, exists p' i, push p k v = Some (p', i) /\ c i = None) /\
  (forall i, c i <> None -> exists p', free p i = Some p') /\
  (forall i k v, c i = Some (k, v) -> get_key p i = Some k /\ nth_error (values p) i = Some v) /\
  (forall i k, In (i, k) (keys_iter p) <-> exists v, c i = Some (k, v)) /\
  StronglySorted lt (map fst (keys_iter p)) /\
  len p = List.length (keys_iter p).
Proof.
  intros K V p c ops R. pose proof (runs_wf p c ops R) as W.
  split; [|split; [|split; [|split; [|split]]]].
  - intros k v. destruct (wf_push p c k v W) as (p' & i & E & Hc & _). eauto.
  - intros i Hi. destruct (wf_free_op p c i W Hi) as (p' & E & _). eauto.
  - intros i k v H. assert (Hni : ~ In i (freelist p)) by (intro Hi; destruct (wf_free _ _ W i Hi); congruence).
    rewrite (wf_live _ _ W i Hni) in H. unfold get_key, values.
    destruct (nth_error (keys p) i), (nth_error (vals p) i); try discriminate. injection H as -> ->. auto.
  - intros i k. apply keys_iter_In. exact W.
  - rewrite keys_iter_fst. apply filter_sorted, seq_sorted.
  - apply (len_count p c W).
Qed.
Print Assumptions C23_pool.

Example C23_demo : exists p c, runs p c [Push 7 70 0; Push 8 80 1; Free 0; Push 9 90 0; Push 5 50 2; Free 1] /\
  keys_iter p = [(0, 9); (2, 5)] /\ len p = 2 /\ c 2 = Some (5, 50).
Proof.
  eexists _, _. split.
  - change [Push 7 70 0; Push 8 80 1; Free 0; Push 9 90 0; Push 5 50 2; Free 1]
      with ((((((([] ++ [Push 7 70 0]) ++ [Push 8 80 1]) ++ [Free 0]) ++ [Push 9 90 0]) ++ [Push 5 50 2]) ++ [Free 1])).
    eapply runs_free; [eapply runs_push; [eapply runs_push; [eapply runs_free; [eapply runs_push; [eapply runs_push; [apply runs_nil|]|]|..]|]|]|..]; try reflexivity; cbn; discriminate.
  - repeat split.
Qed.
