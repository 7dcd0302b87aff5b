(** Background tasks of the language server.  Models crates/dm-langserver/src/background.rs.  Property C29. *)
From Coq Require Import List Arith Lia Bool.
Import ListNotations.

Section Background.
  Context {T : Type}.

  (** The channel between a task's thread and its receiver (background.rs:52-58 spawn): the thread sends at most
      one value and is gone afterwards; a panicking thread drops the sender without sending. *)
  Inductive channel := Running | Sent (v : T) | Hung_up.

  (** background.rs:6-9 Background: the value, and the task whose receiver is held *)
  Record background := { value : option T; rx : option nat }.
  (** background.rs:11-18 default *)
  Definition default : background := {| value := None; rx := None |}.

  (** The world: the object and the channels of all tasks ever spawned (task number = position). *)
  Record world := { bg : background; tasks : list channel }.
  Definition start : world := {| bg := default; tasks := [] |}.

  (** What can happen, in any order: the owner calls spawn or poll; a thread finishes with a value or panics. *)
  Inductive event := Spawn | Poll | Finish (t : nat) (v : T) | Crash (t : nat).

  Definition set_nth (l : list channel) (i : nat) (x : channel) : list channel := firstn i l ++ x :: skipn (S i) l.

  (** background.rs:28-30 spawn: the old receiver is dropped *)
  Definition spawn (w : world) : world :=
    {| bg := {| value := value (bg w); rx := Some (length (tasks w)) |}; tasks := tasks w ++ [Running] |}.

  (** background.rs:32-43 poll *)
  Definition poll (w : world) : world :=
    match rx (bg w) with
    | None => w
    | Some t =>
        match nth_error (tasks w) t with
        | Some (Sent v) => {| bg := {| value := Some v; rx := None |}; tasks := set_nth (tasks w) t Hung_up |}
        | Some Running => w
        | _ => {| bg := {| value := value (bg w); rx := None |}; tasks := tasks w |}
        end
    end.

  (** The thread's end.  (Sending to a dropped receiver fails and is ignored, background.rs:55: nothing will read
      that channel, so the two cases need no distinction.) *)
  Definition step (w : world) (e : event) : option world :=
    match e with
    | Spawn => Some (spawn w)
    | Poll => Some (poll w)
    | Finish t v => match nth_error (tasks w) t with
                    | Some Running => Some {| bg := bg w; tasks := set_nth (tasks w) t (Sent v) |}
                    | _ => None   (* not an event of this world: no such thread *)
                    end
    | Crash t => match nth_error (tasks w) t with
                 | Some Running => Some {| bg := bg w; tasks := set_nth (tasks w) t Hung_up |}
                 | _ => None
                 end
    end.
  Fixpoint run (w : world) (h : list event) : option world :=
    match h with [] => Some w | e :: h' => match step w e with Some w' => run w' h' | None => None end end.

  (** background.rs:45-51 *)
  Definition is_busy (w : world) : bool := match rx (bg w) with Some _ => true | None => false end.
  Definition get_value (w : world) : option T := value (bg w).

  (** ** Specification, on histories alone *)
  Definition is_spawn (e : event) : bool := match e with Spawn => true | _ => false end.
  (** how many tasks were started; the current one is the last *)
  Definition spawned (h : list event) : nat := length (filter is_spawn h).
  (** the current task's fate, as told by the history *)
  Definition finished (h : list event) (t : nat) (v : T) : Prop := In (Finish t v) h.
  Definition crashed (h : list event) (t : nat) : Prop := In (Crash t) h.
  (** ** Invariant *)
  Definition chan_ok (h : list event) (w : world) (t : nat) : Prop :=
    match nth_error (tasks w) t with
    | Some Running => ~ crashed h t /\ forall v, ~ finished h t v
    | Some (Sent v) => forall v', finished h t v' <-> v' = v
    | Some Hung_up => True
    | None => ~ crashed h t /\ forall v, ~ finished h t v
    end.
  (** the held receiver is the current task's; a hung-up one is held only if that task crashed *)
  Definition rx_ok (h : list event) (w : world) : Prop :=
    match rx (bg w) with
    | None => forall t, S t = spawned h -> (forall v, finished h t v -> value (bg w) = Some v) /\ (crashed h t \/ exists v, finished h t v)
    | Some t => S t = length (tasks w) /\ (nth_error (tasks w) t = Some Hung_up -> crashed h t /\ forall v, ~ finished h t v)
    end.
  Definition Inv (h : list event) (w : world) : Prop :=
    length (tasks w) = spawned h /\ rx_ok h w /\ forall t, chan_ok h w t.

  Lemma nth_set : forall l i x j, i < length l -> nth_error (set_nth l i x) j = if j =? i then Some x else nth_error l j.
  Proof.
    induction l as [|y l IH]; intros i x j Hi; cbn in Hi; [lia|]. destruct i as [|i]; [destruct j; reflexivity|].
    destruct j as [|j]; [reflexivity|]. change (set_nth (y :: l) (S i) x) with (y :: set_nth l i x). cbn [nth_error Nat.eqb]. apply IH. lia.
  Qed.
  Lemma length_set : forall l i x, i < length l -> length (set_nth l i x) = length l.
  Proof. intros l i x Hi. unfold set_nth. rewrite app_length, firstn_length. cbn [length]. rewrite skipn_length. lia. Qed.
  Lemma spawned_app : forall a b, spawned (a ++ b) = spawned a + spawned b.
  Proof. intros. unfold spawned. rewrite filter_app, app_length. reflexivity. Qed.
  Lemma run_app : forall a w b, run w (a ++ b) = match run w a with Some w' => run w' b | None => None end.
  Proof. induction a as [|e a IH]; intros w b; cbn [app run]; [reflexivity|]. destruct (step w e); [apply IH | reflexivity]. Qed.
  Lemma fin_snoc : forall h e t v, finished (h ++ [e]) t v <-> finished h t v \/ e = Finish t v.
  Proof. intros. unfold finished. rewrite in_app_iff. cbn [In]. intuition. Qed.
  Lemma crash_snoc : forall h e t, crashed (h ++ [e]) t <-> crashed h t \/ e = Crash t.
  Proof. intros. unfold crashed. rewrite in_app_iff. cbn [In]. intuition. Qed.

  Lemma step_inv : forall h w e w', Inv h w -> step w e = Some w' -> Inv (h ++ [e]) w'.
  Proof.
    intros h w e w' (HL & HR & HC) E. unfold Inv. rewrite spawned_app.
    destruct e as [| |t0 v0|t0]; cbn [step] in E.
    - injection E as <-. cbn [spawn tasks bg rx]. split; [rewrite app_length, HL; reflexivity|]. split.
      + unfold rx_ok. cbn [spawn bg rx tasks]. rewrite app_length. split; [cbn; lia|]. rewrite nth_error_app2, Nat.sub_diag by lia. discriminate.
      + intro t. specialize (HC t). unfold chan_ok in *. cbn [tasks spawn].
        assert (Hf : forall v, finished (h ++ [Spawn]) t v <-> finished h t v) by (intro v; rewrite fin_snoc; intuition discriminate).
        assert (Hc : crashed (h ++ [Spawn]) t <-> crashed h t) by (rewrite crash_snoc; intuition discriminate).
        destruct (Nat.lt_ge_cases t (length (tasks w))) as [L|L].
        * rewrite nth_error_app1 by exact L. destruct (nth_error (tasks w) t) as [[|v|]|]; [setoid_rewrite Hf; rewrite Hc; exact HC | setoid_rewrite Hf; exact HC | exact I | setoid_rewrite Hf; rewrite Hc; exact HC].
        * assert (E0 : nth_error (tasks w) t = None) by (apply nth_error_None; exact L). rewrite E0 in HC. rewrite nth_error_app2 by exact L.
          destruct (t - length (tasks w)) as [|k]; cbn [nth_error]; [|destruct k; cbn [nth_error]]; setoid_rewrite Hf; rewrite Hc; exact HC.
    - injection E as <-.
      assert (Hf : forall t v, finished (h ++ [Poll]) t v <-> finished h t v) by (intros t v; rewrite fin_snoc; intuition discriminate).
      assert (Hc : forall t, crashed (h ++ [Poll]) t <-> crashed h t) by (intro t; rewrite crash_snoc; intuition discriminate).
      assert (HC' : forall t, chan_ok (h ++ [Poll]) w t).
      { intro t. specialize (HC t). unfold chan_ok in *. destruct (nth_error (tasks w) t) as [[|v|]|]; [setoid_rewrite Hf; rewrite Hc; exact HC | setoid_rewrite Hf; exact HC | exact I | setoid_rewrite Hf; rewrite Hc; exact HC]. }
      assert (HR' : rx_ok (h ++ [Poll]) w).
      { unfold rx_ok in *. rewrite spawned_app, Nat.add_0_r. destruct (rx (bg w)) as [t|]; [setoid_rewrite Hf; rewrite Hc; exact HR|].
        setoid_rewrite Hf. setoid_rewrite Hc. exact HR. }
      change (spawned [Poll]) with 0. rewrite Nat.add_0_r. unfold poll.
      destruct (rx (bg w)) as [t|] eqn:Er; [|split; [exact HL | split; [exact HR' | exact HC']]].
      pose proof (HC t) as Ht. unfold chan_ok in Ht.
      destruct (nth_error (tasks w) t) as [[|v|]|] eqn:Et; [split; [exact HL | split; [exact HR' | exact HC']] | | |].
      3: { exfalso. apply nth_error_None in Et. unfold rx_ok in HR. rewrite Er in HR. lia. }
      2: { cbn [tasks]. split; [exact HL|]. split; [|exact HC']. unfold rx_ok in *. cbn [bg rx value]. rewrite Er in HR. destruct HR as [HR1 HR2].
           intros u Hu. rewrite spawned_app in Hu. cbn in Hu. assert (u = t) as -> by lia. destruct (HR2 Et) as [A B].
           split; [intros v Hv; apply Hf in Hv; contradiction (B v Hv) | left; apply Hc; exact A]. }
      assert (Lt : t < length (tasks w)) by (apply nth_error_Some; congruence).
      cbn [tasks]. rewrite length_set by exact Lt. split; [exact HL|]. split.
      { unfold rx_ok in *. cbn [bg rx value]. rewrite Er in HR. destruct HR as [HR1 HR2]. intros u Hu. rewrite spawned_app in Hu. cbn in Hu. assert (u = t) as -> by lia.
        split; [intros v' Hv; apply Hf, Ht in Hv; congruence | right; exists v; apply Hf, Ht; reflexivity]. }
      intro u. specialize (HC' u). unfold chan_ok in *. cbn [tasks]. rewrite nth_set by exact Lt. destruct (u =? t); [exact I | exact HC'].
    - destruct (nth_error (tasks w) t0) as [[|v|]|] eqn:Et; try discriminate. injection E as <-.
      assert (Lt : t0 < length (tasks w)) by (apply nth_error_Some; congruence).
      assert (Hc : forall t, crashed (h ++ [Finish t0 v0]) t <-> crashed h t) by (intro t; rewrite crash_snoc; intuition discriminate).
      cbn [tasks bg]. rewrite length_set by exact Lt. split; [rewrite HL; cbn; lia|]. split.
      + unfold rx_ok in *. cbn [bg tasks]. destruct (rx (bg w)) as [t|]; [|intros t Hts; rewrite spawned_app in Hts; cbn in Hts; rewrite Nat.add_0_r in Hts; specialize (HR t Hts);
          destruct (Nat.eq_dec t t0) as [->|Hne]; [exfalso; specialize (HC t0); unfold chan_ok in HC; rewrite Et in HC; destruct HC as [X Y]; destruct HR as [_ [H|[v H]]]; [contradiction | contradiction (Y v)]|];
          setoid_rewrite fin_snoc; rewrite crash_snoc; split; [intros v [H|H]; [apply HR; exact H | congruence] | destruct HR as [_ [H|[v H]]]; [left; left; exact H | right; exists v; left; exact H]]]. rewrite length_set by exact Lt. split; [apply HR|].
        rewrite nth_set by exact Lt. destruct (Nat.eqb_spec t t0) as [->|Hne]; [discriminate|]. intro H. destruct (proj2 HR H) as [A B]. split; [apply Hc; exact A|].
        intros v H'. apply fin_snoc in H'. destruct H' as [H'|H']; [exact (B v H') | congruence].
      + intro t. pose proof (HC t) as Ht. unfold chan_ok in *. cbn [tasks]. rewrite nth_set by exact Lt. destruct (Nat.eqb_spec t t0) as [->|Hne].
        * rewrite Et in Ht. intro v'. rewrite fin_snoc. split; [intros [H|H]; [destruct (proj2 Ht v' H) | congruence] | intros ->; right; reflexivity].
        * assert (Hf : forall v, finished (h ++ [Finish t0 v0]) t v <-> finished h t v) by (intro v; rewrite fin_snoc; intuition congruence).
          destruct (nth_error (tasks w) t) as [[|v|]|]; [setoid_rewrite Hf; rewrite Hc; exact Ht | setoid_rewrite Hf; exact Ht | exact I | setoid_rewrite Hf; rewrite Hc; exact Ht].
    - destruct (nth_error (tasks w) t0) as [[|v|]|] eqn:Et; try discriminate. injection E as <-.
      assert (Lt : t0 < length (tasks w)) by (apply nth_error_Some; congruence).
      assert (Hf : forall t v, finished (h ++ [Crash t0]) t v <-> finished h t v) by (intros t v; rewrite fin_snoc; intuition discriminate).
      cbn [tasks bg]. rewrite length_set by exact Lt. split; [rewrite HL; cbn; lia|]. split.
      + unfold rx_ok in *. cbn [bg tasks]. destruct (rx (bg w)) as [t|]; [|intros t Hts; rewrite spawned_app in Hts; cbn in Hts; rewrite Nat.add_0_r in Hts; specialize (HR t Hts);
          destruct (Nat.eq_dec t t0) as [->|Hne]; [exfalso; specialize (HC t0); unfold chan_ok in HC; rewrite Et in HC; destruct HC as [X Y]; destruct HR as [_ [H|[v H]]]; [contradiction | contradiction (Y v)]|];
          setoid_rewrite fin_snoc; rewrite crash_snoc; split; [intros v [H|H]; [apply HR; exact H | congruence] | destruct HR as [_ [H|[v H]]]; [left; left; exact H | right; exists v; left; exact H]]]. rewrite length_set by exact Lt. split; [apply HR|].
        rewrite nth_set by exact Lt. setoid_rewrite Hf. rewrite crash_snoc. destruct (Nat.eqb_spec t t0) as [->|Hne].
        * intros _. split; [right; reflexivity|]. specialize (HC t0). unfold chan_ok in HC. rewrite Et in HC. apply HC.
        * intro H. destruct (proj2 HR H) as [A B]. split; [left; exact A | exact B].
      + intro t. pose proof (HC t) as Ht. unfold chan_ok in *. cbn [tasks]. rewrite nth_set by exact Lt. destruct (Nat.eqb_spec t t0) as [->|Hne]; [exact I|].
        assert (Hc : crashed (h ++ [Crash t0]) t <-> crashed h t) by (rewrite crash_snoc; intuition congruence).
        destruct (nth_error (tasks w) t) as [[|v|]|]; [setoid_rewrite Hf; rewrite Hc; exact Ht | setoid_rewrite Hf; exact Ht | exact I | setoid_rewrite Hf; rewrite Hc; exact Ht].
  Qed.
  Lemma start_inv : Inv [] start.
  Proof. split; [reflexivity|]. split; [intros t H; discriminate|]. intro t. unfold chan_ok. cbn [tasks start]. destruct t; cbn; split; auto. Qed.
  Lemma run_inv : forall h w, run start h = Some w -> Inv h w.
  Proof.
    induction h as [|e h IH] using rev_ind; intros w E; [injection E as <-; apply start_inv|].
    rewrite run_app in E. destruct (run start h) as [w0|] eqn:E0; [|discriminate]. cbn [run] in E. destruct (step w0 e) as [w1|] eqn:Es; [|discriminate].
    injection E as ->. eapply step_inv; [apply IH; reflexivity | exact Es].
  Qed.
End Background.
Arguments event : clear implicits.
Arguments world : clear implicits.
Arguments background : clear implicits.
Arguments channel : clear implicits.

(** ** C29 *)
(** A poll shows the result of the current (most recently spawned) task if that task has finished, and otherwise
    leaves the value as it was; afterwards the object is busy exactly while the current task is still running. *)
Theorem C29_poll :
  forall (T : Type) (h : list (event T)) w w', run start h = Some w -> run start (h ++ [Poll]) = Some w' ->
  (forall t v, S t = spawned h -> finished h t v -> get_value w' = Some v) /\
  ((forall t v, S t = spawned h -> ~ finished h t v) -> get_value w' = get_value w) /\
  (is_busy w' = true <-> exists t, S t = spawned h /\ ~ crashed h t /\ forall v, ~ finished h t v).
Proof.
  intros T h w w' E E'. pose proof (run_inv _ _ E) as (HL & HR & HC). rewrite run_app, E in E'. cbn [run step] in E'. injection E' as <-.
  unfold poll, get_value, is_busy, rx_ok in *. destruct (rx (bg w)) as [t|] eqn:Er.
  - destruct HR as [HR1 HR2]. specialize (HC t). unfold chan_ok in HC. destruct (nth_error (tasks w) t) as [[|v|]|] eqn:Et.
    + destruct HC as [A B]. rewrite Er. split; [|split; [reflexivity|]].
      * intros u v Hu Hf. assert (u = t) as -> by lia. contradiction (B v).
      * split; [intros _; exists t; split; [lia | split; assumption] | reflexivity].
    + cbn [bg value rx]. split; [|split].
      * intros u v' Hu Hf. assert (u = t) as -> by lia. apply HC in Hf. congruence.
      * intro H. exfalso. apply (H t v); [lia | apply HC; reflexivity].
      * split; [discriminate|]. intros (u & Hu & _ & Hf). exfalso. assert (u = t) as -> by lia. apply (Hf v), HC. reflexivity.
    + destruct (HR2 eq_refl) as [A B]. cbn [bg value rx]. split; [|split; [reflexivity|]].
      * intros u v' Hu Hf. assert (u = t) as -> by lia. contradiction (B v').
      * split; [discriminate|]. intros (u & Hu & Hf & _). assert (u = t) as -> by lia. contradiction.
    + apply nth_error_None in Et. lia.
  - rewrite Er. split; [|split; [reflexivity|]].
    + intros u v Hu. apply (HR u Hu).
    + split; [discriminate|]. intros (u & Hu & A & B). destruct (HR u Hu) as [_ [H|[v H]]]; [contradiction | contradiction (B v)].
Qed.
Print Assumptions C29_poll.

(** Nothing else changes the value; only spawn makes the object busy. *)
Theorem C29_only_poll :
  forall (T : Type) (h : list (event T)) e w w', run start h = Some w -> run start (h ++ [e]) = Some w' -> e <> Poll ->
  get_value w' = get_value w /\ is_busy w' = (is_spawn e || is_busy w).
Proof.
  intros T h e w w' E E' Hne. rewrite run_app, E in E'. cbn [run] in E'. destruct (step w e) as [w1|] eqn:Es; [|discriminate]. injection E' as ->.
  destruct e as [| |t v|t]; cbn [step] in Es; [| contradiction | |].
  - injection Es as <-. split; reflexivity.
  - destruct (nth_error _ _) as [[| |]|]; try discriminate. injection Es as <-. split; reflexivity.
  - destruct (nth_error _ _) as [[| |]|]; try discriminate. injection Es as <-. split; reflexivity.
Qed.
Print Assumptions C29_only_poll.

(** A result is observed only if its task was the current one when it was polled: the value is that of some poll,
    and every value ever shown by a superseded task had been collected before it was superseded. *)
Theorem C29_no_stale_results :
  forall (T : Type) (h : list (event T)) w v, run start h = Some w -> get_value w = Some v ->
  exists h1 h2 t, h = h1 ++ Poll :: h2 /\ S t = spawned h1 /\ finished h1 t v.
Proof.
  intros T h. induction h as [|e h IH] using rev_ind; intros w v E Hv; [injection E as <-; discriminate|].
  pose proof E as E1. rewrite run_app in E1. destruct (run start h) as [w0|] eqn:E0; [|discriminate]. clear E1.
  assert (Hold : get_value w = get_value w0 -> exists h1 h2 t, h ++ [e] = h1 ++ Poll :: h2 /\ S t = spawned h1 /\ finished h1 t v).
  { intro H. rewrite H in Hv. destruct (IH w0 v eq_refl Hv) as (h1 & h2 & t & -> & A & B). exists h1, (h2 ++ [e]), t. rewrite <- app_assoc. auto. }
  assert (D : e = Poll \/ e <> Poll) by (destruct e; [right|left|right|right]; try reflexivity; discriminate).
  destruct D as [->|D]; [|apply Hold; apply (C29_only_poll T h e w0 w E0 E D)].
  pose proof (C29_poll T h w0 w E0 E) as (P1 & P2 & _). pose proof (run_inv _ _ E0) as (HL & HR & HC).
  (* the current task *)
  destruct (spawned h) as [|t] eqn:Es; [apply Hold, P2; intros t v' H; discriminate|].
  rewrite run_app, E0 in E. cbn [run step] in E. injection E as <-. unfold poll, get_value in *. destruct (rx (bg w0)) as [t0|] eqn:Er; [|apply Hold; reflexivity].
  destruct (nth_error (tasks w0) t0) as [[|v0|]|] eqn:Et; try (apply Hold; reflexivity).
  cbn [bg value] in Hv. injection Hv as ->. exists h, [], t0. split; [reflexivity|]. unfold rx_ok in HR. rewrite Er in HR. split; [lia|].
  specialize (HC t0). unfold chan_ok in HC. rewrite Et in HC. apply HC. reflexivity.
Qed.
Print Assumptions C29_no_stale_results.

(** Once the current task has finished, the next poll shows its result, and it stays until another task's result
    is polled. *)
Theorem C29_latest_is_seen :
  forall (T : Type) (h1 h2 : list (event T)) t v w, S t = spawned (h1 ++ Poll :: h2) -> finished h1 t v ->
  run start (h1 ++ Poll :: h2) = Some w -> get_value w = Some v /\ is_busy w = false.
Proof.
  intros T h1 h2 t v w Ht Hf E.
  assert (Hs : spawned h1 = spawned (h1 ++ Poll :: h2)).
  { pose proof E as E1. rewrite run_app in E1. destruct (run start h1) as [w1|] eqn:E0; [|discriminate]. pose proof (run_inv _ _ E0) as (HL & _ & HC).
    rewrite spawned_app in *. specialize (HC t). unfold chan_ok in HC. destruct (Nat.lt_ge_cases t (length (tasks w1))); [lia|].
    exfalso. apply nth_error_None in H. rewrite H in HC. destruct HC as [_ B]. exact (B v Hf). }
  revert w Ht Hs E. induction h2 as [|e h2 IH] using rev_ind; intros w Ht Hs E.
  - pose proof E as E1. rewrite run_app in E1. destruct (run start h1) as [w1|] eqn:E0; [|discriminate]. clear E1.
    destruct (C29_poll T h1 w1 w E0 E) as (A & _ & C). split; [apply (A t v); [lia | exact Hf]|].
    destruct (is_busy w) eqn:Eb; [|reflexivity]. destruct (proj1 C eq_refl) as (u & Hu & _ & B). assert (u = t) as -> by lia. contradiction (B v).
  - assert (Happ : h1 ++ Poll :: h2 ++ [e] = (h1 ++ Poll :: h2) ++ [e]) by (rewrite <- app_assoc; reflexivity). rewrite Happ in *.
    pose proof E as E1. rewrite run_app in E1. destruct (run start (h1 ++ Poll :: h2)) as [w1|] eqn:E0; [|discriminate]. clear E1.
    rewrite spawned_app in Ht, Hs. pose proof (spawned_app h1 (Poll :: h2)) as Hsp.
    assert (He : spawned [e] = 0) by lia. rewrite He, Nat.add_0_r in *.
    destruct (IH w1 Ht Hs eq_refl) as [A B].
    assert (D : e = Poll \/ e <> Poll) by (destruct e; [right|left|right|right]; try reflexivity; discriminate). destruct D as [->|D].
    + destruct (C29_poll T _ w1 w E0 E) as (P & _ & C). assert (Hf' : finished (h1 ++ Poll :: h2) t v) by (apply in_app_iff; left; exact Hf). split; [apply (P t v Ht Hf')|].
      destruct (is_busy w) eqn:Eb; [|reflexivity]. destruct (proj1 C eq_refl) as (u & Hu & _ & X). assert (u = t) as -> by lia. contradiction (X v).
    + destruct (C29_only_poll T _ e w1 w E0 E D) as [-> ->]. rewrite A, B. destruct e; cbn in He |- *; try discriminate; auto.
Qed.
Print Assumptions C29_latest_is_seen.

(** the superseded first task finishes late and is not seen; the second is; a crash ends the third *)
Example C29_demo :
  option_map (fun w => (get_value w, is_busy w)) (run start [Spawn; Spawn; Finish 0 7; Poll; Finish 1 8; Poll]) = Some (Some 8, false) /\
  option_map (fun w => (get_value w, is_busy w)) (run start [Spawn; Spawn; Finish 0 7; Poll]) = Some (None, true) /\
  option_map (fun w => (get_value w, is_busy w)) (run start [Spawn; Finish 0 7; Poll; Spawn; Crash 1; Poll]) = Some (Some 7, false) /\
  run start [Spawn; Finish 0 7; Finish 0 8] = None.
Proof. repeat split. Qed.
