(** The walk through the call tree (C51). *)
From Coq Require Import List Arith NArith Bool String Lia Relations Relation_Operators Wellfounded.
From Verif Require Import Common.Text Objtree.Model Objtree.Spec Checker.CallTree Checker.Spec.
Import ListNotations.
Open Scope nat_scope.

Lemma pr_eqb_spec a b : reflect (a = b) (pr_eqb a b).
Proof.
  destruct a as [[i x] k], b as [[j y] l]. unfold pr_eqb. cbn [fst snd]. destruct (Nat.eqb_spec i j), (text_eqb_spec x y), (Nat.eqb_spec k l); cbn; constructor; congruence.
Qed.
Lemma pr_in_iff p l : pr_in p l = true <-> In p l.
Proof.
  unfold pr_in. rewrite existsb_exists. split; [intros (x & Hx & E); destruct (pr_eqb_spec p x); [subst; exact Hx|discriminate]|].
  intro H. exists p. split; [exact H|]. destruct (pr_eqb_spec p p); congruence.
Qed.
Lemma pr_in_false p l : pr_in p l = false <-> ~ In p l.
Proof. rewrite <- pr_in_iff. destruct (pr_in p l); split; congruence. Qed.
Lemma pr_get_iff {A : Type} p (l : list (procref * A)) v : NoDup (map fst l) -> (pr_get p l = Some v <-> In (p, v) l).
Proof.
  unfold pr_get. induction l as [|[q w] l IH]; cbn [map fst List.find]; intro N; [split; [discriminate|intros []]|]. inversion N as [|? ? N1 N2]; subst. destruct (pr_eqb_spec q p) as [->|Nq].
  - split; [intro Q; injection Q as <-; left; reflexivity|]. intros [Q|Q]; [injection Q as <-; reflexivity|]. destruct N1. apply in_map_iff. exists (p, v). auto.
  - rewrite (IH N2). split; [right; assumption|]. intros [Q|Q]; [congruence|exact Q].
Qed.
Lemma pr_get_none {A : Type} p (l : list (procref * A)) : pr_get p l = None <-> forall v, ~ In (p, v) l.
Proof.
  unfold pr_get. induction l as [|[q w] l IH]; cbn [List.find fst]; [split; [intros _ v []|reflexivity]|]. destruct (pr_eqb_spec q p) as [->|Nq].
  - split; [discriminate|]. intro Q. destruct (Q w). left. reflexivity.
  - rewrite IH. split; [intros H v [Q|Q]; [congruence|exact (H v Q)]|intros H v Q; apply (H v); right; exact Q].
Qed.

Section SLEEP.
Variables V D L X : Type.
Variable t : objtree V D.
Variable f : facts L X.
Variable within : procref -> nat -> list procref.
Hypothesis K : keyed f.
Hypothesis WT : forall p recv c, In c (within p recv) <-> dispatches t p recv c.
Notation reach_ := (reach t f).
Notation roots := (must_not_sleep L X f).
Notation walk_ := (walk L X f within).

Lemma calls_iff p e : calls f p e <-> In e (calls_of L X f p).
Proof using K.
  unfold calls, calls_of. destruct K as (K1 & _). split.
  - intros (l & Hl & He). apply (pr_get_iff p _ l K1) in Hl. rewrite Hl. exact He.
  - destruct (pr_get p (call_tree L X f)) as [l|] eqn:E; [|intros []]. intro He. apply (pr_get_iff p _ l K1) in E. eauto.
Qed.
Lemma stops_tests p : stops f p <-> pr_in p (waitfor L X f) = true \/ pr_in p (sleep_exempt L X f) = true \/ pr_in p (map fst roots) = true.
Proof using Type.
  unfold stops. rewrite !pr_in_iff. assert (E : In p (map fst roots) <-> exists l, In (p, l) roots).
  { rewrite in_map_iff. split; [intros ([q l] & <- & H); eauto|intros (l & H); exists (p, l); auto]. }
  rewrite E. tauto.
Qed.
Lemma sleeps_get p what : sleeps f p what <-> pr_get p (sleeping L X f) = Some what.
Proof using K. unfold sleeps. symmetry. apply pr_get_iff. apply K. Qed.

(** ** Soundness *)
Definition queued (root : procref) (visited : list procref) (i : item L) : Prop := i_new L i = false -> ~ In (i_proc L i) visited -> reach_ root (i_stack L i) (i_parent L i) (i_proc L i) (i_receiver L i) (i_exact L i).
Definition true_report (r : report L X) : Prop :=
  match r with
  | SleepsItself _ _ root set_at what => In (root, set_at) roots /\ sleeps f root what
  | Sleeps _ _ root set_at k p stack what => In (root, set_at) roots /\ ~ stops f p /\ sleeps f p what /\
      exists called receiver exact, reach_ root stack called p receiver exact /\ k = kind_of root p called
  end.
Definition successors (i : item L) : list (item L) :=
  (if negb (i_exact L i) && negb (pr_ty (i_proc L i) =? 0) then
     map (fun c => {| i_proc := c; i_stack := i_stack L i; i_new := false; i_parent := i_proc L i; i_receiver := pr_ty c; i_exact := true |}) (within (i_proc L i) (i_receiver L i))
   else []) ++ queue_calls L X f (i_receiver L i) (i_stack L i) (i_proc L i).
Lemma queue_calls_ok root visited i : In (i_proc L i) visited -> reach_ root (i_stack L i) (i_parent L i) (i_proc L i) (i_receiver L i) (i_exact L i) -> passes f (i_proc L i) -> forall j, In j (successors i) -> queued root visited j.
Proof using K WT.
  intros Vi R P j Hj N NV. unfold successors in Hj. apply in_app_or in Hj. destruct Hj as [Hj|Hj].
  - destruct (i_exact L i) eqn:Ex; [destruct Hj|]. cbn [negb andb] in Hj. destruct (Nat.eqb_spec (pr_ty (i_proc L i)) 0) as [E|E]; [destruct Hj|]. cbn [negb] in Hj. apply in_map_iff in Hj. destruct Hj as (c & <- & Hc). cbn [i_stack i_parent i_proc i_receiver i_exact].
    apply WT in Hc. cbn [i_proc] in NV. eapply reach_override; eauto. congruence.
  - unfold queue_calls in Hj. apply in_map_iff in Hj. destruct Hj as (e & <- & He). cbn [i_stack i_parent i_proc i_receiver i_exact i_new] in *. apply calls_iff in He. apply (reach_call _ _ _ _ t f root (i_stack L i) (i_parent L i) (i_proc L i) (i_receiver L i) (i_exact L i) e); assumption.
Qed.
Lemma queue_root_ok root visited : forall j, In j (queue_calls L X f (pr_ty root) [] root) -> queued root visited j.
Proof using K.
  intros j Hj N _. unfold queue_calls in Hj. apply in_map_iff in Hj. destruct Hj as (e & <- & He). cbn [i_stack i_parent i_proc i_receiver i_exact i_new app] in *. apply calls_iff in He. apply reach_first; assumption.
Qed.
(** one round *)
Definition skip (visited : list procref) (i : item L) : bool := i_new L i || pr_in (i_proc L i) visited.
Lemma walk_S fuel root set_at visited i queue out :
  walk_ (S fuel) root set_at visited (i :: queue) out =
  if skip visited i then walk_ fuel root set_at visited queue out
  else if pr_in (i_proc L i) (waitfor L X f) || pr_in (i_proc L i) (sleep_exempt L X f) || pr_in (i_proc L i) (map fst roots) then walk_ fuel root set_at (i_proc L i :: visited) queue out
  else match pr_get (i_proc L i) (sleeping L X f) with
       | Some what => walk_ fuel root set_at (i_proc L i :: visited) queue (out ++ [Sleeps L X root set_at (kind_of root (i_proc L i) (i_parent L i)) (i_proc L i) (i_stack L i) what])
       | None => walk_ fuel root set_at (i_proc L i :: visited) (queue ++ successors i) out
       end.
Proof using Type.
  cbn [walk]. unfold skip, successors. destruct (i_new L i); [reflexivity|]. cbn [orb]. destruct (pr_in (i_proc L i) visited); [reflexivity|].
  destruct (pr_in (i_proc L i) (waitfor L X f)); [reflexivity|]. destruct (pr_in (i_proc L i) (sleep_exempt L X f)); [reflexivity|]. destruct (pr_in (i_proc L i) (map fst roots)); reflexivity.
Qed.
Lemma tests_stop p : pr_in p (waitfor L X f) || pr_in p (sleep_exempt L X f) || pr_in p (map fst roots) = true <-> stops f p.
Proof using Type. rewrite !orb_true_iff, stops_tests. tauto. Qed.
Lemma not_stop p : pr_in p (waitfor L X f) || pr_in p (sleep_exempt L X f) || pr_in p (map fst roots) = false <-> ~ stops f p.
Proof using Type. rewrite <- tests_stop. destruct (pr_in p (waitfor L X f) || _ || _); split; congruence. Qed.
Lemma none_passes p : ~ stops f p -> pr_get p (sleeping L X f) = None -> passes f p.
Proof using Type. intros H E. split; [exact H|]. intros what Q. rewrite pr_get_none in E. exact (E what Q). Qed.

(** everything at once: what holds during the walk *)
Definition reported (p : procref) (out : list (report L X)) : Prop := exists r s k st what, In (Sleeps L X r s k p st what) out.
Definition names_of (out : list (report L X)) : list procref := flat_map (fun r => match r with Sleeps _ _ _ _ _ p _ _ => [p] | _ => [] end) out.
Record during (done : list procref) (visited : list procref) (queue : list (item L)) (out : list (report L X)) : Prop := {
  d_true : forall r, In r out -> true_report r;
  d_once : NoDup (names_of out) /\ forall p, In p (names_of out) -> In p visited;
  d_visited : forall p, In p visited -> In p done \/ exists root st called recv ex, In root done /\ reach_ root st called p recv ex /\
     (passes f p -> (forall e, calls f p e -> e_new L e = false -> In (e_proc L e) visited \/ exists j, In j queue /\ i_new L j = false /\ i_proc L j = e_proc L e) /\
                    (forall c, ex = false -> pr_ty p <> 0 -> In c (within p recv) -> In c visited \/ exists j, In j queue /\ i_new L j = false /\ i_proc L j = c)) /\
     (forall what, ~ stops f p -> sleeps f p what -> reported p out);
  d_done : forall r, In r done -> In r visited /\ (exists s, In (r, s) roots) /\
     (forall e, calls f r e -> e_new L e = false -> In (e_proc L e) visited \/ exists j, In j queue /\ i_new L j = false /\ i_proc L j = e_proc L e) /\
     (forall what, sleeps f r what -> exists s, In (SleepsItself L X r s what) out) }.
Lemma walk_during root set_at done : In (root, set_at) roots -> In root done -> forall fuel visited queue out visited' out',
  during done visited queue out -> (forall j, In j queue -> queued root visited j) -> walk_ fuel root set_at visited queue out = Some (visited', out') ->
  during done visited' [] out' /\ incl visited visited'.
Proof using K WT.
  intros Hroot Hdone. induction fuel as [|fuel IH]; intros visited queue out visited' out' Du Q E; [discriminate|]. destruct queue as [|i queue]; [cbn [walk] in E; injection E as <- <-; split; [exact Du|apply incl_refl]|].
  rewrite walk_S in E. assert (Qi : queued root visited i) by (apply Q; left; reflexivity). assert (Qq : forall j, In j queue -> queued root visited j) by (intros; apply Q; right; assumption).
  assert (Qq' : forall j, In j queue -> queued root (i_proc L i :: visited) j) by (intros j Hj N NV; apply (Qq j Hj N); intro; apply NV; right; assumption).
  (* what was in the queue is in the rest of it, or visited *)
  destruct (skip visited i) eqn:Sk.
  - apply (IH _ _ _ _ _) in E; [exact E| |exact Qq]. unfold skip in Sk. apply orb_true_iff in Sk. rewrite pr_in_iff in Sk.
    assert (M : forall p, (In p visited \/ exists j, In j (i :: queue) /\ i_new L j = false /\ i_proc L j = p) -> In p visited \/ exists j, In j queue /\ i_new L j = false /\ i_proc L j = p).
    { intros p [H|(j & [<-|Hj] & N & Ep)]; [left; exact H| |right; eauto]. destruct Sk as [Sk|Sk]; [congruence|]. left. congruence. }
    destruct Du as [D1 D2 D3 D4]. constructor; [exact D1|exact D2| |].
    + intros p Hp. destruct (D3 p Hp) as [H|(r & st & ca & re & ex & H1 & H2 & H3 & H4)]; [left; exact H|right]. exists r, st, ca, re, ex. split; [exact H1|]. split; [exact H2|]. split; [|exact H4].
      intro P. destruct (H3 P) as [H5 H6]. split; [intros e He N; apply M; auto|intros c Ex Ty Hc; apply M; auto].
    + intros r Hr. destruct (D4 r Hr) as (H1 & H2 & H3 & H4). split; [exact H1|]. split; [exact H2|]. split; [|exact H4]. intros e He N. apply M. auto.
  - unfold skip in Sk. apply orb_false_iff in Sk. destruct Sk as [Nn Nv]. rewrite pr_in_false in Nv. specialize (Qi Nn Nv). set (p := i_proc L i) in *.
    assert (M : forall q more, (In q visited \/ exists j, In j (i :: queue) /\ i_new L j = false /\ i_proc L j = q) -> In q (p :: visited) \/ exists j, In j (queue ++ more) /\ i_new L j = false /\ i_proc L j = q).
    { intros q more [H|(j & [<-|Hj] & N & Ep)]; [left; right; exact H|left; left; exact Ep|right; exists j; split; [apply in_or_app; left; exact Hj|auto]]. }
    assert (G : forall more out2 mine, (forall r, In r mine -> true_report r) -> out2 = out ++ mine -> NoDup (names_of mine) -> (forall q, In q (names_of mine) -> q = p) ->
      (passes f p -> (forall e, calls f p e -> e_new L e = false -> In (e_proc L e) (p :: visited) \/ exists j, In j (queue ++ more) /\ i_new L j = false /\ i_proc L j = e_proc L e) /\
                    (forall c, i_exact L i = false -> pr_ty p <> 0 -> In c (within p (i_receiver L i)) -> In c (p :: visited) \/ exists j, In j (queue ++ more) /\ i_new L j = false /\ i_proc L j = c)) ->
      (forall what, ~ stops f p -> sleeps f p what -> reported p out2) -> during done (p :: visited) (queue ++ more) out2).
    { intros more out2 mine Tm -> Nm Om Ps Sl. destruct Du as [D1 D2 D3 D4]. constructor.
      - intros r Hr. apply in_app_or in Hr. destruct Hr as [Hr|Hr]; auto.
      - destruct D2 as [D2 D2']. unfold names_of in *. rewrite flat_map_app. split.
        + clear - D2 D2' Nm Om Nv. induction (flat_map (fun r : report L X => match r with Sleeps _ _ _ _ _ p _ _ => [p] | _ => [] end) out) as [|x l IHl]; [exact Nm|]. inversion D2 as [|? ? A1 A2]; subst. cbn. constructor.
          * intro H. apply in_app_or in H. destruct H as [H|H]; [exact (A1 H)|]. apply Nv. rewrite <- (Om x H). apply D2'. left. reflexivity.
          * apply IHl; [exact A2|]. intros q Hq. apply D2'. right. exact Hq.
        + intros q Hq. apply in_app_or in Hq. destruct Hq as [Hq|Hq]; [right; apply D2'; exact Hq|left; symmetry; apply Om; exact Hq].
      - intros q [<-|Hq].
        + right. exists root, (i_stack L i), (i_parent L i), (i_receiver L i), (i_exact L i). split; [exact Hdone|]. split; [exact Qi|]. split; [exact Ps|exact Sl].
        + destruct (D3 q Hq) as [H|(r & st & ca & re & ex & H1 & H2 & H3 & H4)]; [left; exact H|right]. exists r, st, ca, re, ex. split; [exact H1|]. split; [exact H2|]. split.
          * intro P. destruct (H3 P) as [H5 H6]. split; [intros e He N; apply M; auto|intros c Ex Ty Hc; apply M; auto].
          * intros what N S. destruct (H4 what N S) as (a & b & c & d & g & H). exists a, b, c, d, g. apply in_or_app. left. exact H.
      - intros r Hr. destruct (D4 r Hr) as (H1 & H2 & H3 & H4). split; [right; exact H1|]. split; [exact H2|]. split; [intros e He N; apply M; auto|]. intros what S. destruct (H4 what S) as (s & H). exists s. apply in_or_app. left. exact H. }
    destruct (pr_in p (waitfor L X f) || pr_in p (sleep_exempt L X f) || pr_in p (map fst roots)) eqn:St.
    + apply tests_stop in St. apply (IH _ _ _ _ _) in E; [destruct E as [E1 E2]; split; [exact E1|intros x Hx; apply E2; right; exact Hx]| |exact Qq'].
      rewrite <- (app_nil_r queue). apply (G [] out []); [intros r []|rewrite app_nil_r; reflexivity|constructor|intros q []| |]; [intros [N _]; destruct (N St)|intros what N; destruct (N St)].
    + apply not_stop in St. destruct (pr_get p (sleeping L X f)) as [what|] eqn:Sl.
      * apply sleeps_get in Sl. apply (IH _ _ _ _ _) in E; [destruct E as [E1 E2]; split; [exact E1|intros x Hx; apply E2; right; exact Hx]| |exact Qq'].
        rewrite <- (app_nil_r queue). eapply (G [] _ [_]); [|reflexivity| | | |].
        -- intros r [<-|[]]. cbn [true_report]. split; [exact Hroot|]. split; [exact St|]. split; [exact Sl|]. exists (i_parent L i), (i_receiver L i), (i_exact L i). split; [exact Qi|reflexivity].
        -- cbn. constructor; [intros []|constructor].
        -- cbn. intros q [<-|[]]. reflexivity.
        -- intros [_ N]. destruct (N what Sl).
        -- intros w _ _. do 5 eexists. apply in_or_app. right. left. reflexivity.
      * pose proof (none_passes p St Sl) as P. apply (IH _ _ _ _ _) in E; [destruct E as [E1 E2]; split; [exact E1|intros x Hx; apply E2; right; exact Hx]| |].
        -- apply (G (successors i) out []); [intros r []|rewrite app_nil_r; reflexivity|constructor|intros q []| |].
           ++ intros _. split.
              ** intros e He N. right. apply calls_iff in He. eexists. split; [apply in_or_app; right; unfold successors; apply in_or_app; right; unfold queue_calls; apply in_map; exact He|]. split; [exact N|reflexivity].
              ** intros c Ex Ty Hc. right. eexists. split; [apply in_or_app; right; unfold successors; apply in_or_app; left; rewrite Ex; fold p; rewrite (proj2 (Nat.eqb_neq _ _) Ty); cbn [negb andb]; apply in_map; exact Hc|]. split; reflexivity.
           ++ intros what _ S. destruct P as [_ P]. destruct (P what S).
        -- intros j Hj. apply in_app_or in Hj. destruct Hj as [Hj|Hj]; [exact (Qq' j Hj)|exact (queue_calls_ok root (p :: visited) i (or_introl eq_refl) Qi P j Hj)].
Qed.

(** all roots *)
Definition leads (root p : procref) : Prop := exists st called recv ex, reach_ root st called p recv ex.
Lemma roots_during fuel : forall rest before done visited out res, roots = before ++ rest -> during done visited [] out -> incl done (map fst before) ->
  (forall r, In r (map fst before) -> In r done \/ exists r', In r' done /\ leads r' r) ->
  check_roots L X f within fuel rest visited out = Some res ->
  exists done' visited', during done' visited' [] res /\ incl done' (map fst roots) /\ forall r, In r (map fst roots) -> In r done' \/ exists r', In r' done' /\ leads r' r.
Proof using K WT.
  induction rest as [|[root set_at] rest IH]; intros before done visited out res Er Du Inc Sk E.
  - cbn [check_roots] in E. injection E as <-. rewrite app_nil_r in Er. subst before. exists done, visited. auto.
  - cbn [check_roots] in E. assert (Er' : roots = (before ++ [(root, set_at)]) ++ rest) by (rewrite Er, <- app_assoc; reflexivity).
    assert (Hroot : In (root, set_at) roots) by (rewrite Er; apply in_or_app; right; left; reflexivity).
    destruct (pr_in root visited) eqn:V0.
    + apply pr_in_iff in V0. apply (IH _ _ _ _ _ Er' Du) in E; [exact E| |].
      * intros x Hx. rewrite map_app. apply in_or_app. left. auto.
      * intros r Hr. rewrite map_app in Hr. apply in_app_or in Hr. destruct Hr as [Hr|[<-|[]]]; [auto|]. cbn [fst].
        destruct (d_visited _ _ _ _ Du root V0) as [H|(r & st & ca & re & ex & H1 & H2 & _)]; [left; exact H|]. right. exists r. split; [exact H1|]. exists st, ca, re, ex. exact H2.
    + apply pr_in_false in V0. set (out1 := match pr_get root (sleeping L X f) with Some what => out ++ [SleepsItself L X root set_at what] | None => out end) in *.
      assert (Io : incl out out1) by (unfold out1; destruct (pr_get root (sleeping L X f)); [intros x Hx; apply in_or_app; left; exact Hx|apply incl_refl]).
      assert (Ho : forall x, In x out1 -> In x out \/ exists what, x = SleepsItself L X root set_at what /\ sleeps f root what).
      { intros x Hx. unfold out1 in Hx. destruct (pr_get root (sleeping L X f)) as [what|] eqn:Sl; [|left; exact Hx]. apply in_app_or in Hx. destruct Hx as [Hx|[<-|[]]]; [left; exact Hx|right]. exists what. split; [reflexivity|]. apply sleeps_get. exact Sl. }
      assert (Nm : names_of out1 = names_of out).
      { unfold out1. destruct (pr_get root (sleeping L X f)); [|reflexivity]. unfold names_of. rewrite flat_map_app. cbn. apply app_nil_r. }
      assert (Du1 : during (root :: done) (root :: visited) (queue_calls L X f (pr_ty root) [] root) out1).
      { destruct Du as [D1 D2 D3 D4]. constructor.
        - intros r Hr. destruct (Ho r Hr) as [H|(what & -> & S)]; [exact (D1 r H)|]. split; assumption.
        - rewrite Nm. destruct D2 as [D2 D2']. split; [exact D2|]. intros p Hp. right. auto.
        - intros p [<-|Hp]; [left; left; reflexivity|]. destruct (D3 p Hp) as [H|(r & st & ca & re & ex & H1 & H2 & H3 & H4)]; [left; right; exact H|right]. exists r, st, ca, re, ex. split; [right; exact H1|]. split; [exact H2|]. split.
          + intro P. destruct (H3 P) as [H5 H6]. split.
            * intros e He N. destruct (H5 e He N) as [H|(j & [] & _)]. left. right. exact H.
            * intros c Ex Ty Hc. destruct (H6 c Ex Ty Hc) as [H|(j & [] & _)]. left. right. exact H.
          + intros what N S. destruct (H4 what N S) as (a & b & c & d & g & H). exists a, b, c, d, g. apply Io. exact H.
        - intros r [<-|Hr].
          + split; [left; reflexivity|]. split; [exists set_at; exact Hroot|]. split.
            * intros e He N. right. apply calls_iff in He. eexists. split; [unfold queue_calls; apply in_map; exact He|]. split; [exact N|reflexivity].
            * intros what S. exists set_at. unfold out1. apply sleeps_get in S. rewrite S. apply in_or_app. right. left. reflexivity.
          + destruct (D4 r Hr) as (H1 & H2 & H3 & H4). split; [right; exact H1|]. split; [exact H2|]. split.
            * intros e He N. destruct (H3 e He N) as [H|(j & [] & _)]. left. right. exact H.
            * intros what S. destruct (H4 what S) as (s & H). exists s. apply Io. exact H. }
      destruct (walk_ fuel root set_at (root :: visited) (queue_calls L X f (pr_ty root) [] root) out1) as [[visited' out']|] eqn:W; [|discriminate].
      destruct (walk_during root set_at (root :: done) Hroot (or_introl eq_refl) fuel _ _ _ _ _ Du1 (queue_root_ok root _) W) as [Du2 _].
      apply (IH _ _ _ _ _ Er' Du2) in E; [exact E| |].
      * rewrite map_app. intros x [<-|Hx]; apply in_or_app; [right; left; reflexivity|left; apply Inc; exact Hx].
      * intros r Hr. rewrite map_app in Hr. apply in_app_or in Hr. destruct Hr as [Hr|[<-|[]]]; [|left; left; reflexivity]. destruct (Sk r Hr) as [H|(r' & H1 & H2)]; [left; right; exact H|right; exists r'; split; [right; exact H1|exact H2]].
Qed.
Lemma start_during : during [] [] [] [].
Proof using Type. constructor; [intros r []|split; [constructor|intros p []]|intros p []|intros r []]. Qed.
Lemma check_during fuel res : check_sleep L X f within fuel = Some res ->
  exists done visited, during done visited [] res /\ incl done (map fst roots) /\ forall r, In r (map fst roots) -> In r done \/ exists r', In r' done /\ leads r' r.
Proof using K WT.
  intro E. unfold check_sleep in E. apply (roots_during fuel roots [] [] [] [] res eq_refl start_during) in E; [exact E|intros x []|intros r []].
Qed.

(** ** Termination *)
Variable U : list procref.
Hypothesis FU : forall p recv c, In c (within p recv) -> In c U.
Hypothesis CU : forall p e, calls f p e -> In (e_proc L e) U.
Definition unvisited (visited : list procref) : nat := List.length (filter (fun p => negb (pr_in p visited)) (nodup (fun a b => match pr_eqb_spec a b with ReflectT _ e => left e | ReflectF _ n => right n end) U)).
Lemma unvisited_less visited p : In p U -> ~ In p visited -> unvisited (p :: visited) < unvisited visited.
Proof using Type.
  intros Hp N. unfold unvisited. set (u := nodup _ U). assert (Hu : In p u) by (apply nodup_In; exact Hp). clearbody u. revert Hu. induction u as [|q u IH]; [intros []|]. cbn [filter].
  assert (Le : List.length (filter (fun p0 => negb (pr_in p0 (p :: visited))) u) <= List.length (filter (fun p0 => negb (pr_in p0 visited)) u)).
  { clear. induction u as [|q u IH]; [cbn; lia|]. cbn [filter]. change (pr_in q (p :: visited)) with (pr_eqb q p || pr_in q visited). destruct (pr_eqb q p), (pr_in q visited); cbn [orb negb List.length]; lia. }
  intros [->|Hu].
  - replace (pr_in p (p :: visited)) with true by (symmetry; apply pr_in_iff; left; reflexivity). replace (pr_in p visited) with false by (symmetry; apply pr_in_false; exact N). cbn [negb List.length]. lia.
  - specialize (IH Hu). change (pr_in q (p :: visited)) with (pr_eqb q p || pr_in q visited). destruct (pr_eqb q p), (pr_in q visited); cbn [orb negb List.length]; lia.
Qed.
Lemma queue_calls_U recv st p j : In j (queue_calls L X f recv st p) -> In (i_proc L j) U.
Proof using K CU. intro H. unfold queue_calls in H. apply in_map_iff in H. destruct H as (e & <- & He). apply calls_iff in He. exact (CU p e He). Qed.
Lemma walk_ends root set_at : forall n visited queue out, unvisited visited <= n -> (forall j, In j queue -> In (i_proc L j) U) ->
  exists F r, forall fuel, F <= fuel -> walk_ fuel root set_at visited queue out = Some r.
Proof using K FU CU.
  induction n as [n IHn] using lt_wf_ind. intros visited queue. revert visited. induction queue as [|i queue IHq]; intros visited out Hn Hq.
  - exists 1, (visited, out). intros [|fuel] Hf; [lia|]. reflexivity.
  - assert (Hqq : forall j, In j queue -> In (i_proc L j) U) by (intros; apply Hq; right; assumption). assert (Hi : In (i_proc L i) U) by (apply Hq; left; reflexivity).
    assert (G : forall (a : nat -> option (list procref * list (report L X))), (exists F r, forall fuel, F <= fuel -> a fuel = Some r) ->
      (forall fuel, walk_ (S fuel) root set_at visited (i :: queue) out = a fuel) -> exists F r, forall fuel, F <= fuel -> walk_ fuel root set_at visited (i :: queue) out = Some r).
    { intros a (F & r & H) E. exists (S F), r. intros [|fuel] Hf; [lia|]. rewrite E. apply H. lia. }
    destruct (skip visited i) eqn:Sk.
    + eapply G; [|intro fuel; rewrite walk_S, Sk; reflexivity]. apply IHq; assumption.
    + unfold skip in Sk. apply orb_false_iff in Sk. destruct Sk as [Nn Nv]. assert (Sk : skip visited i = false) by (unfold skip; rewrite Nn, Nv; reflexivity). apply pr_in_false in Nv.
      pose proof (unvisited_less visited (i_proc L i) Hi Nv) as Less.
      destruct (pr_in (i_proc L i) (waitfor L X f) || pr_in (i_proc L i) (sleep_exempt L X f) || pr_in (i_proc L i) (map fst roots)) eqn:St.
      * eapply G; [|intro fuel; rewrite walk_S, Sk, St; reflexivity]. apply (IHn (unvisited (i_proc L i :: visited))); [lia|lia|exact Hqq].
      * destruct (pr_get (i_proc L i) (sleeping L X f)) as [what|] eqn:Sl; (eapply G; [|intro fuel; rewrite walk_S, Sk, St, Sl; reflexivity]); (apply (IHn (unvisited (i_proc L i :: visited))); [lia|lia|]); [exact Hqq|].
        intros j Hj. apply in_app_or in Hj. destruct Hj as [Hj|Hj]; [auto|]. unfold successors in Hj. apply in_app_or in Hj. destruct Hj as [Hj|Hj]; [|exact (queue_calls_U _ _ _ j Hj)].
        destruct (negb (i_exact L i) && negb (pr_ty (i_proc L i) =? 0)); [|destruct Hj]. apply in_map_iff in Hj. destruct Hj as (c & <- & Hc). cbn [i_proc]. exact (FU _ _ _ Hc).
Qed.
Lemma roots_end : forall rest visited out, exists F r, forall fuel, F <= fuel -> check_roots L X f within fuel rest visited out = Some r.
Proof using K FU CU.
  induction rest as [|[root set_at] rest IH]; intros visited out; [exists 0, out; reflexivity|]. cbn [check_roots]. destruct (pr_in root visited); [apply IH|].
  set (out1 := match pr_get root (sleeping L X f) with Some what => out ++ [SleepsItself L X root set_at what] | None => out end).
  destruct (walk_ends root set_at (unvisited (root :: visited)) (root :: visited) (queue_calls L X f (pr_ty root) [] root) out1 (le_n _) (queue_calls_U _ _ _)) as (F1 & [v1 o1] & H1).
  destruct (IH v1 o1) as (F2 & r & H2). exists (F1 + F2), r. intros fuel Hf. rewrite H1 by lia. apply H2. lia.
Qed.
End SLEEP.
