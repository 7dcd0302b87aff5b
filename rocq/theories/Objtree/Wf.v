(** The shape of the object tree, kept by everything that is done to it. *)
From Coq Require Import List Arith NArith Bool String Lia Relations Sorted.
From Verif Require Import Common.Text Objtree.Ispath Objtree.Model Objtree.Lemmas Objtree.Spec.
Import ListNotations.
Open Scope nat_scope.

Section WF.
Variables V D : Type.
Notation objtree := (objtree V D).
Notation node := (node V D).
Notation at_n t i := (nth_error (graph t) i).

Record wf (t : objtree) : Prop := {
  wf_root : exists n, at_n t 0 = Some n /\ n_path n = [];
  wf_node : forall i n, at_n t i = Some n -> i <> 0 -> exists p m name, n_parent_path n = Some p /\ p < i /\ at_n t p = Some m /\
    slash_free name /\ n_path n = n_path m ++ SLASH :: name /\ get name (n_children m) = Some i;
  wf_child : forall i n name j, at_n t i = Some n -> In (name, j) (n_children n) ->
    exists m, at_n t j = Some m /\ j <> 0 /\ n_parent_path m = Some i /\ n_path m = n_path n ++ SLASH :: name /\ slash_free name;
  wf_keys : forall i n, at_n t i = Some n -> NoDup (map fst (n_children n));
  wf_sorted : forall i n, at_n t i = Some n -> StronglySorted tlt (map fst (n_children n));
  wf_types : forall path i, In (path, i) (types t) <-> exists n, at_n t i = Some n /\ i <> 0 /\ n_path n = path;
  wf_tkeys : NoDup (map fst (types t));
  wf_procs : forall i n name p, at_n t i = Some n -> get name (n_procs n) = Some p -> p_values p <> [] }.

(** ** What follows from it *)
Section FACTS.
Variable t : objtree.
Hypothesis W : wf t.
Lemma path_comps i n : at_n t i = Some n -> exists cs, names cs /\ n_path n = render cs.
Proof using W.
  revert n. induction i as [i IH] using lt_wf_ind. intros n H. destruct (Nat.eq_dec i 0) as [->|N].
  - destruct (wf_root t W) as (n' & E & P). rewrite H in E. injection E as <-. exists []. split; [intros c []|exact P].
  - destruct (wf_node t W i n H N) as (p & m & name & _ & Hp & Hm & Hs & P & _). destruct (IH p Hp m Hm) as (cs & Hc & Pm). exists (cs ++ [name]). split.
    + intros c Hin. apply in_app_or in Hin. destruct Hin as [Hin|[<-|[]]]; auto.
    + rewrite render_snoc, P, Pm. reflexivity.
Qed.
Lemma path_root i n : at_n t i = Some n -> (n_path n = [] <-> i = 0).
Proof using W.
  intro H. split.
  - intro P. destruct (Nat.eq_dec i 0) as [E|N]; [exact E|]. destruct (wf_node t W i n H N) as (p & m & name & _ & _ & _ & _ & P' & _). rewrite P in P'. destruct (n_path m); discriminate.
  - intros ->. destruct (wf_root t W) as (n' & E & P). rewrite H in E. injection E as <-. exact P.
Qed.
Lemma path_unique i j n m : at_n t i = Some n -> at_n t j = Some m -> n_path n = n_path m -> i = j.
Proof using W.
  revert j n m. induction i as [i IH] using lt_wf_ind. intros j n m Hi Hj E. destruct (Nat.eq_dec i 0) as [->|Ni].
  - symmetry. apply (path_root j m Hj). rewrite <- E. apply (path_root 0 n Hi). reflexivity.
  - destruct (Nat.eq_dec j 0) as [->|Nj]; [exfalso; apply Ni; apply (path_root i n Hi); rewrite E; apply (path_root 0 m Hj); reflexivity|].
    destruct (wf_node t W i n Hi Ni) as (p & a & x & _ & Hp & Ha & Hx & Pa & Ga). destruct (wf_node t W j m Hj Nj) as (q & b & y & _ & Hq & Hb & Hy & Pb & Gb).
    rewrite Pa, Pb in E. apply snoc_unique in E; [|assumption|assumption]. destruct E as [E ->]. assert (p = q) by (eapply IH; eauto). subst q. rewrite Ha in Hb. injection Hb as <-. congruence.
Qed.
Lemma at_fun i j cs : at_ t i cs -> at_ t j cs -> i = j.
Proof using W. intros (_ & n & H1 & P1) (_ & m & H2 & P2). eapply path_unique; eauto. congruence. Qed.
Lemma at_inj i cs ds : at_ t i cs -> at_ t i ds -> cs = ds.
Proof using Type. intros (Hc & n & H1 & P1) (Hd & m & H2 & P2). rewrite H1 in H2. injection H2 as <-. apply render_inj; [exact Hc|exact Hd|congruence]. Qed.
Lemma at_some i n : at_n t i = Some n -> exists cs, at_ t i cs.
Proof using W. intro H. destruct (path_comps i n H) as (cs & Hc & P). exists cs. split; [exact Hc|]. exists n. auto. Qed.
Lemma at_zero i : at_ t i [] <-> i = 0.
Proof using W.
  split.
  - intros (_ & n & H & P). apply (path_root i n H). exact P.
  - intros ->. destruct (wf_root t W) as (n & H & P). split; [intros c []|]. exists n. auto.
Qed.
Lemma at_child i cs x j : at_ t i cs -> (child t i x = Some j <-> at_ t j (cs ++ [x])).
Proof using W.
  intros (Hc & n & Hn & Pn). unfold child, node_at. rewrite Hn. split.
  - intro Q. apply get_in in Q. destruct (wf_child t W i n x j Hn Q) as (m & Hm & Nj & Pp & Pm & Hx). split.
    + intros c Hin. apply in_app_or in Hin. destruct Hin as [Hin|[<-|[]]]; auto.
    + exists m. split; [exact Hm|]. rewrite render_snoc, Pm, Pn. reflexivity.
  - intros (Hcx & m & Hm & Pm). rewrite render_snoc, <- Pn in Pm.
    assert (Nj : j <> 0) by (intro Q; apply (path_root j m Hm) in Q; rewrite Pm in Q; destruct (n_path n); discriminate).
    destruct (wf_node t W j m Hm Nj) as (p & a & y & Pp & Hlt & Ha & Hy & Pa & Ga). rewrite Pm in Pa. apply snoc_unique in Pa; [|apply Hcx, in_or_app; right; left; reflexivity|exact Hy].
    destruct Pa as [Pa ->]. assert (i = p) by (eapply path_unique; eauto). subst p. rewrite Hn in Ha. injection Ha as <-. exact Ga.
Qed.
Lemma at_parent j i : parent_path t j = Some i <-> exists cs x, at_ t i cs /\ at_ t j (cs ++ [x]).
Proof using W.
  unfold parent_path, node_at. split.
  - destruct (at_n t j) as [m|] eqn:Hm; [|discriminate]. destruct (n_path m) eqn:Pm; [discriminate|]. intro Q.
    assert (Nj : j <> 0) by (intro Q'; apply (path_root j m Hm) in Q'; congruence).
    destruct (wf_node t W j m Hm Nj) as (p & a & y & Pp & Hlt & Ha & Hy & Pa & Ga). rewrite Q in Pp. injection Pp as <-.
    destruct (at_some i a Ha) as (cs & Hcs). exists cs, y. split; [exact Hcs|]. destruct Hcs as (Hc & a' & Ha' & Pa'). rewrite Ha in Ha'. injection Ha' as <-. split.
    + intros z Hin. apply in_app_or in Hin. destruct Hin as [Hin|[<-|[]]]; auto.
    + exists m. split; [exact Hm|]. rewrite render_snoc, Pa, Pa'. reflexivity.
  - intros (cs & x & Hi & Hj). pose proof Hj as (Hc & m & Hm & Pm). rewrite Hm, Pm, render_snoc. assert (E : render cs ++ SLASH :: x <> []) by (destruct (render cs); discriminate).
    destruct (render cs ++ SLASH :: x) as [|ch0 rest0] eqn:E'; [congruence|]. apply (at_child i cs x j Hi) in Hj. unfold child, node_at in Hj. destruct Hi as (_ & n & Hn & Pn). rewrite Hn in Hj. apply get_in in Hj.
    destruct (wf_child t W i n x j Hn Hj) as (m' & Hm' & _ & Pp & _). rewrite Hm in Hm'. injection Hm' as <-. exact Pp.
Qed.
Lemma at_prefix i cs x : at_ t i (cs ++ [x]) -> exists p, at_ t p cs /\ p < i.
Proof using W.
  intro H. pose proof H as (Hc & m & Hm & Pm). assert (Nj : i <> 0) by (intro Q; apply (path_root i m Hm) in Q; rewrite Pm, render_snoc in Q; destruct (render cs); discriminate).
  destruct (wf_node t W i m Hm Nj) as (p & a & y & Pp & Hlt & Ha & Hy & Pa & Ga). rewrite Pm, render_snoc in Pa. apply snoc_unique in Pa; [|apply Hc, in_or_app; right; left; reflexivity|exact Hy].
  destruct Pa as [Pa _]. exists p. split; [|exact Hlt]. split; [intros z Hz; apply Hc, in_or_app; left; exact Hz|]. exists a. auto.
Qed.
Lemma at_types i cs : names cs -> cs <> [] -> (get (render cs) (types t) = Some i <-> at_ t i cs).
Proof using W.
  intros Hc Hne. rewrite (get_iff _ _ _ (wf_tkeys t W)), (wf_types t W). split.
  - intros (n & Hn & Ni & P). split; [exact Hc|]. exists n. auto.
  - intros (_ & n & Hn & P). exists n. split; [exact Hn|]. split; [|exact P]. intros ->. assert (Q : n_path n = []) by (apply (path_root 0 n Hn); reflexivity). rewrite P in Q. apply render_nil in Q. congruence.
Qed.
End FACTS.

(** ** It is kept *)
Lemma wf_empty : wf (empty_tree V D).
Proof using Type.
  constructor; cbn.
  - eexists. split; reflexivity.
  - intros [|i] n H N; [congruence|]. destruct i; discriminate.
  - intros [|i] n name j H; [injection H as <-; intros []|destruct i; discriminate].
  - intros [|i] n H; [injection H as <-; constructor|destruct i; discriminate].
  - intros [|i] n H; [injection H as <-; constructor|destruct i; discriminate].
  - intros path i. split; [intros []|]. intros (n & H & N & _). destruct i as [|i]; [congruence|destruct i; discriminate].
  - constructor.
  - intros [|i] n name p H; [injection H as <-; discriminate|destruct i; discriminate].
Qed.
(** changing a node without changing its place *)
Definition same_place (n n' : node) : Prop := n_path n' = n_path n /\ n_parent_path n' = n_parent_path n /\ n_children n' = n_children n.
Lemma same_place_refl n : same_place n n.
Proof using Type. repeat split. Qed.
Definition alike (t t' : objtree) : Prop :=
  types t' = types t /\ (forall i, match at_n t i, at_n t' i with Some n, Some n' => same_place n n' | None, None => True | _, _ => False end).
Lemma wf_alike t t' : wf t -> alike t t' -> (forall i n name p, at_n t' i = Some n -> get name (n_procs n) = Some p -> p_values p <> []) -> wf t'.
Proof using Type.
  intros W [HT HA] HP.
  assert (B : forall i n', at_n t' i = Some n' -> exists n, at_n t i = Some n /\ same_place n n').
  { intros i n' H. specialize (HA i). rewrite H in HA. destruct (at_n t i) as [n|]; [eauto|destruct HA]. }
  assert (Fw : forall i n, at_n t i = Some n -> exists n', at_n t' i = Some n' /\ same_place n n').
  { intros i n H. specialize (HA i). rewrite H in HA. destruct (at_n t' i) as [n'|]; [eauto|destruct HA]. }
  constructor.
  - destruct (wf_root t W) as (n & H & P). destruct (Fw _ _ H) as (n' & H' & (S1 & S2 & S3)). exists n'. split; [exact H'|congruence].
  - intros i n' H' N. destruct (B _ _ H') as (n & H & (S1 & S2 & S3)). destruct (wf_node t W i n H N) as (p & m & name & Pp & Hp & Hm & Hs & P & G). destruct (Fw _ _ Hm) as (m' & Hm' & (M1 & M2 & M3)).
    exists p, m', name. rewrite S1, S2, M1, M3. auto 10.
  - intros i n' name j H' Hin. destruct (B _ _ H') as (n & H & (S1 & S2 & S3)). rewrite S3 in Hin. destruct (wf_child t W i n name j H Hin) as (m & Hm & Nj & Pp & P & Hs). destruct (Fw _ _ Hm) as (m' & Hm' & (M1 & M2 & M3)).
    exists m'. rewrite M1, M2, S1. auto 10.
  - intros i n' H'. destruct (B _ _ H') as (n & H & (S1 & S2 & S3)). rewrite S3. exact (wf_keys t W i n H).
  - intros i n' H'. destruct (B _ _ H') as (n & H & (S1 & S2 & S3)). rewrite S3. exact (wf_sorted t W i n H).
  - intros path i. rewrite HT, (wf_types t W). split.
    + intros (n & H & N & P). destruct (Fw _ _ H) as (n' & H' & (S1 & S2 & S3)). exists n'. rewrite S1. auto.
    + intros (n' & H' & N & P). destruct (B _ _ H') as (n & H & (S1 & S2 & S3)). exists n. rewrite S1 in P. auto.
  - rewrite HT. exact (wf_tkeys t W).
  - exact HP.
Qed.
Lemma alike_set t i n n' : at_n t i = Some n -> same_place n n' -> forall r, alike t {| graph := set_nth i n' (graph t); types := types t; redirected := r |}.
Proof using Type.
  intros H S r. split; [reflexivity|]. intro j. cbn [graph]. rewrite (set_nth_get _ _ _ j n H). destruct (Nat.eqb_spec j i) as [->|N]; [rewrite H; exact S|]. destruct (at_n t j); [apply same_place_refl|exact I].
Qed.
Lemma alike_refl t : alike t t.
Proof using Type. split; [reflexivity|]. intro i. destruct (at_n t i); [apply same_place_refl|exact I]. Qed.
Lemma alike_trans a b c : alike a b -> alike b c -> alike a c.
Proof using Type.
  intros [H1 H2] [K1 K2]. split; [congruence|]. intro i. specialize (H2 i). specialize (K2 i). destruct (at_n a i) as [n|], (at_n b i) as [m|], (at_n c i) as [k|]; try contradiction; auto.
  destruct H2 as (A1 & A2 & A3), K2 as (B1 & B2 & B3). repeat split; congruence.
Qed.
Lemma alike_at t t' : alike t t' -> forall i cs, at_ t i cs <-> at_ t' i cs.
Proof using Type.
  intros [_ H] i cs. specialize (H i). unfold at_. split; intros (Hc & n & Hn & P); (split; [exact Hc|]); rewrite Hn in H.
  - destruct (at_n t' i) as [n'|]; [|destruct H]. destruct H as (A1 & _). exists n'. split; [reflexivity|congruence].
  - destruct (at_n t i) as [n'|]; [|destruct H]. destruct H as (A1 & _). exists n'. split; [reflexivity|congruence].
Qed.

Lemma wf_add t parent name t' j : wf t -> slash_free name -> subtype_or_add t parent name = Some (t', j) ->
  wf t' /\ (forall cs, at_ t parent cs -> at_ t' j (cs ++ [name]) /\ forall k ds, at_ t' k ds <-> at_ t k ds \/ (k = j /\ ds = cs ++ [name])).
Proof using Type.
  intros W Hs E. unfold subtype_or_add in E. destruct (at_n t parent) as [n|] eqn:Hn; [|discriminate]. destruct (get name (n_children n)) as [target|] eqn:Hg.
  { injection E as <- <-. split; [exact W|]. intros cs Hcs. assert (A : at_ t target (cs ++ [name])) by (apply (at_child t W parent cs name target Hcs); unfold child, node_at; rewrite Hn; exact Hg).
    split; [exact A|]. intros k ds. split; [auto|]. intros [Q|[-> ->]]; assumption. }
  injection E as <- <-. pose proof (nth_lt _ _ _ Hn) as Hlt. match goal with |- context [set_nth parent ?a (graph t) ++ [?b]] => set (n' := a); set (new := b) end. set (idx := List.length (graph t)). set (g := set_nth parent n' (graph t) ++ [new]).
  assert (L : List.length (set_nth parent n' (graph t)) = idx) by apply set_nth_length.
  assert (G : forall i, nth_error g i = if i =? idx then Some new else if i =? parent then Some n' else at_n t i).
  { intro i. unfold g. destruct (Nat.eqb_spec i idx) as [->|Ni].
    - rewrite nth_error_app2 by lia. rewrite L, Nat.sub_diag. reflexivity.
    - destruct (Nat.lt_ge_cases i idx) as [Hi|Hi]; [rewrite nth_error_app1 by lia; apply (set_nth_get _ _ _ i n Hn)|].
      rewrite nth_error_app2 by lia. rewrite L. destruct (i - idx) as [|k] eqn:Ek; [lia|]. destruct (Nat.eqb_spec i parent) as [->|]; [lia|]. symmetry. rewrite (proj2 (nth_error_None _ _)); [destruct k; reflexivity|exact Hi]. }
  assert (G1 : forall i m, at_n t i = Some m -> exists m', nth_error g i = Some m' /\ n_path m' = n_path m /\ n_parent_path m' = n_parent_path m /\ n_procs m' = n_procs m /\
     (forall x k, get x (n_children m) = Some k -> get x (n_children m') = Some k) /\ (i <> parent -> m' = m)).
  { intros i m Hi. pose proof (nth_lt _ _ _ Hi) as Hil. rewrite G. destruct (Nat.eqb_spec i idx) as [->|_]; [unfold idx in Hil; lia|]. destruct (Nat.eqb_spec i parent) as [->|Np].
    - rewrite Hn in Hi. injection Hi as <-. exists n'. split; [reflexivity|]. split; [reflexivity|]. split; [reflexivity|]. split; [reflexivity|]. split; [|congruence]. intros x k Q. cbn [n' n_children]. apply get_of; [apply bt_insert_nodup; [apply get_none; exact Hg|exact (wf_keys t W _ _ Hn)]|].
      apply bt_insert_new; [apply get_none; exact Hg|]. right. apply get_in. exact Q.
    - exists m. repeat split; auto. }
  assert (Np' : forall k, In (n_path n ++ SLASH :: name, k) (types t) -> False).
  { intros k Q. apply (wf_types t W) in Q. destruct Q as (m & Hm & Nk & P). destruct (wf_node t W k m Hm Nk) as (p & a & y & Pp & Hl & Ha & Hy & Pa & Ga). rewrite P in Pa. apply snoc_unique in Pa; [|assumption|assumption].
    destruct Pa as [Pa ->]. assert (parent = p) by (eapply path_unique; eauto). subst p. rewrite Hn in Ha. injection Ha as <-. congruence. }
  assert (Nk : ~ In (n_path n ++ SLASH :: name) (map fst (types t))).
  { intro Q. apply in_map_iff in Q. destruct Q as ([q k] & Q1 & Q2). cbn in Q1. subst q. exact (Np' k Q2). }
  assert (W' : wf {| graph := g; types := bt_insert (n_path n ++ SLASH :: name) idx (types t); redirected := redirected t |}).
  { constructor; cbn [graph types].
    - destruct (wf_root t W) as (r & Hr & P). destruct (G1 _ _ Hr) as (r' & Hr' & P' & _). exists r'. split; [exact Hr'|congruence].
    - intros i m Hi Ni. rewrite G in Hi. destruct (Nat.eqb_spec i idx) as [->|Nidx].
      + injection Hi as <-. exists parent, n', name. split; [reflexivity|]. split; [exact Hlt|]. split; [rewrite G, Nat.eqb_refl; destruct (Nat.eqb_spec parent idx); [unfold idx in *; lia|reflexivity]|].
        split; [exact Hs|]. split; [reflexivity|]. cbn [n' n_children]. apply get_of; [apply bt_insert_nodup; [apply get_none; exact Hg|exact (wf_keys t W _ _ Hn)]|]. apply bt_insert_new; [apply get_none; exact Hg|]. auto.
      + assert (Hi' : exists m0, at_n t i = Some m0 /\ n_parent_path m = n_parent_path m0 /\ n_path m = n_path m0) by (destruct (Nat.eqb_spec i parent) as [->|]; [injection Hi as <-; exists n; auto|exists m; auto]).
        destruct Hi' as (m0 & Hm0 & E1 & E2). destruct (wf_node t W i m0 Hm0 Ni) as (p & a & y & Pp & Hl & Ha & Hy & Pa & Ga). destruct (G1 _ _ Ha) as (a' & Ha' & A1 & A2 & A3 & A4 & A5).
        exists p, a', y. rewrite E1, E2, A1. auto 10.
    - intros i m x k Hi Hin. rewrite G in Hi. destruct (Nat.eqb_spec i idx) as [->|Nidx]; [injection Hi as <-; destruct Hin|].
      assert (Hc : exists m0, at_n t i = Some m0 /\ n_path m = n_path m0 /\ (In (x, k) (n_children m0) \/ (i = parent /\ x = name /\ k = idx))).
      { destruct (Nat.eqb_spec i parent) as [->|]; [injection Hi as <-; exists n; split; [exact Hn|split; [reflexivity|]]|exists m; auto]. cbn [n' n_children] in Hin. apply bt_insert_new in Hin; [|apply get_none; exact Hg]. destruct Hin as [[-> ->]|Hin]; auto. }
      destruct Hc as (m0 & Hm0 & E2 & [Hin0|(-> & -> & ->)]).
      + destruct (wf_child t W i m0 x k Hm0 Hin0) as (b & Hb & Nk0 & Pp & Pb & Hx). destruct (G1 _ _ Hb) as (b' & Hb' & B1 & B2 & _). exists b'. rewrite B1, B2, E2. auto 10.
      + exists new. rewrite G, Nat.eqb_refl. split; [reflexivity|]. split; [unfold idx; lia|]. split; [reflexivity|]. rewrite Hn in Hm0. injection Hm0 as <-. rewrite E2. auto.
    - intros i m Hi. rewrite G in Hi. destruct (Nat.eqb_spec i idx); [injection Hi as <-; constructor|]. destruct (Nat.eqb_spec i parent); [injection Hi as <-|exact (wf_keys t W i m Hi)].
      cbn [n' n_children]. apply bt_insert_nodup; [apply get_none; exact Hg|exact (wf_keys t W _ _ Hn)].
    - intros i m Hi. rewrite G in Hi. destruct (Nat.eqb_spec i idx); [injection Hi as <-; constructor|]. destruct (Nat.eqb_spec i parent); [injection Hi as <-|exact (wf_sorted t W i m Hi)].
      cbn [n' n_children]. apply bt_insert_sorted. exact (wf_sorted t W _ _ Hn).
    - intros path i. rewrite (bt_insert_new _ _ _ Nk), (wf_types t W). split.
      + intros [[-> ->]|(m & Hm & Ni & P)]; [exists new; rewrite G, Nat.eqb_refl; split; [reflexivity|split; [unfold idx; lia|reflexivity]]|]. destruct (G1 _ _ Hm) as (m' & Hm' & P' & _). exists m'. rewrite P'. auto.
      + intros (m & Hm & Ni & P). rewrite G in Hm. destruct (Nat.eqb_spec i idx) as [->|Nidx]; [injection Hm as <-; left; cbn in P; auto|]. right.
        destruct (Nat.eqb_spec i parent) as [->|]; [injection Hm as <-; exists n; auto|exists m; auto].
    - apply bt_insert_nodup; [exact Nk|exact (wf_tkeys t W)].
    - intros i m x p Hm Q. rewrite G in Hm. destruct (Nat.eqb_spec i idx); [injection Hm as <-; discriminate|]. destruct (Nat.eqb_spec i parent) as [->|]; [injection Hm as <-; exact (wf_procs t W _ _ _ _ Hn Q)|exact (wf_procs t W _ _ _ _ Hm Q)]. }
  split; [exact W'|]. intros cs (Hc & n0 & Hn0 & Pn). rewrite Hn in Hn0. injection Hn0 as <-.
  assert (A : at_ {| graph := g; types := bt_insert (n_path n ++ SLASH :: name) idx (types t); redirected := redirected t |} idx (cs ++ [name])).
  { split; [intros c Hin; apply in_app_or in Hin; destruct Hin as [Hin|[<-|[]]]; auto|]. exists new. cbn [graph]. rewrite G, Nat.eqb_refl. split; [reflexivity|]. rewrite render_snoc, <- Pn. reflexivity. }
  split; [exact A|]. intros k ds. split.
  - intro Q. destruct (Nat.eq_dec k idx) as [->|Nk']; [right; split; [reflexivity|eapply at_inj; eauto]|left]. destruct Q as (Hd & m & Hm & P). cbn [graph] in Hm. rewrite G in Hm. split; [exact Hd|].
    destruct (Nat.eqb_spec k idx); [congruence|]. destruct (Nat.eqb_spec k parent) as [->|]; [injection Hm as <-; exists n; auto|exists m; auto].
  - intros [(Hd & m & Hm & P)|[-> ->]]; [|exact A]. split; [exact Hd|]. destruct (G1 _ _ Hm) as (m' & Hm' & P' & _). exists m'. split; [exact Hm'|congruence].
Qed.
Lemma wf_var t ty v t' : wf t -> set_parent_type_var t ty v = Some t' -> wf t' /\ alike t t'.
Proof using Type.
  intros W E. unfold set_parent_type_var in E. destruct (at_n t ty) as [n|] eqn:Hn; [|discriminate]. injection E as <-.
  assert (A : alike t (update t ty (Build_node V D (n_path n) (n_procs n) (Some v) (n_parent_path n) (n_parent_type n) (n_children n)))) by (apply (alike_set t ty n); [exact Hn|repeat split]).
  split; [|exact A]. apply (wf_alike t); [exact W|exact A|]. intros i m name p Hm Q. cbn [graph update] in Hm. rewrite (set_nth_get _ _ _ i n Hn) in Hm.
  destruct (i =? ty); [injection Hm as <-; exact (wf_procs t W _ _ _ _ Hn Q)|exact (wf_procs t W _ _ _ _ Hm Q)].
Qed.
Lemma wf_proc t ty name d v t' : wf t -> register_proc t ty name d v = Some t' -> wf t' /\ alike t t'.
Proof using Type.
  intros W E. unfold register_proc in E. destruct (at_n t ty) as [n|] eqn:Hn; [|discriminate]. injection E as <-. match goal with |- wf (update t ty ?m) /\ _ => set (n' := m) end.
  assert (A : alike t (update t ty n')) by (apply (alike_set t ty n); [exact Hn|repeat split]).
  split; [|exact A]. apply (wf_alike t); [exact W|exact A|]. intros i m x p Hm Q. cbn [graph update] in Hm. rewrite (set_nth_get _ _ _ i n Hn) in Hm.
  destruct (i =? ty); [|exact (wf_procs t W _ _ _ _ Hm Q)]. injection Hm as <-. cbn [n' n_procs] in Q. rewrite get_ix in Q. destruct (text_eqb name x); [|exact (wf_procs t W _ _ _ _ Hn Q)].
  injection Q as <-. cbn [p_values]. destruct d; [destruct (match get name (n_procs n) with Some p => p | None => _ end) as [[|? ?] ?]; discriminate|]. intro Q. apply app_eq_nil in Q. destruct Q; discriminate.
Qed.
Theorem wf_built t : built t -> wf t.
Proof using Type.
  induction 1 as [|t parent name t' i _ IH Hs E|t ty v t' _ IH E|t ty name d v t' _ IH E]; [apply wf_empty|exact (proj1 (wf_add _ _ _ _ _ IH Hs E))|exact (proj1 (wf_var _ _ _ _ IH E))|exact (proj1 (wf_proc _ _ _ _ _ _ IH E))].
Qed.
End WF.
