(** C50: subtypes and procedures. *)
From Coq Require Import List Arith NArith Bool String Lia Relations.
From Verif Require Import Common.Text Parse.Ast Objtree.Ispath Objtree.Model Objtree.Lemmas Objtree.Spec Objtree.Wf Objtree.Assign Objtree.Paths Objtree.Inherit.
Import ListNotations.
Open Scope nat_scope.

Section CALLS.
Variables V D : Type.
Notation objtree := (objtree V D).
Notation node := (node V D).
Notation at_n t i := (nth_error (graph t) i).
Arguments wf {V D}. Arguments alike {V D}. Arguments tidy {V D}. Arguments fresh {V D}. Arguments up {V D}.
Variable t : objtree.
Hypothesis T : tidy t.
Hypothesis AC : acyclic t.

Lemma up_fuel i : exists l, up t i l /\ List.length l <= List.length (graph t).
Proof using T AC.
  destruct (up_total V D t AC i) as (l & Hl). exists l. split; [exact Hl|]. destruct (Nat.lt_ge_cases i (List.length (graph t))) as [Hi|Hi]; [exact (up_bound V D t AC i l Hl Hi)|].
  assert (E : parent_type t i = None) by (unfold parent_type, node_at; rewrite (proj2 (nth_error_None _ _)) by exact Hi; reflexivity). inversion Hl as [j E'|j p k E' K]; subst; [|congruence].
  destruct (wf_root V D t (td_wf V D t T)) as (n & Hn & _). apply nth_lt in Hn. cbn [List.length]. lia.
Qed.
Lemma search_fuel {A : Type} (f : nat -> option A) i fuel : List.length (graph t) <= fuel -> exists r, search fuel (parent_type t) f i = Some r /\ nearest t f i r.
Proof using T AC.
  intro Hf. destruct (up_fuel i) as (l & Hl & Hb). exists (first_of f l). split; [apply (search_up V D t f i l Hl); lia|apply (nearest_up_list V D); exact Hl].
Qed.
Lemma subtype_test i j fuel : List.length (graph t) <= fuel -> exists b, is_subtype_of t fuel i j = Some b /\ (b = true <-> subtype t i j).
Proof using T AC.
  intro Hf. destruct (up_fuel i) as (l & Hl & Hb). unfold is_subtype_of. rewrite (search_up V D t _ i l Hl) by lia. cbn [option_map]. eexists. split; [reflexivity|]. rewrite <- (up_in V D t i l j Hl). clear.
  induction l as [|k l IH]; cbn [first_of In]; [split; [discriminate|intros []]|]. destruct (Nat.eqb_spec k j) as [->|N]; [tauto|]. rewrite IH. tauto.
Qed.

(** *** direct subtypes *)
Definition direct (i : nat) : list nat := filter (has_parent t i) (children t i) ++ filter (has_parent t i) (redirected t).
Lemma has_parent_iff i c : i < List.length (graph t) -> (has_parent t i c = true <-> inherits t c i).
Proof using Type.
  intro Hi. unfold has_parent, inherits, parent_type. destruct (node_at t c) as [n|]; [|split; discriminate]. destruct (n_parent_type n) as [p|]; [|split; discriminate]. destruct (Nat.eqb_spec p i) as [->|N].
  - split; [|reflexivity]. intros _. unfold node_at. apply nth_error_Some in Hi. destruct (at_n t i); [reflexivity|congruence].
  - split; [discriminate|]. destruct (node_at t p); [intro Q; injection Q as Q; congruence|discriminate].
Qed.
Lemma children_nodup i : NoDup (children t i).
Proof using T.
  pose proof (td_wf V D t T) as W. unfold children, node_at. destruct (at_n t i) as [n|] eqn:Hn; [|constructor].
  pose proof (wf_keys V D t W i n Hn) as K. assert (U : forall a j b, In (a, j) (n_children n) -> In (b, j) (n_children n) -> a = b).
  { intros a j b Ha Hb. destruct (wf_child V D t W i n a j Hn Ha) as (m & Hm & _ & _ & Pa & Sa). destruct (wf_child V D t W i n b j Hn Hb) as (m' & Hm' & _ & _ & Pb & Sb). rewrite Hm in Hm'. injection Hm' as <-. rewrite Pa in Pb. apply snoc_unique in Pb; tauto. }
  revert K U. induction (n_children n) as [|[a j] l IH]; [constructor|]. cbn [map fst snd]. intros K U. inversion K as [|? ? K1 K2]; subst. constructor.
  - intro Q. apply in_map_iff in Q. destruct Q as ([b j'] & E & Q). cbn in E. subst j'. apply K1. assert (a = b) by (apply (U a j b); [left; reflexivity|right; exact Q]). subst b. apply in_map_iff. exists (a, j). auto.
  - apply IH; [exact K2|]. intros x y z Hx Hz. apply (U x y z); right; assumption.
Qed.
Lemma children_in i c : i < List.length (graph t) -> (In c (children t i) <-> exists n, at_n t c = Some n /\ c <> 0 /\ n_parent_path n = Some i).
Proof using T.
  intro Hi. pose proof (td_wf V D t T) as W. unfold children, node_at. apply nth_error_Some in Hi. destruct (at_n t i) as [n|] eqn:Hn; [|congruence]. rewrite in_map_iff. split.
  - intros ([x c'] & E & Q). cbn in E. subst c'. destruct (wf_child V D t W i n x c Hn Q) as (m & Hm & Nc & Pp & _). eauto.
  - intros (m & Hm & Nc & Pp). destruct (wf_node V D t W c m Hm Nc) as (p & a & x & Pp' & _ & Ha & _ & _ & G). rewrite Pp in Pp'. injection Pp' as <-. rewrite Hn in Ha. injection Ha as <-. apply get_in in G. exists (x, c). auto.
Qed.
Lemma inherits_node i c : inherits t c i -> exists n, at_n t c = Some n /\ c <> 0 /\ n_parent_type n = Some i.
Proof using T.
  unfold inherits, parent_type, node_at. destruct (at_n t c) as [n|] eqn:Hc; [|discriminate]. destruct (n_parent_type n) as [p|] eqn:Hp; [|discriminate]. destruct (at_n t p); [|discriminate]. intro Q. injection Q as ->.
  exists n. split; [reflexivity|]. split; [|exact Hp]. intros ->. rewrite (td_root V D t T n Hc) in Hp. discriminate.
Qed.
Lemma direct_in i c : i < List.length (graph t) -> (In c (direct i) <-> inherits t c i).
Proof using T.
  intro Hi. unfold direct. rewrite in_app_iff, !filter_In, (has_parent_iff i c Hi), (children_in i c Hi), (td_redirected V D t T c). split; [tauto|]. intro H. destruct (inherits_node i c H) as (n & Hn & Nc & Hp).
  destruct (wf_node V D t (td_wf V D t T) c n Hn Nc) as (q & _ & _ & Pp & _). destruct (Nat.eq_dec q i) as [->|N]; [left; split; [eauto|exact H]|right; split; [|exact H]]. exists n, i. repeat split; auto. congruence.
Qed.
Lemma direct_nodup i : i < List.length (graph t) -> NoDup (direct i).
Proof using T.
  intro Hi. unfold direct. assert (F : forall l, NoDup l -> NoDup (filter (has_parent t i) l)) by (intros; apply NoDup_filter; assumption).
  assert (G : forall a b : list nat, NoDup a -> NoDup b -> (forall x, In x a -> In x b -> False) -> NoDup (a ++ b)).
  { induction a as [|x a IH]; intros b Ha Hb H; [exact Hb|]. inversion Ha as [|? ? H1 H2]; subst. cbn. constructor; [intro Q; apply in_app_or in Q; destruct Q as [Q|Q]; [auto|apply (H x); [left; reflexivity|exact Q]]|]. apply IH; [exact H2|exact Hb|]. intros y Hy. apply H. right. exact Hy. }
  apply G; [apply F, children_nodup|apply F, (td_nodup V D t T)|]. intros c Ha Hb. apply filter_In in Ha, Hb. destruct Ha as [Ha Hp], Hb as [Hb _]. apply (children_in i c Hi) in Ha. apply (td_redirected V D t T) in Hb. apply (has_parent_iff i c Hi) in Hp.
  destruct (inherits_node i c Hp) as (n & Hn & _ & Hq). destruct Ha as (n1 & Hn1 & _ & P1), Hb as (n2 & p2 & Hn2 & _ & P2 & P3). assert (n1 = n) by congruence. assert (n2 = n) by congruence. subst. congruence.
Qed.
Lemma recurse_types_spec fuel : forall i li, up t i li -> i < List.length (graph t) -> List.length (graph t) - List.length li < fuel ->
  exists l, recurse_types t fuel i = Some l /\ NoDup l /\ (forall j, In j l <-> subtype t j i) /\
    (forall a x b, l = a ++ x :: b -> x = i \/ exists p, inherits t x p /\ In p a).
Proof using T AC.
  induction fuel as [|fuel IH]; intros i li Hu Hi Hf; [lia|]. cbn [recurse_types]. fold (direct i).
  assert (L : forall ch, NoDup ch -> (forall c, In c ch -> inherits t c i) -> exists l, all_of (map (recurse_types t fuel) ch) = Some l /\ NoDup l /\
    (forall j, In j l <-> exists c, In c ch /\ subtype t j c) /\ (forall a x b, l = a ++ x :: b -> In x ch \/ exists p, inherits t x p /\ In p a)).
  { induction ch as [|c ch IHch]; intros Hn Hc.
    - exists []. split; [reflexivity|]. split; [constructor|]. split; [intro j; split; [intros []|intros (? & [] & _)]|]. intros [|? ?] x b Q; discriminate.
    - inversion Hn as [|? ? Hn1 Hn2]; subst. destruct IHch as (l2 & E2 & N2 & I2 & O2); [exact Hn2|intros; apply Hc; right; assumption|]. assert (Hci : inherits t c i) by (apply Hc; left; reflexivity).
      destruct (IH c (c :: li)) as (l1 & E1 & N1 & I1 & O1).
      + econstructor; [exact Hci|exact Hu].
      + exact (proj2 (parent_bound V D t c i Hci)).
      + assert (Hu' : up t c (c :: li)) by (econstructor; [exact Hci|exact Hu]). pose proof (up_bound V D t AC c _ Hu' (proj2 (parent_bound V D t c i Hci))) as Q. cbn [List.length] in *. lia.
      + exists (l1 ++ l2). cbn [map]. rewrite E1. split; [cbn; rewrite E2; reflexivity|]. split; [|split].
        * assert (Dj : forall x, In x l1 -> In x l2 -> False).
          { intros x H1 H2. apply I1 in H1. apply I2 in H2. destruct H2 as (c' & Hc' & H2). assert (Hci' : inherits t c' i) by (apply Hc; right; exact Hc').
            assert (Q : forall u v, u <> v -> inherits t u i -> inherits t v i -> subtype t u v -> False).
            { intros u v Nuv Hu0 Hv0 Huv. destruct (clos_rt_rt1n _ _ _ _ Huv) as [|y z A1 A2]; [congruence|]. unfold inherits in *. rewrite Hu0 in A1. injection A1 as <-. apply (no_loop V D t AC z i Hv0). apply clos_rt1n_rt. exact A2. }
            destruct (linear V D t x c c' H1 H2) as [K|K]; [apply (Q c c')|apply (Q c' c)]; auto; intros ->; exact (Hn1 Hc'). }
          clear - N1 N2 Dj. induction l1 as [|x l1 IHl]; [exact N2|]. inversion N1 as [|? ? M1 M2]; subst. cbn. constructor; [intro Q; apply in_app_or in Q; destruct Q as [Q|Q]; [auto|apply (Dj x); [left; reflexivity|exact Q]]|]. apply IHl; [exact M2|]. intros y Hy. apply Dj. right. exact Hy.
        * intro j. rewrite in_app_iff, I1, I2. cbn [In]. split; [intros [H|(c' & Hc' & H)]; eauto|intros (c' & [<-|Hc'] & H); eauto].
        * intros a x b Q. destruct (app_eq_app _ _ _ _ Q) as (k & [[Ea Eb]|[Ea Eb]]).
          -- destruct k as [|k0 k]; cbn [app] in Eb.
             ++ rewrite app_nil_r in Ea. destruct (O2 [] x b) as [H|(p & _ & [])]; [cbn; congruence|left; right; exact H].
             ++ injection Eb as <- ->. destruct (O1 a x k Ea) as [->|H]; [left; left; reflexivity|right; exact H].
          -- destruct (O2 k x b Eb) as [H|(p & H1 & H2)]; [left; right; exact H|right; exists p; split; [exact H1|]]. rewrite Ea. apply in_or_app. right. exact H2. }
  destruct (L (direct i) (direct_nodup i Hi)) as (l & E & N & I & O); [intros c Hc; apply direct_in in Hc; assumption|]. exists (i :: l). rewrite E. split; [reflexivity|]. split; [|split].
  - constructor; [|exact N]. intro Q. apply I in Q. destruct Q as (c & Hc & Q). apply (direct_in i c Hi) in Hc. exact (no_loop V D t AC c i Hc Q).
  - intro j. cbn [In]. rewrite I. split.
    + intros [<-|(c & Hc & Q)]; [apply rt_refl|]. eapply rt_trans; [exact Q|]. apply rt_step. apply direct_in in Hc; assumption.
    + intro Q. apply clos_rt_rtn1 in Q. destruct Q as [|c z H1 H2]; [left; reflexivity|right]. exists c. split; [apply direct_in; assumption|apply clos_rtn1_rt; exact H2].
  - intros [|a0 a] x b Q; [injection Q as -> _; left; reflexivity|]. injection Q as <- Q. right. destruct (O a x b Q) as [H|(p & H1 & H2)]; [exists i; split; [apply direct_in; assumption|left; reflexivity]|exists p; split; [exact H1|right; exact H2]].
Qed.
Lemma recurse_types_total i fuel : i < List.length (graph t) -> List.length (graph t) <= fuel ->
  exists l, recurse_types t fuel i = Some l /\ NoDup l /\ (forall j, In j l <-> subtype t j i) /\ (forall a x b, l = a ++ x :: b -> x = i \/ exists p, inherits t x p /\ In p a).
Proof using T AC.
  intros Hi Hf. destruct (up_total V D t AC i) as (li & Hu). apply (recurse_types_spec fuel i li Hu Hi). inversion Hu; subst; cbn [List.length]; lia.
Qed.

(** *** procedures *)
Section NAME.
Variable name : text.
Notation own_ := (own t name).
Lemma own_visible i : hd_error (own_ i) = visible t i name.
Proof using T.
  unfold own, visible. destruct (procs_of t i name) as [p|] eqn:E; [|reflexivity]. unfold procs_of, node_at in E. destruct (at_n t i) as [n|] eqn:Hn; [|discriminate]. pose proof (wf_procs V D t (td_wf V D t T) i n name p Hn E) as Q.
  destruct (p_values p) as [|v vs]; [congruence|]. replace (List.length (v :: vs)) with (S (List.length vs)) by reflexivity. rewrite seq_S, rev_app_distr. cbn [rev app map hd_error plus]. do 2 f_equal. lia.
Qed.
Lemma own_none i : visible t i name = None -> own_ i = [].
Proof using T. intro H. rewrite <- own_visible in H. destruct (own_ i); [reflexivity|discriminate]. Qed.
Lemma chain_up_list i l : up t i l -> chain t name i (flat_map own_ l).
Proof using Type. induction 1 as [i E|i p l E H IH]; cbn [flat_map]; [rewrite app_nil_r; constructor; exact E|econstructor; eauto]. Qed.
Lemma chain_fun i l l' : chain t name i l -> chain t name i l' -> l = l'.
Proof using Type.
  intro H. revert l'. induction H as [i E|i p rest E H IH]; intros l' H'; inversion H' as [j E'|j q r E' K]; subst; try congruence. f_equal. apply IH. rewrite E in E'. injection E' as <-. exact K.
Qed.
Lemma get_proc_chain i l fuel : chain t name i l -> List.length (graph t) <= fuel -> get_proc t fuel i name = Some (hd_error l).
Proof using T AC.
  intros H Hf. destruct (up_fuel i) as (u & Hu & Hb). assert (l = flat_map own_ u) by (eapply chain_fun; [exact H|apply chain_up_list; exact Hu]). subst l. unfold get_proc. rewrite (search_up V D t _ i u Hu) by lia. f_equal. clear - T.
  induction u as [|j u IH]; [reflexivity|]. cbn [first_of flat_map]. destruct (visible t j name) as [r|] eqn:E; [rewrite <- own_visible in E; destruct (own_ j); [discriminate|exact (eq_sym E)]|]. rewrite (own_none j E). exact IH.
Qed.
Lemma own_split i pre r rest : own_ i = pre ++ r :: rest -> exists k, r = (i, name, k) /\ (rest = [] /\ k = 0 \/ exists k' rest', k = S k' /\ rest = (i, name, k') :: rest').
Proof using Type.
  unfold own. destruct (procs_of t i name) as [p|]; [|destruct pre; discriminate]. generalize (List.length (p_values p)) as n. intro n. revert pre. induction n as [|n IH]; intros pre E; [destruct pre; discriminate|].
  rewrite seq_S, rev_app_distr in E. cbn [plus rev app map] in E. destruct pre as [|x pre].
  - injection E as <- <-. exists n. split; [reflexivity|]. destruct n as [|n]; [left; auto|right]. rewrite seq_S, rev_app_distr. cbn [plus rev app map]. eauto.
  - injection E as _ E. exact (IH pre E).
Qed.
Lemma parent_proc_next i l fuel : chain t name i l -> List.length (graph t) <= fuel -> forall pre r rest, l = pre ++ r :: rest -> parent_proc t fuel r = Some (hd_error rest).
Proof using T AC.
  intros H Hf. induction H as [i E|i p tail E H IH]; intros pre r rest Q.
  - destruct (own_split i pre r rest Q) as (k & -> & [[-> ->]|(k' & rest' & -> & ->)]); cbn [parent_proc]; [rewrite E|]; reflexivity.
  - destruct (app_eq_app _ _ _ _ Q) as (k & [[Ea Eb]|[Ea Eb]]).
    + destruct k as [|k0 k]; cbn [app] in Eb; [exact (IH [] r rest (eq_sym Eb))|]. injection Eb as <- ->. destruct (own_split i pre r k Ea) as (m & -> & [[-> ->]|(k' & rest' & -> & ->)]); cbn [parent_proc app hd_error]; [|reflexivity].
      rewrite E. apply get_proc_chain; assumption.
    + exact (IH k r rest Eb).
Qed.
Lemma call_chain_all i l fuel : chain t name i l -> List.length (graph t) <= fuel -> forall rest pre r, l = pre ++ r :: rest -> forall steps, List.length rest < steps -> call_chain t fuel steps r = Some (r :: rest).
Proof using T AC.
  intros H Hf. induction rest as [|r' rest IH]; intros pre r Q [|steps] Hs; cbn [List.length] in Hs; try lia; cbn [call_chain]; rewrite (parent_proc_next i l fuel H Hf _ _ _ Q); cbn [hd_error]; [reflexivity|].
  rewrite (IH (pre ++ [r]) r'); [reflexivity|rewrite Q, <- app_assoc; reflexivity|lia].
Qed.
End NAME.
End CALLS.
