(** C24, C37: editing atoms on a map. *)
From Coq Require Import List Arith NArith Lia Bool Sorting.Permutation Sorting.Sorted.
From Verif Require Import Common.Order Common.Text Objtree.Ispath Editor.Pool Editor.Atoms Editor.AtomProofs.
From Coq Require Import String.
Import ListNotations.
Open Scope nat_scope.

(** what a list of draw calls draws: the texture of every index-buffer entry *)
Definition expand (calls : list (nat * nat)) : list nat := flat_map (fun q => repeat (fst q) (snd q)) calls.

Lemma expand_scale : forall ms, expand (scale ms) = flat_map (fun t => repeat t 6) (expand1 ms).
Proof.
  induction ms as [|[t m] ms IH]; [reflexivity|].
  cbn [scale map expand flat_map fst snd]. rewrite expand1_cons, flat_map_app. fold (scale ms). fold (expand (scale ms)). rewrite IH. f_equal.
  clear. induction m as [|m IH]; [reflexivity|].
  replace (6 * S m) with (6 + 6 * m) by lia. rewrite repeat_add, IH. reflexivity.
Qed.

Section Map.
  Context {P SK V : Type} `{TO : TotalOrd SK} (path_of : P -> text) (bs : list SK -> SK -> search_result).
  Hypothesis Hbs : lawful_search bs.
  Notation atom_map := (atom_map P SK V).
  Notation instance := (instance P).

  Definition level_ok (rp : P -> rpop SK V) (l : level P V) : Prop := exists c rps, inv rp l c /\ drawn rp l rps.
  Definition map_ok (m : atom_map) : Prop := Forall (level_ok (pops m)) (levels m).

  Lemma with_level_some : forall (m m' : atom_map) z l', with_level m z l' = Some m' ->
    size m' = size m /\ pops m' = pops m /\ List.length (levels m') = List.length (levels m) /\ z < List.length (levels m) /\
    (forall z', nth_error (levels m') z' = if z' =? z then Some l' else nth_error (levels m) z').
  Proof.
    intros m m' z l' H. unfold with_level in H. destruct (set_nth z l' (levels m)) as [ls|] eqn:E; [|discriminate].
    cbn in H. injection H as <-. cbn. pose proof (set_nth_some _ _ _ _ E) as Hz. destruct (set_nth_spec _ _ _ _ E) as [A B].
    split; [reflexivity|]. split; [reflexivity|]. split; [exact A|]. split; [exact Hz|]. intro z'. rewrite B.
    destruct (z' =? z); [|reflexivity]. destruct (Nat.ltb_spec z (List.length (levels m))); [reflexivity | lia].
  Qed.
  Lemma with_level_total : forall (m : atom_map) z l l', nth_error (levels m) z = Some l -> exists m', with_level m z l' = Some m'.
  Proof.
    intros m z l l' H. unfold with_level. destruct (set_nth_total (levels m) z l') as [ls ->]; [apply nth_error_Some; congruence|]. eexists. reflexivity.
  Qed.
  Lemma with_level_ok : forall (m m' : atom_map) z l', map_ok m -> level_ok (pops m) l' -> with_level m z l' = Some m' -> map_ok m'.
  Proof.
    intros m m' z l' Hm Hl H. apply with_level_some in H. destruct H as (_ & Hp & _ & _ & Hn). unfold map_ok. rewrite Hp.
    apply Forall_forall. intros l Hin. apply In_nth_error in Hin. destruct Hin as [z' Hz']. rewrite Hn in Hz'.
    destruct (z' =? z); [injection Hz' as <-; exact Hl|]. unfold map_ok in Hm. rewrite Forall_forall in Hm. apply Hm. eapply nth_error_In; eassumption.
  Qed.
  Lemma map_ok_level : forall (m : atom_map) z l, map_ok m -> nth_error (levels m) z = Some l -> level_ok (pops m) l.
  Proof. intros m z l Hm H. unfold map_ok in Hm. rewrite Forall_forall in Hm. apply Hm. eapply nth_error_In; eassumption. Qed.

  Lemma live_contents : forall (m : atom_map) z l c, nth_error (levels m) z = Some l -> wf (instances l) c ->
    forall i, live m z i = option_map fst (c i).
  Proof.
    intros m z l c Hl W i. unfold live. rewrite Hl.
    destruct (find (fun q => fst q =? i) (keys_iter (instances l))) as [[j inst]|] eqn:E.
    - apply find_some in E. destruct E as [Hin He]. cbn in He. apply Nat.eqb_eq in He. subst j.
      apply (keys_iter_In _ c) in Hin; [|exact W]. destruct Hin as [v ->]. reflexivity.
    - destruct (c i) as [[inst v]|] eqn:Ec; [|reflexivity].
      assert (Hin : In (i, inst) (keys_iter (instances l))) by (apply (keys_iter_In _ c); eauto).
      pose proof (find_none _ _ E _ Hin) as Hn. cbn in Hn. rewrite Nat.eqb_refl in Hn. discriminate.
  Qed.

  Lemma refresh_ok : forall (m : atom_map) rp, map_ok m -> exists m', refresh_pops m rp = Some m' /\ map_ok m' /\ pops m' = rp /\
    Forall2 (fun l l' => instances l' = instances l) (levels m) (levels m').
  Proof.
    intros m rp Hm. unfold refresh_pops, map_ok in *.
    assert (G : exists ls, all_some (map (sort_again rp) (levels m)) = Some ls /\ Forall (level_ok rp) ls /\
       Forall2 (fun l l' => instances l' = instances l) (levels m) ls).
    { induction Hm as [|l ls (c & rps & I & _) Hls IH].
      - exists []. cbn. repeat split; constructor.
      - destruct IH as (ls' & E & F & G). destruct (sort_ok (pops m) rp l c I) as (l' & rps' & Es & I' & D' & Hi).
        cbn [map all_some]. rewrite Es, E. exists (l' :: ls'). cbn. split; [reflexivity|]. split; constructor; try assumption.
        exists c, rps'. auto. }
    destruct G as (ls & -> & F & G). cbn. eexists. split; [reflexivity|]. cbn. auto.
  Qed.

  Lemma reachable_ok : forall m, reachable path_of bs m -> map_ok m.
  Proof.
    induction 1 as [sz rp n | m z adds m' R IH E | m x y z p m' i r R IH E | m z i m' o R IH Hl E | m rp m' R IH E | m z l m' R IH Hz E].
    - unfold map_ok. cbn. apply Forall_forall. intros l H. apply repeat_spec in H. subst. exists (fun _ => None), []. apply empty_ok.
    - unfold defer_sort in E. destruct (nth_error (levels m) z) as [l|] eqn:El; [|discriminate].
      destruct (map_ok_level m z l IH El) as (c & rps & I & D). unfold defer_level in E.
      destruct (add_all_ok path_of adds (pops m) l c I) as (l1 & c1 & E1 & I1). rewrite E1 in E.
      destruct (sort_ok (pops m) (pops m) l1 c1 I1) as (l2 & rps2 & E2 & I2 & D2 & _). rewrite E2 in E.
      eapply with_level_ok; [exact IH | | exact E]. exists c1, rps2. auto.
    - unfold add_instance in E. destruct (nth_error (levels m) z) as [l|] eqn:El; [|discriminate].
      destruct (map_ok_level m z l IH El) as (c & rps & I & D).
      destruct (add_ok path_of bs Hbs (pops m) l c rps x y p I D) as (l' & idx & rep & c1 & E1 & _ & _ & I1 & rps1 & D1). rewrite E1 in E.
      destruct (with_level m z l') as [m2|] eqn:Ew; [|discriminate]. cbn in E. injection E as <- _ _.
      eapply with_level_ok; [exact IH | | exact Ew]. eexists _, rps1. eauto.
    - unfold remove_instance_at in E. destruct (nth_error (levels m) z) as [l|] eqn:El; [|discriminate].
      destruct (map_ok_level m z l IH El) as (c & rps & I & D). rewrite (live_contents m z l c El (inv_pool _ _ _ I)) in Hl.
      destruct (remove_ok (pops m) l c rps i I D) as (l' & inst & v & rps1 & E1 & _ & I1 & D1 & _); [intro Hc; rewrite Hc in Hl; contradiction Hl; reflexivity|].
      rewrite E1 in E. destruct (with_level m z l') as [m2|] eqn:Ew; [|discriminate]. cbn in E. injection E as <- _.
      eapply with_level_ok; [exact IH | | exact Ew]. eexists _, rps1. eauto.
    - destruct (refresh_ok m rp IH) as (m2 & E2 & Hm2 & _). rewrite E in E2. injection E2 as <-. exact Hm2.
    - destruct (map_ok_level m z l IH Hz) as (c & rps & I & D). destruct (read_ok (pops m) l c rps I D) as (_ & I1 & D1).
      eapply with_level_ok; [exact IH | | exact E]. exists c, rps. auto.
  Qed.

  Lemma add_effect : forall (m : atom_map) x y z p l, map_ok m -> nth_error (levels m) z = Some l ->
    exists m' idx rep c c1 l', add_instance path_of bs m x y z p = Some (m', idx, rep) /\ wf (instances l) c /\
      added path_of c x y p idx rep c1 /\ (rep = None -> forall j fl, freelist (instances l) = j :: fl -> idx = j) /\
      with_level m z l' = Some m' /\ wf (instances l') (update c1 idx (Some ({| ix := x; iy := y; pop := p |}, rp_vertices (pops m p) (x, y)))).
  Proof.
    intros m x y z p l Hm Hz. destruct (map_ok_level m z l Hm Hz) as (c & rps & I & D).
    destruct (add_ok path_of bs Hbs (pops m) l c rps x y p I D) as (l' & idx & rep & c1 & E1 & A & F & I1 & rps1 & D1).
    destruct (with_level_total m z l l' Hz) as [m' Ew]. exists m', idx, rep, c, c1, l'.
    unfold add_instance. rewrite Hz, E1, Ew. split; [reflexivity|]. split; [apply (inv_pool _ _ _ I)|]. split; [exact A|]. split; [exact F|].
    split; [reflexivity | apply (inv_pool _ _ _ I1)].
  Qed.
  Lemma remove_effect : forall (m : atom_map) z i l, map_ok m -> nth_error (levels m) z = Some l -> live m z i <> None ->
    exists m' inst v c l', remove_instance_at m z i = Some (m', inst) /\ wf (instances l) c /\ c i = Some (inst, v) /\
      with_level m z l' = Some m' /\ wf (instances l') (update c i None) /\ freelist (instances l') = i :: freelist (instances l).
  Proof.
    intros m z i l Hm Hz Hl. destruct (map_ok_level m z l Hm Hz) as (c & rps & I & D). rewrite (live_contents m z l c Hz (inv_pool _ _ _ I)) in Hl.
    destruct (remove_ok (pops m) l c rps i I D) as (l' & inst & v & rps1 & E1 & Hc & I1 & D1 & F); [intro Hc; rewrite Hc in Hl; contradiction Hl; reflexivity|].
    destruct (with_level_total m z l l' Hz) as [m' Ew]. exists m', inst, v, c, l'. unfold remove_instance_at. rewrite Hz, E1, Ew.
    split; [reflexivity|]. split; [apply (inv_pool _ _ _ I)|]. split; [exact Hc|]. split; [reflexivity|]. split; [apply (inv_pool _ _ _ I1) | exact F].
  Qed.

  Lemma live_after : forall (m m' : atom_map) z l l' c c', nth_error (levels m) z = Some l -> with_level m z l' = Some m' ->
    wf (instances l) c -> wf (instances l') c' ->
    (forall i, live m z i = option_map fst (c i)) /\ (forall i, live m' z i = option_map fst (c' i)) /\
    (forall z' i, z' <> z -> live m' z' i = live m z' i) /\ nth_error (levels m') z = Some l'.
  Proof.
    intros m m' z l l' c c' Hz Hw W W'. destruct (with_level_some _ _ _ _ Hw) as (_ & _ & _ & _ & Hn).
    assert (Hz' : nth_error (levels m') z = Some l') by (rewrite Hn, Nat.eqb_refl; reflexivity).
    split; [apply (live_contents m z l c Hz W)|]. split; [apply (live_contents m' z l' c' Hz' W')|]. split; [|exact Hz'].
    intros z' i Hne. unfold live. rewrite Hn. apply Nat.eqb_neq in Hne. rewrite Hne. reflexivity.
  Qed.
End Map.

(** the two triangles of an instance's four vertices 4i .. 4i+3 *)
Definition triangles (i : nat) : list nat := [4 * i; 4 * i + 1; 4 * i + 3; 4 * i + 1; 4 * i + 2; 4 * i + 3].
(** C24, rendering.  On every level of a reachable map: the sorted order lists each live instance
    exactly once, in non-decreasing sort-key order; the draw calls, expanded, give the texture of each
    instance in that order (six indices each), none empty; and the index buffer handed to the GPU is
    that of the sorted order. *)
Theorem C24_render_order : forall (P SK V : Type) (TO : TotalOrd SK) (path_of : P -> text) bs, lawful_search bs ->
  forall (m : atom_map P SK V) z l, reachable path_of bs m -> nth_error (levels m) z = Some l ->
  NoDup (sorted_order l) /\ (forall i, In i (sorted_order l) <-> live m z i <> None) /\
  exists rps, Forall2 (fun i r => exists inst, live m z i = Some inst /\ r = pops m (pop inst)) (sorted_order l) rps /\
    StronglySorted kle (map rp_key rps) /\
    expand (draw_calls l) = flat_map (fun r => repeat (rp_texture r) 6) rps /\
    (forall t n, In (t, n) (draw_calls l) -> 0 < n) /\
    snd (read_index l) = map triangles (sorted_order l).
Proof.
  intros P SK V TO path_of bs Hbs m z l R Hz. pose proof (reachable_ok path_of bs Hbs m R) as Hm.
  destruct (map_ok_level m z l Hm Hz) as (c & rps & I & D).
  pose proof (live_contents m z l c Hz (inv_pool _ _ _ I)) as HL.
  split; [apply (inv_nodup _ _ _ I)|]. split.
  - intro i. rewrite (inv_all _ _ _ I i), HL. destruct (c i) as [[]|]; cbn; split; congruence.
  - destruct D as [D1 D2 (ms & D3 & D4 & D5)]. exists rps. split; [|split; [exact D2|split; [|split]]].
    + assert (Hin : forall i, In i (sorted_order l) -> c i <> None) by (intros; apply (inv_all _ _ _ I); assumption).
      clear -D1 Hin HL I. eapply Forall2_ext_in; [|exact D1]. intros i r Hi H. cbn beta in *.
      destruct (live_pop (pops m) l c i (inv_pool _ _ _ I) (Hin i Hi)) as (inst & v & Ec & _ & Ep). rewrite Ep in H. injection H as <-.
      exists inst. rewrite HL, Ec. auto.
    + rewrite D3, expand_scale, D5, flat_map_concat_map, map_map, <- flat_map_concat_map. reflexivity.
    + intros t n H. rewrite D3 in H. unfold scale in H. apply in_map_iff in H. destruct H as ([t' k] & E & Hin). injection E as <- <-.
      unfold allpos in D4. rewrite Forall_forall in D4. specialize (D4 _ Hin). cbn in *. lia.
    + destruct (read_ok (pops m) l c rps I) as (E & _); [|rewrite E; apply map_ext; intro i; unfold indices, triangles; cbv zeta; rewrite (Nat.mul_comm i 4); reflexivity]. split; [exact D1 | exact D2 | eauto].
Qed.
Print Assumptions C24_render_order.

(** C24, no operation on a reachable map panics. *)
Theorem C24_no_panic : forall (P SK V : Type) (TO : TotalOrd SK) (path_of : P -> text) bs, lawful_search bs ->
  forall (m : atom_map P SK V) z, reachable path_of bs m -> z < List.length (levels m) ->
  (forall x y p, add_instance path_of bs m x y z p <> None) /\
  (forall i, live m z i <> None -> remove_instance_at m z i <> None) /\
  (forall adds, defer_sort m z adds <> None) /\
  (forall rp, refresh_pops m rp <> None) /\
  (forall x y, iter_instances m x y z <> None).
Proof.
  intros P SK V TO path_of bs Hbs m z R Hz. pose proof (reachable_ok path_of bs Hbs m R) as Hm.
  destruct (nth_error (levels m) z) as [l|] eqn:El; [|apply nth_error_None in El; lia].
  destruct (map_ok_level m z l Hm El) as (c & rps & I & D).
  split; [|split; [|split; [|split]]].
  - intros x y p. destruct (add_effect path_of bs Hbs m x y z p l Hm El) as (m' & idx & rep & c0 & c1 & l' & E & _). congruence.
  - intros i Hi. destruct (remove_effect m z i l Hm El Hi) as (m' & inst & v & c0 & l' & E & _). congruence.
  - intros adds. unfold defer_sort, defer_level. rewrite El. destruct (add_all_ok path_of adds (pops m) l c I) as (l1 & c1 & -> & I1).
    destruct (sort_ok (pops m) (pops m) l1 c1 I1) as (l2 & rps2 & -> & _). destruct (with_level_total m z l l2 El) as [m' ->]. discriminate.
  - intro rp. destruct (refresh_ok m rp Hm) as (m2 & -> & _). discriminate.
  - intros x y. unfold iter_instances. rewrite El.
    assert (H : exists insts, all_some (map (get_key (instances l)) (rev (sorted_order l))) = Some insts).
    { assert (Hin : forall i, In i (rev (sorted_order l)) -> c i <> None) by (intros i Hi; apply (inv_all _ _ _ I); apply in_rev; exact Hi).
      induction (rev (sorted_order l)) as [|i so IH]; [exists []; reflexivity|].
      destruct (live_pop (pops m) l c i (inv_pool _ _ _ I) (Hin i (or_introl eq_refl))) as (inst & v & _ & Eg & _).
      destruct IH as [insts E]; [intros; apply Hin; right; assumption|]. cbn [map all_some]. rewrite Eg, E. eexists. reflexivity. }
    destruct H as [insts ->]. discriminate.
Qed.
Print Assumptions C24_no_panic.

(** both are turfs, or both are areas *)
Definition under (root path : text) : Prop := path = root \/ exists r, path = root ++ SLASH :: r.
Definition same_category (p q : text) : Prop :=
  (under (lit "/turf") p /\ under (lit "/turf") q) \/ (under (lit "/area") p /\ under (lit "/area") q).
Lemma ispath_under : forall root path parent, trim_end_matches SLASH parent = root -> ispath path parent = true <-> under root path.
Proof.
  intros root path parent E. unfold ispath. rewrite E. unfold strip_prefix, under. destruct (starts_with root path) eqn:Es.
  - apply starts_with_spec in Es. destruct Es as [r ->]. rewrite skipn_app, skipn_all, Nat.sub_diag. cbn [skipn app]. destruct r as [|c r].
    + rewrite app_nil_r. split; auto.
    + destruct (N.eqb_spec c SLASH) as [->|Hne]; split; auto.
      * intros _. right. exists r. reflexivity.
      * discriminate.
      * intros [H|[r' H]]; exfalso; [rewrite <- (app_nil_r root) in H at 2|]; apply app_inv_head in H; [discriminate | injection H as H _; contradiction].
  - split; [discriminate|]. intros H. exfalso. assert (starts_with root path = true); [|congruence]. apply starts_with_spec.
    destruct H as [->|[r ->]]; [exists []; symmetry; apply app_nil_r | eexists; reflexivity].
Qed.
Lemma not_both : forall p, under (lit "/turf") p -> under (lit "/area") p -> False.
Proof. intros p [->|[r ->]] [H|[r' H]]; vm_compute in H; discriminate. Qed.
Lemma same_category_spec : forall p q, same_category p q <-> exists cat, should_replace p = Some cat /\ ispath q cat = true.
Proof.
  intros p q. pose proof (ispath_under (lit "/turf") p (lit "/turf/") eq_refl) as T1. pose proof (ispath_under (lit "/turf") q (lit "/turf/") eq_refl) as T2.
  pose proof (ispath_under (lit "/area") p (lit "/area/") eq_refl) as A1. pose proof (ispath_under (lit "/area") q (lit "/area/") eq_refl) as A2.
  unfold should_replace, same_category. destruct (ispath p (lit "/turf/")).
  - split; [intros [[H1 H2]|[H1 H2]] | intros (cat & E & H)].
    + exists (lit "/turf/"). split; [reflexivity | apply T2; exact H2].
    + exfalso. eapply not_both; [apply T1; reflexivity | exact H1].
    + assert (cat = lit "/turf/") as -> by congruence. left. split; [apply T1; reflexivity | apply T2; exact H].
  - destruct (ispath p (lit "/area/")).
    + split; [intros [[H1 H2]|[H1 H2]] | intros (cat & E & H)].
      * apply T1 in H1. discriminate.
      * exists (lit "/area/"). split; [reflexivity | apply A2; exact H2].
      * assert (cat = lit "/area/") as -> by congruence. right. split; [apply A1; reflexivity | apply A2; exact H].
    + split; [intros [[H1 H2]|[H1 H2]] | intros (cat & E & H); discriminate]; [apply T1 in H1 | apply A1 in H1]; discriminate.
Qed.

(** C24, contents.  Adding puts the prefab on the tile under a new id and changes nothing else,
    except that a turf (or area) takes the place of the first turf (area) already on the tile, which
    is returned; removing deletes exactly the given instance. *)
Theorem C24_contents : forall (P SK V : Type) (TO : TotalOrd SK) (path_of : P -> text) bs, lawful_search bs ->
  forall (m : atom_map P SK V) z, reachable path_of bs m -> z < List.length (levels m) ->
  (forall x y p, exists m' idx rep, add_instance path_of bs m x y z p = Some (m', idx, rep) /\
     (forall z' i, live m' z' i = if (z' =? z) && (i =? idx) then Some {| ix := x; iy := y; pop := p |} else live m z' i) /\
     live m z idx = rep /\
     match rep with
     | None => forall j inst, live m z j = Some inst -> ix inst = x -> iy inst = y -> ~ same_category (path_of p) (path_of (pop inst))
     | Some old => ix old = x /\ iy old = y /\ same_category (path_of p) (path_of (pop old)) /\
         forall j inst, live m z j = Some inst -> ix inst = x -> iy inst = y -> same_category (path_of p) (path_of (pop inst)) -> idx <= j
     end) /\
  (forall i inst, live m z i = Some inst -> exists m', remove_instance_at m z i = Some (m', inst) /\
     forall z' j, live m' z' j = if (z' =? z) && (j =? i) then None else live m z' j).
Proof.
  intros P SK V TO path_of bs Hbs m z R Hz. pose proof (reachable_ok path_of bs Hbs m R) as Hm.
  destruct (nth_error (levels m) z) as [l|] eqn:El; [|apply nth_error_None in El; lia].
  split.
  - intros x y p. destruct (add_effect path_of bs Hbs m x y z p l Hm El) as (m' & idx & rep & c & c1 & l' & E & W & A & _ & Ew & W').
    destruct (live_after m m' z l l' c _ El Ew W W') as (L1 & L2 & L3 & _).
    exists m', idx, rep. split; [exact E|].
    inversion A as [i0 Hno Hnone | i0 cat inst v Hcat Hc Hx Hy Hp Hmin]; subst rep c1 i0.
    + split; [|split].
      * intros z' i. destruct (Nat.eqb_spec z' z) as [->|Hne]; cbn [andb]; [|apply L3; exact Hne].
        rewrite L2. unfold update. destruct (i =? idx); [reflexivity | symmetry; apply L1].
      * rewrite L1, Hnone. reflexivity.
      * intros j inst Hj X Y HS. apply same_category_spec in HS. destruct HS as (cat & Hcat & HS). rewrite L1 in Hj. destruct (c j) as [[inst0 v]|] eqn:Ec; [|discriminate]. injection Hj as ->.
        rewrite (Hno cat Hcat j inst v Ec X Y) in HS. discriminate.
    + split; [|split].
      * intros z' i. destruct (Nat.eqb_spec z' z) as [->|Hne]; cbn [andb]; [|apply L3; exact Hne].
        rewrite L2. unfold update. destruct (i =? idx); [reflexivity | symmetry; apply L1].
      * rewrite L1, Hc. reflexivity.
      * split; [exact Hx|]. split; [exact Hy|]. split; [apply same_category_spec; exists cat; split; assumption|].
        intros j inst' Hj X Y Z. apply same_category_spec in Z. destruct Z as (cat' & Hcat' & Z). assert (cat' = cat) as -> by congruence. rewrite L1 in Hj. destruct (c j) as [[inst0 v0]|] eqn:Ec; [|discriminate]. injection Hj as ->.
        apply (Hmin j inst' v0 Ec X Y Z).
  - intros i inst Hi. destruct (remove_effect m z i l Hm El) as (m' & inst' & v & c & l' & E & W & Hc & Ew & W' & _); [congruence|].
    destruct (live_after m m' z l l' c _ El Ew W W') as (L1 & L2 & L3 & _).
    rewrite L1, Hc in Hi. injection Hi as ->. exists m'. split; [exact E|].
    intros z' j. destruct (Nat.eqb_spec z' z) as [->|Hne]; cbn [andb]; [|apply L3; exact Hne].
    rewrite L2. unfold update. destruct (j =? i); [reflexivity | symmetry; apply L1].
Qed.
Print Assumptions C24_contents.

(** C24, vertices: the quad of a new instance is the prefab's at its tile; the quads of the others
    are untouched by adding and removing. *)
Definition quad {P SK V} (m : atom_map P SK V) (z i : nat) : option V :=
  match nth_error (levels m) z with Some l => nth_error (values (instances l)) i | None => None end.
Theorem C24_vertices : forall (P SK V : Type) (TO : TotalOrd SK) (path_of : P -> text) bs, lawful_search bs ->
  forall (m : atom_map P SK V) z, reachable path_of bs m -> z < List.length (levels m) ->
  (forall x y p m' idx rep, add_instance path_of bs m x y z p = Some (m', idx, rep) ->
     quad m' z idx = Some (rp_vertices (pops m p) (x, y)) /\
     forall z' i, live m z' i <> None -> (z', i) <> (z, idx) -> quad m' z' i = quad m z' i) /\
  (forall i m' inst, live m z i <> None -> remove_instance_at m z i = Some (m', inst) ->
     forall z' j, live m' z' j <> None -> quad m' z' j = quad m z' j).
Proof.
  intros P SK V TO path_of bs Hbs m z R Hz. pose proof (reachable_ok path_of bs Hbs m R) as Hm.
  destruct (nth_error (levels m) z) as [l|] eqn:El; [|apply nth_error_None in El; lia].
  assert (Q : forall (l0 : level P V) c i inst v, wf (instances l0) c -> c i = Some (inst, v) -> nth_error (values (instances l0)) i = Some v).
  { intros l0 c i inst v W Hc. assert (Hni : ~ In i (freelist (instances l0))) by (intro Hi; destruct (wf_free _ _ W i Hi); congruence).
    pose proof (wf_live _ _ W i Hni) as E. rewrite Hc in E. unfold values. destruct (nth_error (keys _) i); [|discriminate].
    destruct (nth_error (vals _) i); [|discriminate]. congruence. }
  split.
  - intros x y p m1 idx1 rep1 E1.
    destruct (add_effect path_of bs Hbs m x y z p l Hm El) as (m' & idx & rep & c & c1 & l' & E & W & A & _ & Ew & W').
    rewrite E in E1. injection E1 as <- <- <-.
    destruct (live_after m m' z l l' c _ El Ew W W') as (L1 & L2 & L3 & El').
    split; [unfold quad; rewrite El'; eapply Q; [exact W'|]; unfold update; rewrite Nat.eqb_refl; reflexivity|].
    intros z' i Hl Hne. unfold quad. destruct (Nat.eq_dec z' z) as [->|Hz'].
    + rewrite El', El. assert (Hi : i <> idx) by congruence. rewrite L1 in Hl. destruct (c i) as [[inst v]|] eqn:Ec; [|contradiction Hl; reflexivity].
      rewrite (Q l c i inst v W Ec). eapply Q; [exact W'|]. unfold update. apply Nat.eqb_neq in Hi. rewrite Hi.
      inversion A; subst c1; [exact Ec|]. unfold update. rewrite Hi. exact Ec.
    + destruct (with_level_some _ _ _ _ Ew) as (_ & _ & _ & _ & Hn). rewrite Hn. apply Nat.eqb_neq in Hz'. rewrite Hz'. reflexivity.
  - intros i m1 inst1 Hi E1 z' j Hj.
    destruct (remove_effect m z i l Hm El Hi) as (m' & inst' & v & c & l' & E & W & Hc & Ew & W' & _).
    rewrite E in E1. injection E1 as <- <-.
    destruct (live_after m m' z l l' c _ El Ew W W') as (L1 & L2 & L3 & El').
    unfold quad. destruct (Nat.eq_dec z' z) as [->|Hz'].
    + rewrite El', El. rewrite L2 in Hj. unfold update in Hj. destruct (Nat.eqb_spec j i) as [->|Hne]; [contradiction Hj; reflexivity|].
      destruct (c j) as [[inst0 v0]|] eqn:Ec; [|contradiction Hj; reflexivity]. rewrite (Q l c j inst0 v0 W Ec).
      eapply Q; [exact W'|]. unfold update. apply Nat.eqb_neq in Hne. rewrite Hne. exact Ec.
    + destruct (with_level_some _ _ _ _ Ew) as (_ & _ & _ & _ & Hn). rewrite Hn. apply Nat.eqb_neq in Hz'. rewrite Hz'. reflexivity.
Qed.
Print Assumptions C24_vertices.

(** ** C37: undoing instance edits *)
Lemma turf_area_exclusive : forall q, ispath q (lit "/turf/") = true -> ispath q (lit "/area/") = true -> False.
Proof.
  intros q H1 H2. unfold ispath in *.
  change (trim_end_matches SLASH (lit "/turf/")) with (lit "/turf") in H1. change (trim_end_matches SLASH (lit "/area/")) with (lit "/area") in H2.
  destruct (strip_prefix (lit "/turf") q) as [r1|] eqn:E1; [|discriminate]. destruct (strip_prefix (lit "/area") q) as [r2|] eqn:E2; [|discriminate].
  apply strip_prefix_spec in E1, E2. subst q. cbn in E2. discriminate.
Qed.
Lemma same_category_sym : forall p q, same_category p q -> same_category q p.
Proof. unfold same_category. tauto. Qed.
Lemma same_category_trans : forall p q r, same_category p q -> same_category q r -> same_category p r.
Proof. unfold same_category. intros p q r [[H1 H2]|[H1 H2]] [[H3 H4]|[H3 H4]]; auto; exfalso; apply (not_both q); assumption. Qed.

(** C37, additions: undoing an addition right away restores every instance of the map. *)
Theorem C37_undo_add : forall (P SK V : Type) (TO : TotalOrd SK) (path_of : P -> text) bs, lawful_search bs ->
  forall (m : atom_map P SK V) x y z p m1 idx rep, reachable path_of bs m -> add_instance path_of bs m x y z p = Some (m1, idx, rep) ->
  exists m2, undo_add_instance path_of bs m1 z idx rep = Some m2 /\ forall z' i, live m2 z' i = live m z' i.
Proof.
  intros P SK V TO path_of bs Hbs m x y z p m1 idx rep R E.
  assert (R1 : reachable path_of bs m1) by (eapply r_add; eassumption).
  assert (Hz : z < List.length (levels m)).
  { unfold add_instance in E. destruct (nth_error (levels m) z) eqn:El; [apply nth_error_Some; congruence | discriminate]. }
  destruct (C24_contents P SK V TO path_of bs Hbs m z R Hz) as [HA _].
  destruct (HA x y p) as (m1' & idx' & rep' & E' & L & Lold & Hrep). rewrite E in E'. injection E' as <- <- <-.
  assert (Hz1 : z < List.length (levels m1)).
  { unfold add_instance in E. destruct (nth_error (levels m) z) as [l|]; [|discriminate]. destruct (add_level _ _ _ _ _ _ _) as [[[l' ?] ?]|]; [|discriminate].
    destruct (with_level m z l') as [m'|] eqn:Ew; [|discriminate]. cbn in E. injection E as <- _ _. apply with_level_some in Ew. lia. }
  destruct (C24_contents P SK V TO path_of bs Hbs m1 z R1 Hz1) as [HA1 HR1].
  destruct rep as [old|]; cbn [undo_add_instance].
  - destruct Hrep as (X & Y & Hcat & Hmin). pose proof (same_category_sym _ _ Hcat) as Hcat'.
    destruct (HA1 (ix old) (iy old) (pop old)) as (m2 & idx2 & rep2 & E2 & L2 & Lold2 & Hrep2).
    rewrite E2. exists m2. split; [reflexivity|].
    assert (Hthere : live m1 z idx = Some {| ix := x; iy := y; pop := p |}) by (rewrite L, !Nat.eqb_refl; reflexivity).
    assert (idx2 = idx) as ->.
    { destruct rep2 as [r2|].
      - destruct Hrep2 as (X2 & Y2 & Hcat2 & Hmin2).
        assert (idx2 <= idx) by (apply (Hmin2 idx _ Hthere); cbn; auto).
        destruct (Nat.eq_dec idx2 idx) as [|Hne]; [assumption|].
        assert (idx <= idx2); [|lia].
        rewrite L in Lold2. apply Nat.eqb_neq in Hne. rewrite Nat.eqb_refl, Hne in Lold2. cbn [andb] in Lold2.
        apply (Hmin idx2 r2 Lold2); [congruence | congruence | eapply same_category_trans; eassumption].
      - contradiction (Hrep2 idx _ Hthere (eq_sym X) (eq_sym Y) Hcat'). }
    intros z' i. rewrite L2, L. destruct (Nat.eqb_spec z' z) as [->|]; cbn [andb]; [|reflexivity].
    destruct (Nat.eqb_spec i idx) as [->|]; [|reflexivity]. rewrite Lold. destruct old; reflexivity.
  - assert (Hthere : live m1 z idx = Some {| ix := x; iy := y; pop := p |}) by (rewrite L, !Nat.eqb_refl; reflexivity).
    destruct (HR1 idx _ Hthere) as (m2 & E2 & L2). rewrite E2. exists m2. split; [reflexivity|].
    intros z' i. rewrite L2, L. destruct (Nat.eqb_spec z' z) as [->|]; cbn [andb]; [|reflexivity].
    destruct (Nat.eqb_spec i idx) as [->|]; [symmetry; exact Lold | reflexivity].
Qed.
Print Assumptions C37_undo_add.

(** C37, removals (partial): undoing a removal right away restores every instance, under the same
    id, provided the removed turf (area) was the only turf (area) of its tile. *)
Theorem C37_undo_remove_partial : forall (P SK V : Type) (TO : TotalOrd SK) (path_of : P -> text) bs, lawful_search bs ->
  forall (m : atom_map P SK V) z i old m1, reachable path_of bs m -> live m z i = Some old -> remove_instance_at m z i = Some (m1, old) ->
  (forall j inst, j <> i -> live m z j = Some inst -> ix inst = ix old -> iy inst = iy old ->
     ~ same_category (path_of (pop old)) (path_of (pop inst))) ->
  exists m2, undo_remove_instance path_of bs m1 z old = Some m2 /\ forall z' j, live m2 z' j = live m z' j.
Proof.
  intros P SK V TO path_of bs Hbs m z i old m1 R Hi E Honly.
  assert (R1 : reachable path_of bs m1) by (eapply r_remove; [exact R | | exact E]; congruence).
  pose proof (reachable_ok path_of bs Hbs m R) as Hm. pose proof (reachable_ok path_of bs Hbs m1 R1) as Hm1.
  destruct (nth_error (levels m) z) as [l|] eqn:El; [|unfold live in Hi; rewrite El in Hi; discriminate].
  destruct (remove_effect m z i l Hm El) as (m' & inst' & v & c & l' & E' & W & Hc & Ew & W' & F); [congruence|].
  rewrite E in E'. injection E' as <- <-.
  destruct (live_after m m1 z l l' c _ El Ew W W') as (L1 & L2 & L3 & El').
  destruct (add_effect path_of bs Hbs m1 (ix old) (iy old) z (pop old) l' Hm1 El') as (m2 & idx & rep & c2 & c3 & l2 & E2 & W2 & A & Hfirst & Ew2 & W3).
  destruct (live_after m1 m2 z l' l2 c2 _ El' Ew2 W2 W3) as (L4 & L5 & L6 & _).
  unfold undo_remove_instance. rewrite E2. exists m2. split; [reflexivity|].
  inversion A as [i0 Hno Hnone | i0 cat inst v0 Hcat Hc0 Hx Hy Hp Hmin]; subst rep c3 i0.
  - rewrite (Hfirst eq_refl _ _ F) in *. intros z' j. destruct (Nat.eq_dec z' z) as [->|Hne]; [|rewrite L6, L3 by exact Hne; reflexivity].
    rewrite L5. unfold update. destruct (Nat.eqb_spec j i) as [->|Hj].
    + rewrite Hi. destruct old; reflexivity.
    + rewrite <- L4, L2. unfold update. apply Nat.eqb_neq in Hj. rewrite Hj. symmetry. apply L1.
  - exfalso. assert (Hl : live m1 z idx = Some inst) by (rewrite L4, Hc0; reflexivity).
    rewrite L2 in Hl. unfold update in Hl. destruct (Nat.eqb_spec idx i) as [->|Hne]; [discriminate|].
    rewrite <- L1 in Hl. apply (Honly idx inst Hne Hl Hx Hy). apply same_category_spec. exists cat. split; assumption.
Qed.
Print Assumptions C37_undo_remove_partial.

(** ** concrete maps *)
#[global] Instance nat_ord : TotalOrd nat := {
  kcmp := Nat.compare;
  kcmp_eq := fun x y => Nat.compare_eq_iff x y;
  kcmp_opp := fun x y => Nat.compare_antisym x y;
  kcmp_trans := fun x y z => ltac:(rewrite !Nat.compare_lt_iff; apply Nat.lt_trans) }.

(** a lawful search: the first position not below the key *)
Fixpoint linear_search (i : nat) (l : list nat) (k : nat) : search_result :=
  match l with
  | [] => Missing i
  | x :: l' => if x =? k then Found i else if k <? x then Missing i else linear_search (S i) l' k
  end.
Lemma linear_lawful : lawful_search (linear_search 0).
Proof.
  assert (G : forall l i k, StronglySorted kle l -> match linear_search i l k with
     | Found j => i <= j /\ nth_error l (j - i) = Some k
     | Missing j => i <= j /\ j - i <= List.length l /\ Forall (fun x => klt x k) (firstn (j - i) l) /\ Forall (klt k) (skipn (j - i) l) end).
  { induction l as [|x l IH]; intros i k Hs; cbn [linear_search].
    - rewrite Nat.sub_diag. repeat split; try lia; constructor.
    - inversion Hs as [|? ? Hs1 Hs2]; subst. destruct (Nat.eqb_spec x k) as [->|Hne]; [rewrite Nat.sub_diag; auto|].
      destruct (Nat.ltb_spec k x) as [L|L].
      + rewrite Nat.sub_diag. cbn [firstn skipn]. split; [lia|]. split; [lia|]. split; [constructor|].
        constructor; [apply Nat.compare_lt_iff; exact L|]. rewrite Forall_forall in *. intros y Hy. specialize (Hs2 y Hy).
        unfold kle, kcmp, nat_ord in Hs2. apply Nat.compare_lt_iff. rewrite Nat.compare_gt_iff in Hs2. lia.
      + specialize (IH (S i) k Hs1). destruct (linear_search (S i) l k) as [j|j].
        * destruct IH as [H1 H2]. split; [lia|]. replace (j - i) with (S (j - S i)) by lia. exact H2.
        * destruct IH as (H1 & H2 & H3 & H4). split; [lia|]. replace (j - i) with (S (j - S i)) by lia. cbn [List.length firstn skipn].
          split; [lia|]. split; [|exact H4]. constructor; [|exact H3]. apply Nat.compare_lt_iff. lia. }
  intros l k Hs. specialize (G l 0 k Hs). destruct (linear_search 0 l k) as [j|j]; rewrite Nat.sub_0_r in G; tauto.
Qed.

(** prefabs named by their path; layer and texture from a code *)
Definition demo_pops : text * nat -> rpop nat nat := fun p => {| rp_key := snd p; rp_texture := snd p; rp_vertices := fun q => fst q + snd p |}.
Definition demo_map : atom_map (text * nat) nat nat := {| size := (5, 5); pops := demo_pops; levels := repeat empty_level 1 |}.
Definition demo_add x y p (m : option (atom_map (text * nat) nat nat)) :=
  match m with Some m => option_map (fun q => fst (fst q)) (add_instance fst (linear_search 0) m x y 0 p) | None => None end.
Definition demo_remove i (m : option (atom_map (text * nat) nat nat)) :=
  match m with Some m => option_map fst (remove_instance_at m 0 i) | None => None end.

Example C24_demo :
  let m := demo_add 1 1 (lit "/obj/b", 5) (demo_add 1 1 (lit "/obj", 7) (demo_add 0 0 (lit "/obj/a", 5) (demo_add 1 1 (lit "/obj", 3) (Some demo_map)))) in
  option_map (fun m => map (fun l => (sorted_order l, draw_calls l)) (levels m)) m = Some [([0; 3; 1; 2], [(3, 6); (5, 12); (7, 6)])].
Proof. reflexivity. Qed.

(** Refuted clause (get_instance): after an instance is removed, the highest live index can be
    reported missing, because the bound is the number of live instances. *)
Definition or_demo (m : option (atom_map (text * nat) nat nat)) := match m with Some m => m | None => demo_map end.
Definition gi1 := Eval vm_compute in or_demo (demo_add 0 0 (lit "/obj", 3) (Some demo_map)).
Definition gi2 := Eval vm_compute in or_demo (demo_add 1 1 (lit "/obj", 7) (Some gi1)).
Definition gi3 := Eval vm_compute in or_demo (demo_remove 0 (Some gi2)).
Theorem C24_get_instance_refuted : exists m : atom_map (text * nat) nat nat, reachable fst (linear_search 0) m /\
  live m 0 1 <> None /\ get_instance m 0 1 = Some None.
Proof.
  exists gi3. split; [|split; [vm_compute; discriminate | vm_compute; reflexivity]].
  apply (r_remove fst (linear_search 0) gi2 0 0 gi3 {| ix := 0; iy := 0; pop := (lit "/obj", 3) |}).
  - apply (r_add fst (linear_search 0) gi1 1 1 0 (lit "/obj", 7) gi2 1 None).
    + apply (r_add fst (linear_search 0) demo_map 0 0 0 (lit "/obj", 3) gi1 0 None).
      * exact (r_new fst (linear_search 0) (5, 5) demo_pops 1).
      * vm_compute. reflexivity.
    + vm_compute. reflexivity.
  - vm_compute. discriminate.
  - vm_compute. reflexivity.
Qed.
Print Assumptions C24_get_instance_refuted.

(** ... but what it returns is right, and it finds every live instance below the number of live ones *)
Theorem C24_get_instance_partial : forall (P SK V : Type) (TO : TotalOrd SK) (path_of : P -> text) bs, lawful_search bs ->
  forall (m : atom_map P SK V) z l i, reachable path_of bs m -> nth_error (levels m) z = Some l ->
  (forall inst, get_instance m z i = Some (Some inst) -> live m z i = Some inst) /\
  (i < List.length (sorted_order l) -> get_instance m z i = Some (live m z i)).
Proof.
  intros P SK V TO path_of bs Hbs m z l i R Hz. pose proof (reachable_ok path_of bs Hbs m R) as Hm.
  destruct (map_ok_level m z l Hm Hz) as (c & rps & I & D). pose proof (inv_pool _ _ _ I) as W.
  rewrite (live_contents m z l c Hz W). unfold get_instance. rewrite Hz.
  assert (Hlen : len (instances l) = List.length (sorted_order l)).
  { rewrite (len_count _ c W), <- (map_length fst (keys_iter (instances l))). apply Permutation_length, NoDup_Permutation.
    - rewrite keys_iter_fst. apply NoDup_filter, seq_NoDup.
    - apply (inv_nodup _ _ _ I).
    - intro j. rewrite (inv_all _ _ _ I j), in_map_iff. split.
      + intros ([j' inst] & <- & Hin). apply (keys_iter_In _ c) in Hin; [|exact W]. destruct Hin as [v Hv]. cbn. congruence.
      + intro Hj. destruct (c j) as [[inst v]|] eqn:Ec; [|contradiction]. exists (j, inst). split; [reflexivity|]. apply (keys_iter_In _ c); eauto. }
  assert (Hget : mem i (freelist (instances l)) = false -> forall inst, get_key (instances l) i = Some inst -> exists v, c i = Some (inst, v)).
  { intros Hf inst Hg. assert (Hni : ~ In i (freelist (instances l))) by (intro H; apply mem_In in H; congruence).
    pose proof (wf_live _ _ W i Hni) as E. unfold get_key in Hg. rewrite Hg in E. destruct (nth_error (vals (instances l)) i) as [v|] eqn:Ev; [eauto|].
    apply nth_error_None in Ev. pose proof (wf_len _ _ W). assert (i < List.length (keys (instances l))) by (apply nth_error_Some; congruence). lia. }
  split.
  - intros inst H. destruct ((len (instances l) <=? i) || mem i (freelist (instances l))) eqn:Eb; [discriminate|].
    apply orb_false_iff in Eb. destruct Eb as [_ Hf]. destruct (get_key (instances l) i) as [inst0|] eqn:Eg; [|discriminate]. cbn in H. injection H as <-.
    destruct (Hget Hf inst0 eq_refl) as [v ->]. reflexivity.
  - intro Hi. rewrite Hlen. destruct (Nat.leb_spec (List.length (sorted_order l)) i) as [|_]; [lia|]. cbn [orb].
    destruct (mem i (freelist (instances l))) eqn:Em.
    + apply mem_In in Em. destruct (wf_free _ _ W i Em) as [_ ->]. reflexivity.
    + destruct (get_key (instances l) i) as [inst|] eqn:Eg.
      * destruct (Hget eq_refl inst eq_refl) as [v ->]. reflexivity.
      * unfold get_key in Eg. apply nth_error_None in Eg. rewrite <- Hlen in Hi. unfold len in Hi. lia.
Qed.
Print Assumptions C24_get_instance_partial.

(** Refuted clause (C37): with two turfs on a tile, removing one and undoing destroys the other. *)
Definition tt1 := Eval vm_compute in or_demo (defer_sort demo_map 0 [(0, 0, (lit "/turf/a", 1)); (0, 0, (lit "/turf/b", 2))]).
Definition tt2 := Eval vm_compute in or_demo (demo_remove 0 (Some tt1)).
Definition tt3 := Eval vm_compute in or_demo (undo_remove_instance fst (linear_search 0) tt2 0 {| ix := 0; iy := 0; pop := (lit "/turf/a", 1) |}).
Theorem C37_undo_remove_refuted : exists (m m1 m2 : atom_map (text * nat) nat nat) old,
  reachable fst (linear_search 0) m /\ live m 0 0 = Some old /\ live m 0 1 = Some {| ix := 0; iy := 0; pop := (lit "/turf/b", 2) |} /\
  remove_instance_at m 0 0 = Some (m1, old) /\ undo_remove_instance fst (linear_search 0) m1 0 old = Some m2 /\
  live m2 0 1 = Some old /\ live m2 0 0 = None.
Proof.
  exists tt1, tt2, tt3, {| ix := 0; iy := 0; pop := (lit "/turf/a", 1) |}. split; [|repeat split; vm_compute; reflexivity].
  apply (r_defer fst (linear_search 0) demo_map 0 [(0, 0, (lit "/turf/a", 1)); (0, 0, (lit "/turf/b", 2))] tt1).
  - exact (r_new fst (linear_search 0) (5, 5) demo_pops 1).
  - vm_compute. reflexivity.
Qed.
Print Assumptions C37_undo_remove_refuted.
