From Coq Require Import List ZArith Lia Bool FinFun Arith.
From Verif Require Import Dmm.Model Dmm.Spec.
Import ListNotations.
Open Scope Z_scope.

Lemma to_raw2_spec c dy dx r : to_raw2 c (dy, dx) = Some r <->
  in_level dx dy c /\ r = ((dy - Z.to_nat (snd c))%nat, (Z.to_nat (fst c) - 1)%nat).
Proof.
  destruct c as [x y]. unfold to_raw2, in_level; simpl.
  destruct (Z.leb_spec 1 x); destruct (Z.leb_spec x (Z.of_nat dx)); simpl; try (split; [discriminate|lia]).
  destruct (Z.leb_spec 1 y); destruct (Z.leb_spec y (Z.of_nat dy)); simpl; try (split; [discriminate|lia]).
  split; [intros Hx; inversion Hx; split; [lia|reflexivity] | intros [_ ->]; reflexivity].
Qed.

Lemma to_raw3_to_raw2 x y z dz dy dx : to_raw3 (x, y, z) (dz, dy, dx) =
  match to_raw2 (x, y) (dy, dx) with
  | Some (ry, rx) => if (1 <=? z) && (z <=? Z.of_nat dz) then Some ((Z.to_nat z - 1)%nat, ry, rx) else None
  | None => None
  end.
Proof.
  unfold to_raw3, to_raw2. destruct ((1 <=? x) && _); [|reflexivity].
  destruct ((1 <=? y) && _); reflexivity.
Qed.

Lemma raw2_bij dy dx :
  (forall c, in_level dx dy c -> exists r, to_raw2 c (dy, dx) = Some r /\
     (fst r < dy)%nat /\ (snd r < dx)%nat /\ from_raw2 r (dy, dx) = c) /\
  (forall c, ~ in_level dx dy c -> to_raw2 c (dy, dx) = None) /\
  (forall r, (fst r < dy)%nat -> (snd r < dx)%nat ->
     in_level dx dy (from_raw2 r (dy, dx)) /\ to_raw2 (from_raw2 r (dy, dx)) (dy, dx) = Some r).
Proof.
  split; [|split].
  - intros c Hc. eexists. split; [apply to_raw2_spec; split; [exact Hc|reflexivity]|].
    destruct c as [x y]; unfold in_level in Hc; simpl in *. unfold from_raw2; simpl.
    repeat split; try lia. f_equal; lia.
  - intros c Hc. destruct (to_raw2 c (dy, dx)) eqn:E; [|reflexivity].
    apply to_raw2_spec in E as [E _]. contradiction.
  - intros [y x] Hy Hx; cbn [fst snd] in *. unfold from_raw2; cbn [fst snd].
    assert (Hin : in_level dx dy (Z.of_nat x + 1, Z.of_nat dy - Z.of_nat y)) by (unfold in_level; simpl; lia).
    split; [assumption|]. apply to_raw2_spec. split; [assumption|]. cbn [fst snd]. f_equal; lia.
Qed.

Lemma raw3_bij dz dy dx :
  (forall c, in_map dx dy dz c -> exists r, to_raw3 c (dz, dy, dx) = Some r /\
     (fst (fst r) < dz)%nat /\ (snd (fst r) < dy)%nat /\ (snd r < dx)%nat /\
     from_raw3 r (dz, dy, dx) = c) /\
  (forall c, ~ in_map dx dy dz c -> to_raw3 c (dz, dy, dx) = None) /\
  (forall z y x, (z < dz)%nat -> (y < dy)%nat -> (x < dx)%nat ->
     in_map dx dy dz (from_raw3 (z, y, x) (dz, dy, dx)) /\
     to_raw3 (from_raw3 (z, y, x) (dz, dy, dx)) (dz, dy, dx) = Some (z, y, x)).
Proof.
  split; [|split].
  - intros [[x y] z] [H2 Hz]; cbn [fst snd] in *. rewrite to_raw3_to_raw2.
    destruct (proj1 (raw2_bij dy dx) (x, y) H2) as ([ry rx] & -> & H3 & H4 & H5).
    destruct (Z.leb_spec 1 z); [|lia]. destruct (Z.leb_spec z (Z.of_nat dz)); [|lia]. simpl.
    eexists; split; [reflexivity|]. simpl in *. repeat split; try lia.
    unfold from_raw2 in H5; simpl in H5. inversion H5; subst. f_equal. lia.
  - intros [[x y] z] Hn. rewrite to_raw3_to_raw2.
    destruct (to_raw2 (x, y) (dy, dx)) as [[ry rx]|] eqn:E; [|reflexivity].
    apply to_raw2_spec in E as [E _].
    destruct (Z.leb_spec 1 z); destruct (Z.leb_spec z (Z.of_nat dz)); simpl; try reflexivity.
    exfalso. apply Hn. split; [exact E|simpl; lia].
  - intros z y x Hz Hy Hx. unfold from_raw3. rewrite to_raw3_to_raw2.
    destruct (proj2 (proj2 (raw2_bij dy dx)) (y, x) Hy Hx) as [H1 H2]. unfold from_raw2 in *; cbn [fst snd] in *.
    split; [split; [exact H1|simpl; lia]|]. rewrite H2.
    destruct (Z.leb_spec 1 (Z.of_nat z + 1)); [|lia].
    destruct (Z.leb_spec (Z.of_nat z + 1) (Z.of_nat dz)); [|lia]. simpl. do 3 f_equal. lia.
Qed.

Section G.
  Context {A : Type}.

  Lemma nth_error_in_range (l : list A) n : (n < length l)%nat -> exists a, nth_error l n = Some a.
  Proof. intros H. apply nth_error_Some in H. destruct (nth_error l n); [eauto|congruence]. Qed.

  Lemma map_index_total (g : grid3 A) c : grid3_ok g ->
    (map_index g c <> None <->
     let '(dx, dy, dz) := dim_xyz g in in_map dx dy dz c).
  Proof.
    destruct g as [[[dz dy] dx] data]. unfold grid3_ok, map_index, dim_xyz; cbn [g3_dim g3_data].
    intros Hlen. destruct (raw3_bij dz dy dx) as (H1 & H2 & _). split.
    - intros Hne. destruct (to_raw3 c (dz, dy, dx)) as [r|] eqn:E; [|congruence].
      destruct c as [[x y] z]. rewrite to_raw3_to_raw2 in E.
      destruct (to_raw2 (x, y) (dy, dx)) as [[ry rx]|] eqn:E2; [|discriminate].
      apply to_raw2_spec in E2 as [E2 _].
      destruct (Z.leb_spec 1 z); destruct (Z.leb_spec z (Z.of_nat dz)); simpl in E; try discriminate.
      split; [exact E2|simpl; lia].
    - intros Hin. destruct (H1 c Hin) as ([[z y] x] & -> & Hz & Hy & Hx & _). simpl in *.
      unfold index3; cbn [g3_dim g3_data].
      destruct (Nat.ltb_spec z dz); [|lia]. destruct (Nat.ltb_spec y dy); [|lia].
      destruct (Nat.ltb_spec x dx); [|lia]. cbn [andb].
      apply nth_error_Some. rewrite Hlen.
      assert (Hb3 : (z * dy + y + 1 <= dz * dy)%nat).
      { assert ((z + 1) * dy <= dz * dy)%nat by (apply Nat.mul_le_mono_r; lia). lia. }
      assert (Hb4 : ((z * dy + y + 1) * dx <= dz * dy * dx)%nat) by (apply Nat.mul_le_mono_r; lia). lia.
  Qed.

  (** Distinct coordinates are distinct cells. *)
  Lemma to_raw3_inj dim c1 c2 r : to_raw3 c1 dim = Some r -> to_raw3 c2 dim = Some r -> c1 = c2.
  Proof.
    destruct dim as [[dz dy] dx]. destruct (raw3_bij dz dy dx) as (H1 & H2 & _).
    intros E1 E2.
    assert (D : forall c r, to_raw3 c (dz, dy, dx) = Some r -> from_raw3 r (dz, dy, dx) = c).
    { intros c r0 E. destruct c as [[x y] z].
      assert (Hin : in_map dx dy dz (x, y, z)).
      { rewrite to_raw3_to_raw2 in E.
        destruct (to_raw2 (x, y) (dy, dx)) as [[ry rx]|] eqn:E3; [|discriminate].
        apply to_raw2_spec in E3 as [E3 _].
        destruct (Z.leb_spec 1 z); destruct (Z.leb_spec z (Z.of_nat dz)); simpl in E; try discriminate.
        split; [exact E3|simpl; lia]. }
      destruct (H1 _ Hin) as (r' & E' & _ & _ & _ & Hf). congruence. }
    apply D in E1, E2. congruence.
  Qed.

  (** Rows of a row-major array. *)
  Lemma combine_app_l {B C} (l1 l2 : list B) (m1 m2 : list C) : length l1 = length m1 ->
    combine (l1 ++ l2) (m1 ++ m2) = combine l1 m1 ++ combine l2 m2.
  Proof.
    revert m1; induction l1 as [|a l1 IH]; intros [|b m1] H; simpl in *; try discriminate; [reflexivity|].
    rewrite IH by congruence. reflexivity.
  Qed.

  Definition raws (dy dx : nat) := flat_map (fun y => map (fun x => (y, x)) (seq 0 dx)) (seq 0 dy).

  Lemma raws_gen_length s dy dx :
    length (flat_map (fun y => map (fun x : nat => (y, x)) (seq 0 dx)) (seq s dy)) = (dy * dx)%nat.
  Proof.
    revert s; induction dy as [|dy IH]; intros s; simpl; [reflexivity|].
    rewrite app_length, map_length, seq_length, IH. reflexivity.
  Qed.

  Lemma raws_length dy dx : length (raws dy dx) = (dy * dx)%nat.
  Proof. apply raws_gen_length. Qed.

  Lemma raws_gen_nth s dy dx y x : (y < dy)%nat -> (x < dx)%nat ->
    nth_error (flat_map (fun y => map (fun x : nat => (y, x)) (seq 0 dx)) (seq s dy)) (y * dx + x)
    = Some ((s + y)%nat, x).
  Proof.
    revert s y; induction dy as [|dy IH]; intros s y Hy Hx; [lia|]. simpl.
    destruct y as [|y].
    - rewrite nth_error_app1 by (rewrite map_length, seq_length; lia). simpl.
      rewrite nth_error_map. rewrite (nth_error_nth' _ 0%nat) by (rewrite seq_length; lia).
      rewrite seq_nth by lia. simpl. do 2 f_equal. lia.
    - rewrite nth_error_app2 by (rewrite map_length, seq_length; simpl; lia).
      rewrite map_length, seq_length. replace (S y * dx + x - dx)%nat with (y * dx + x)%nat by (simpl; lia).
      rewrite IH by lia. do 2 f_equal. lia.
  Qed.

  Lemma nth_error_combine {B C} (l : list B) (m : list C) n :
    nth_error (combine l m) n =
    match nth_error l n, nth_error m n with Some a, Some b => Some (a, b) | _, _ => None end.
  Proof.
    revert m n; induction l as [|a l IH]; intros [|b m] [|n]; simpl; try reflexivity.
    - destruct (nth_error l n); reflexivity.
    - apply IH.
  Qed.

  Lemma map_fst_combine {B C} (l : list B) (m : list C) : length l = length m -> map fst (combine l m) = l.
  Proof.
    revert m; induction l as [|a l IH]; intros [|b m] H; simpl in *; try discriminate; [reflexivity|].
    rewrite IH by congruence. reflexivity.
  Qed.

  Lemma in_combine_nth {B C} (l : list B) (m : list C) p : In p (combine l m) ->
    exists n, nth_error l n = Some (fst p) /\ nth_error m n = Some (snd p).
  Proof.
    intros H. apply In_nth_error in H as [n H]. rewrite nth_error_combine in H.
    destruct (nth_error l n) eqn:E1; [|discriminate]. destruct (nth_error m n) eqn:E2; [|discriminate].
    inversion H; subst. exists n; auto.
  Qed.

  Lemma nth_raws dy dx n : (n < dy * dx)%nat -> nth_error (raws dy dx) n = Some ((n / dx)%nat, (n mod dx)%nat).
  Proof.
    intros Hn. assert (dx <> 0)%nat by nia.
    pose proof (Nat.div_mod n dx ltac:(assumption)) as E. pose proof (Nat.mod_upper_bound n dx ltac:(assumption)).
    rewrite E at 1. rewrite (Nat.mul_comm dx). unfold raws. rewrite raws_gen_nth; [reflexivity| |assumption].
    apply Nat.div_lt_upper_bound; lia.
  Qed.

  Lemma iter_coords (g : grid2 A) : grid2_ok g ->
    map fst (iter_top_down g) = reading_order (snd (g2_dim g)) (fst (g2_dim g)).
  Proof.
    destruct g as [[dy dx] data]. unfold grid2_ok, iter_top_down, indexed_iter, reading_order.
    cbn [g2_dim g2_data fst snd]. intros Hlen. rewrite map_map. cbn [fst].
    rewrite <- (map_map fst (fun r => from_raw2 r (dy, dx))).
    rewrite map_fst_combine by (rewrite raws_gen_length; lia).
    unfold raws. rewrite flat_map_concat_map, concat_map, map_map, <- flat_map_concat_map.
    apply flat_map_ext. intros row. rewrite map_map. reflexivity.
  Qed.

  Lemma iter_values (g : grid2 A) c k : grid2_ok g -> In (c, k) (iter_top_down g) -> level_index g c = Some k.
  Proof.
    destruct g as [[dy dx] data]. unfold grid2_ok, iter_top_down, indexed_iter.
    cbn [g2_dim g2_data fst snd]. intros Hlen Hin. apply in_map_iff in Hin as ([r k'] & Heq & Hin).
    simpl in Heq. inversion Heq; subst. clear Heq.
    apply in_combine_nth in Hin as (n & H1 & H2). cbn [fst snd] in *.
    assert (Hn : (n < dy * dx)%nat) by (rewrite <- Hlen; apply nth_error_Some; congruence).
    fold (raws dy dx) in H1. rewrite nth_raws in H1 by assumption. inversion H1; subst r. clear H1.
    assert (Hdx : dx <> 0%nat) by nia.
    pose proof (Nat.mod_upper_bound n dx Hdx) as Hm.
    assert (Hd : (n / dx < dy)%nat) by (apply Nat.div_lt_upper_bound; lia).
    unfold level_index. cbn [g2_dim].
    destruct (proj2 (proj2 (raw2_bij dy dx)) (n / dx, n mod dx)%nat Hd Hm) as [_ ->].
    unfold index2. cbn [g2_dim g2_data].
    destruct (Nat.ltb_spec (n / dx) dy); [|lia]. destruct (Nat.ltb_spec (n mod dx) dx); [|lia]. cbn [andb].
    rewrite <- H2. f_equal. rewrite (Nat.div_mod n dx) at 3 by assumption. lia.
  Qed.

  (** Reading order visits each coordinate of the level once. *)
  Lemma reading_order_spec dx dy :
    NoDup (reading_order dx dy) /\ forall c, In c (reading_order dx dy) <-> in_level dx dy c.
  Proof.
    split.
    - unfold reading_order.
      replace (flat_map (fun row => map (fun col => (Z.of_nat col + 1, Z.of_nat dy - Z.of_nat row)) (seq 0 dx)) (seq 0 dy))
        with (map (fun r : nat * nat => (Z.of_nat (snd r) + 1, Z.of_nat dy - Z.of_nat (fst r))) (raws dy dx)).
      + apply Injective_map_NoDup.
        * intros [a b] [c d] H; simpl in H. inversion H. f_equal; lia.
        * apply NoDup_nth_error. intros i j Hi Heq. rewrite raws_length in Hi.
          rewrite (nth_raws dy dx i) in Heq by assumption.
          destruct (Nat.lt_ge_cases j (dy * dx)) as [Hj|Hj].
          -- rewrite (nth_raws dy dx j) in Heq by assumption. inversion Heq as [[E1 E2]].
             assert (dx <> 0)%nat by nia.
             rewrite (Nat.div_mod i dx), (Nat.div_mod j dx) by assumption. congruence.
          -- assert (Hnone : nth_error (raws dy dx) j = None) by (apply nth_error_None; rewrite raws_length; lia).
             congruence.
      + unfold raws. rewrite flat_map_concat_map, concat_map, map_map, <- flat_map_concat_map.
        apply flat_map_ext. intros row. rewrite map_map. reflexivity.
    - intros [x y]. unfold reading_order, in_level; simpl. rewrite in_flat_map. split.
      + intros (row & Hr & Hin). apply in_map_iff in Hin as (col & Heq & Hc). inversion Heq; subst.
        apply in_seq in Hr, Hc. lia.
      + intros [Hx Hy]. exists (dy - Z.to_nat y)%nat. split; [apply in_seq; lia|].
        apply in_map_iff. exists (Z.to_nat x - 1)%nat. split; [f_equal; lia|apply in_seq; lia].
  Qed.

  (** Levels. *)
  Lemma nth_error_firstn {B} (l : list B) n i : (i < n)%nat -> nth_error (firstn n l) i = nth_error l i.
  Proof.
    revert l i; induction n as [|n IH]; intros [|a l] [|i] H; simpl; try lia; try reflexivity. apply IH; lia.
  Qed.
  Lemma nth_error_skipn {B} (l : list B) n i : nth_error (skipn n l) i = nth_error l (n + i).
  Proof. revert l; induction n as [|n IH]; intros [|a l]; simpl; try reflexivity; [destruct i; reflexivity|]. apply IH. Qed.

  Lemma z_level_spec (g : grid3 A) z lvl : grid3_ok g -> z_level g z = Some lvl ->
    let '(dz, dy, dx) := g3_dim g in
    (z < dz)%nat /\ g2_dim lvl = (dy, dx) /\ grid2_ok lvl /\
    forall x y, level_index lvl (x, y) = map_index g (x, y, Z.of_nat z + 1).
  Proof.
    destruct g as [[[dz dy] dx] data]. unfold grid3_ok, z_level; cbn [g3_dim g3_data]. intros Hlen.
    destruct (Nat.ltb_spec z dz) as [Hz|]; [|discriminate]. intros H; inversion H; subst lvl; clear H.
    split; [assumption|]. split; [reflexivity|]. split.
    - unfold grid2_ok; cbn [g2_dim g2_data fst snd]. rewrite firstn_length, skipn_length, Hlen.
      assert ((z + 1) * (dy * dx) <= dz * (dy * dx))%nat by (apply Nat.mul_le_mono_r; lia). lia.
    - intros x y. unfold level_index, map_index; cbn [g2_dim g3_dim]. rewrite to_raw3_to_raw2.
      destruct (to_raw2 (x, y) (dy, dx)) as [[ry rx]|] eqn:E; [|reflexivity].
      destruct (Z.leb_spec 1 (Z.of_nat z + 1)); [|lia].
      destruct (Z.leb_spec (Z.of_nat z + 1) (Z.of_nat dz)); [|lia]. cbn [andb].
      replace (Z.to_nat (Z.of_nat z + 1) - 1)%nat with z by lia.
      unfold index2, index3; cbn [g2_dim g2_data g3_dim g3_data].
      destruct (Nat.ltb_spec z dz); [|lia]. cbn [andb].
      destruct (Nat.ltb_spec ry dy) as [Hry|]; [|reflexivity].
      destruct (Nat.ltb_spec rx dx) as [Hrx|]; [|reflexivity]. cbn [andb].
      assert (H3 : ((ry + 1) * dx <= dy * dx)%nat) by (apply Nat.mul_le_mono_r; lia).
      rewrite nth_error_firstn by lia. rewrite nth_error_skipn. f_equal. ring.
  Qed.

  Lemma iter_levels_spec (g : grid3 A) : grid3_ok g ->
    let '(dz, dy, dx) := g3_dim g in
    map fst (iter_levels g) = map (fun z => Z.of_nat z + 1) (seq 0 dz) /\
    forall z l, In (z, l) (iter_levels g) ->
      exists lvl, l = Some lvl /\ grid2_ok lvl /\ g2_dim lvl = (dy, dx) /\
        forall x y, level_index lvl (x, y) = map_index g (x, y, z).
  Proof.
    intros Hok. unfold iter_levels. pose proof (fun z lvl => z_level_spec g z lvl Hok) as Hl.
    assert (Hsome : forall z, (z < fst (fst (g3_dim g)))%nat -> exists lvl, z_level g z = Some lvl).
    { intros z Hz. unfold z_level. destruct (g3_dim g) as [[dz dy] dx]; simpl in Hz.
      destruct (Nat.ltb_spec z dz); [eauto|lia]. }
    destruct (g3_dim g) as [[dz dy] dx]. cbn [fst] in Hsome.
    split; [rewrite map_map; reflexivity|].
    intros z l Hin. apply in_map_iff in Hin as (n & Heq & Hn). inversion Heq; subst. apply in_seq in Hn.
    destruct (Hsome n) as [lvl El]; [lia|]. exists lvl.
    destruct (Hl n lvl El) as (H1 & H2 & H3 & H4). auto.
  Qed.

  Lemma coords_lemma (g : grid3 A) : grid3_ok g ->
    let '(dx, dy, dz) := dim_xyz g in
    (forall c, map_index g c <> None <-> in_map dx dy dz c) /\
    (forall c1 c2 r, to_raw3 c1 (g3_dim g) = Some r -> to_raw3 c2 (g3_dim g) = Some r -> c1 = c2) /\
    (forall z y x, (z < dz)%nat -> (y < dy)%nat -> (x < dx)%nat ->
       exists c, in_map dx dy dz c /\ to_raw3 c (g3_dim g) = Some (z, y, x) /\
         c = (Z.of_nat x + 1, Z.of_nat dy - Z.of_nat y, Z.of_nat z + 1)) /\
    map fst (iter_levels g) = map (fun z => Z.of_nat z + 1) (seq 0 dz) /\
    (forall z l, In (z, l) (iter_levels g) ->
       exists lvl, l = Some lvl /\
         map fst (iter_top_down lvl) = reading_order dx dy /\
         forall c k, In (c, k) (iter_top_down lvl) ->
           level_index lvl c = Some k /\ map_index g (c, z) = Some k).
  Proof.
    intros Hok. pose proof (map_index_total g) as Htot.
    assert (Hinj := to_raw3_inj (g3_dim g)).
    pose proof (iter_levels_spec g Hok) as Hlev.
    unfold dim_xyz in *. destruct (g3_dim g) as [[dz dy] dx] eqn:Ed.
    split; [intros c; apply (Htot c Hok)|]. split; [exact Hinj|]. split.
    - intros z y x Hz Hy Hx. destruct (proj2 (proj2 (raw3_bij dz dy dx)) z y x Hz Hy Hx) as [H1 H2].
      eexists; split; [exact H1|]. split; [exact H2|reflexivity].
    - destruct Hlev as [Hf Hall]. split; [exact Hf|]. intros z l Hin.
      destruct (Hall z l Hin) as (lvl & -> & Hokl & Hdim & Heq). exists lvl. split; [reflexivity|].
      split; [rewrite iter_coords by assumption; rewrite Hdim; reflexivity|].
      intros [x y] k Hck. assert (Hi : level_index lvl (x, y) = Some k) by (apply iter_values; assumption).
      split; [assumption|]. rewrite <- Heq. assumption.
  Qed.
End G.
