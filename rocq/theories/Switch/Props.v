(** C21: the switch(rand()) check. *)
From Coq Require Import List ZArith QArith Qround Lia Bool Permutation.
From Verif Require Import Switch.Model Switch.Spec.
Import ListNotations.
Open Scope Z_scope.

(** ** rounding *)
Lemma ceil_le : forall q n, Qceiling q <= n <-> (q <= inject_Z n)%Q.
Proof.
  intros q n. split; intro H.
  - apply Qle_trans with (inject_Z (Qceiling q)); [apply Qle_ceiling | rewrite <- Zle_Qle; exact H].
  - apply Qceiling_resp_le in H. rewrite Qceiling_Z in H. exact H.
Qed.
Lemma le_floor : forall q n, n <= Qfloor q <-> (inject_Z n <= q)%Q.
Proof.
  intros q n. split; intro H.
  - apply Qle_trans with (inject_Z (Qfloor q)); [rewrite <- Zle_Qle; exact H | apply Qfloor_le].
  - apply Qfloor_resp_le in H. rewrite Qfloor_Z in H. exact H.
Qed.

(** strictly inside i32, rounding then comparing is comparing *)
Lemma ceil_spec : forall x n, x <> NaN -> I32_MIN < n < I32_MAX -> (ceil_i32 x <= n <-> f_le x n).
Proof.
  intros x n Hx Hn. destruct x as [q| | |]; cbn [ceil_i32 f_le]; [|lia|split; [tauto | lia]|contradiction].
  rewrite <- ceil_le. unfold saturate, I32_MIN, I32_MAX in *. lia.
Qed.
Lemma floor_spec : forall x n, x <> NaN -> I32_MIN < n < I32_MAX -> (n <= floor_i32 x <-> le_f n x).
Proof.
  intros x n Hx Hn. destruct x as [q| | |]; cbn [floor_i32 le_f]; [|split; [tauto | lia]|lia|contradiction].
  rewrite <- le_floor. unfold saturate, I32_MIN, I32_MAX in *. lia.
Qed.

Lemma in_range_ceil : forall x, in_range x -> I32_MIN < ceil_i32 x <= I32_MAX.
Proof.
  intros [q| | |] H; try contradiction. destruct H as [H1 H2]. cbn [ceil_i32].
  assert (A : Qceiling q <= I32_MAX) by (apply ceil_le, Qlt_le_weak; exact H2).
  assert (B : I32_MIN < Qceiling q).
  { rewrite Zlt_Qlt. eapply Qlt_le_trans; [exact H1 | apply Qle_ceiling]. }
  unfold saturate, I32_MIN, I32_MAX in *. lia.
Qed.
Lemma in_range_floor : forall x, in_range x -> I32_MIN <= floor_i32 x < I32_MAX.
Proof.
  intros [q| | |] H; try contradiction. destruct H as [H1 H2]. cbn [floor_i32].
  assert (A : I32_MIN <= Qfloor q) by (apply le_floor, Qlt_le_weak; exact H1).
  assert (B : Qfloor q < I32_MAX).
  { rewrite Zlt_Qlt. eapply Qle_lt_trans; [apply Qfloor_le | exact H2]. }
  unfold saturate, I32_MIN, I32_MAX in *. lia.
Qed.
Lemma below_max_floor : forall x, below_max x -> floor_i32 x <> I32_MAX.
Proof.
  intros [q| | |] H; try contradiction; cbn [floor_i32]; [|discriminate].
  assert (B : Qfloor q < I32_MAX).
  { rewrite Zlt_Qlt. eapply Qle_lt_trans; [apply Qfloor_le | exact H]. }
  unfold saturate, I32_MIN, I32_MAX in *. lia.
Qed.
Lemma in_range_not_nan : forall x, in_range x -> x <> NaN.
Proof. intros x H ->. exact H. Qed.
Lemma below_max_not_nan : forall x, below_max x -> x <> NaN.
Proof. intros x H ->. exact H. Qed.

(** ** sorting *)
Fixpoint sorted_start (l : list (Z * Z)) : Prop :=
  match l with
  | [] => True
  | x :: l' => (forall y, In y l' -> fst x <= fst y) /\ sorted_start l'
  end.

Lemma insert_in : forall x l y, In y (insert_by_start x l) <-> y = x \/ In y l.
Proof.
  intros x l y. induction l as [|z l IH]; cbn [insert_by_start]; [cbn; intuition congruence|].
  destruct (fst x <=? fst z); cbn [In]; [intuition congruence|]. rewrite IH. tauto.
Qed.
Lemma insert_sorted : forall x l, sorted_start l -> sorted_start (insert_by_start x l).
Proof.
  intros x l. induction l as [|z l IH]; intro H; cbn [insert_by_start]; [cbn; tauto|].
  destruct H as [H1 H2]. destruct (Z.leb_spec (fst x) (fst z)) as [L|L]; cbn [sorted_start].
  - split; [|split; assumption]. intros y [<-|Hy]; [exact L|]. specialize (H1 y Hy). lia.
  - split; [|apply IH; exact H2]. intros y Hy. apply insert_in in Hy. destruct Hy as [->|Hy]; [lia | auto].
Qed.
Lemma sort_in : forall l y, In y (sort_by_start l) <-> In y l.
Proof.
  induction l as [|x l IH]; intro y; cbn [sort_by_start fold_right]; [tauto|].
  fold (sort_by_start l). rewrite insert_in, IH. cbn. intuition congruence.
Qed.
Lemma sort_sorted : forall l, sorted_start (sort_by_start l).
Proof.
  induction l as [|x l IH]; cbn [sort_by_start fold_right]; [exact I|]. apply insert_sorted, IH.
Qed.

(** ** the sweep finds the least uncovered integer *)
Lemma sweep_spec : forall l fu, sorted_start l ->
  (forall r, In r l -> snd r <> I32_MAX) ->
  exists u, sweep fu l = Some u /\ fu <= u /\
    (forall n, fu <= n < u -> exists r, In r l /\ fst r <= n <= snd r) /\
    (forall r, In r l -> ~ (fst r <= u <= snd r)).
Proof.
  induction l as [|[s e] l IH]; intros fu Hs Hm; cbn [sweep].
  - exists fu. split; [reflexivity|]. split; [lia|]. split; [intros; lia|]. intros r [].
  - destruct Hs as [H1 H2]. cbn [fst] in H1. destruct (Z.ltb_spec fu s) as [L|L].
    + exists fu. split; [reflexivity|]. split; [lia|]. split; [intros; lia|].
      intros r [<-|Hr]; cbn [fst snd]; [lia|]. specialize (H1 r Hr). lia.
    + pose proof (Hm (s, e) (or_introl eq_refl)) as He. cbn [snd] in He.
      destruct (Z.eqb_spec e I32_MAX) as [|_]; [contradiction|].
      destruct (IH (Z.max fu (e + 1)) H2) as (u & E & Hu & Hc & Hn); [intros; apply Hm; right; assumption|].
      exists u. split; [exact E|]. split; [lia|]. split.
      * intros n Hn'. destruct (Z_lt_le_dec n (Z.max fu (e + 1))) as [Ln|Ln].
        -- exists (s, e). split; [left; reflexivity|]. cbn [fst snd]. lia.
        -- destruct (Hc n ltac:(lia)) as (r & Hr & Hrn). exists r. split; [right; exact Hr | exact Hrn].
      * intros r [<-|Hr]; cbn [fst snd]; [lia | auto].
Qed.

(** ** the first loop *)
Lemma classify_pushed : forall rs re cases i r, In r (fst (classify rs re i cases)) <->
  exists c lo hi, In c cases /\ get_case_range c = Some (lo, hi) /\ r = (ceil_i32 lo, floor_i32 hi) /\
    fst r <= re /\ rs <= snd r.
Proof.
  induction cases as [|c cs IH]; intros i r; cbn [classify].
  - cbn. split; [tauto|]. intros (c & _ & _ & [] & _).
  - specialize (IH (S i) r). destruct (classify rs re (S i) cs) as [pushed reported]. cbn [fst] in IH.
    destruct (get_case_range c) as [[lo hi]|] eqn:Ec.
    + destruct (Z.leb_spec (ceil_i32 lo) re) as [L1|L1]; destruct (Z.leb_spec rs (floor_i32 hi)) as [L2|L2];
        cbn [andb fst In]; rewrite IH; split.
      * intros [<-|(c' & lo' & hi' & H1 & H2)]; [exists c, lo, hi; auto 10 | exists c', lo', hi'; auto].
      * intros (c' & lo' & hi' & [<-|H1] & H2 & H3 & H4); [left; congruence | right; exists c', lo', hi'; auto].
      * intros (c' & lo' & hi' & H1 & H2); exists c', lo', hi'; auto.
      * intros (c' & lo' & hi' & [<-|H1] & H2 & H3 & H4); [|exists c', lo', hi'; auto].
        rewrite Ec in H2. injection H2 as <- <-. subst r. cbn [fst snd] in H4. lia.
      * intros (c' & lo' & hi' & H1 & H2); exists c', lo', hi'; auto.
      * intros (c' & lo' & hi' & [<-|H1] & H2 & H3 & H4); [|exists c', lo', hi'; auto].
        rewrite Ec in H2. injection H2 as <- <-. subst r. cbn [fst snd] in H4. lia.
      * intros (c' & lo' & hi' & H1 & H2); exists c', lo', hi'; auto.
      * intros (c' & lo' & hi' & [<-|H1] & H2 & H3 & H4); [|exists c', lo', hi'; auto].
        rewrite Ec in H2. injection H2 as <- <-. subst r. cbn [fst snd] in H4. lia.
    + cbn [fst]. rewrite IH. split.
      * intros (c' & lo' & hi' & H1 & H2); exists c', lo', hi'; cbn; auto.
      * intros (c' & lo' & hi' & [<-|H1] & H2 & H3 & H4); [congruence | exists c', lo', hi'; auto].
Qed.

Lemma classify_reported : forall rs re cases i j r, In (j, r) (snd (classify rs re i cases)) <->
  exists c lo hi, (i <= j)%nat /\ nth_error cases (j - i) = Some c /\ get_case_range c = Some (lo, hi) /\
    r = (ceil_i32 lo, floor_i32 hi) /\ (re < fst r \/ snd r < rs).
Proof.
  induction cases as [|c cs IH]; intros i j r; cbn [classify].
  - cbn. split; [tauto|]. intros (c & lo & hi & _ & H & _). destruct (j - i)%nat; discriminate.
  - specialize (IH (S i) j r). destruct (classify rs re (S i) cs) as [pushed reported]. cbn [snd] in IH.
    assert (Htail : (exists c' lo hi, (S i <= j)%nat /\ nth_error cs (j - S i) = Some c' /\ get_case_range c' = Some (lo, hi) /\
              r = (ceil_i32 lo, floor_i32 hi) /\ (re < fst r \/ snd r < rs)) <->
           (exists c' lo hi, (S i <= j)%nat /\ nth_error (c :: cs) (j - i) = Some c' /\ get_case_range c' = Some (lo, hi) /\
              r = (ceil_i32 lo, floor_i32 hi) /\ (re < fst r \/ snd r < rs))).
    { split; intros (c' & lo & hi & H1 & H2 & H3); exists c', lo, hi; (split; [exact H1|]); (split; [|exact H3]).
      - replace (j - i)%nat with (S (j - S i)) by lia. exact H2.
      - replace (j - i)%nat with (S (j - S i)) in H2 by lia. exact H2. }
    assert (Hhead : nth_error (c :: cs) (i - i) = Some c) by (rewrite Nat.sub_diag; reflexivity).
    destruct (get_case_range c) as [[lo hi]|] eqn:Ec.
    + set (ok := (ceil_i32 lo <=? re) && (rs <=? floor_i32 hi)).
      assert (Hok : ok = true <-> ceil_i32 lo <= re /\ rs <= floor_i32 hi).
      { unfold ok. rewrite andb_true_iff, !Z.leb_le. tauto. }
      destruct ok; cbn [snd In].
      * rewrite IH, Htail. split; intros (c' & lo' & hi' & H1 & H2 & H3 & H4 & H5); exists c', lo', hi'.
        -- split; [lia|]. auto.
        -- split; [|auto]. destruct (Nat.eq_dec i j) as [<-|]; [|lia].
           rewrite Hhead in H2. injection H2 as <-. rewrite Ec in H3. injection H3 as <- <-. subst r.
           cbn [fst snd] in H5. destruct Hok as [Hok _]. specialize (Hok eq_refl). lia.
      * rewrite IH, Htail. split.
        -- intros [E|(c' & lo' & hi' & H1 & H2)].
           ++ injection E as <- <-. exists c, lo, hi. split; [lia|]. split; [exact Hhead|]. split; [exact Ec|].
              split; [reflexivity|]. cbn [fst snd].
              destruct (Z_lt_le_dec re (ceil_i32 lo)); [left; assumption|].
              destruct (Z_lt_le_dec (floor_i32 hi) rs); [right; assumption|].
              destruct Hok as [_ Hok]. discriminate (Hok (conj l l0)).
           ++ exists c', lo', hi'. split; [lia|]. exact H2.
        -- intros (c' & lo' & hi' & H1 & H2 & H3 & H4 & H5). destruct (Nat.eq_dec i j) as [<-|Hne].
           ++ left. rewrite Hhead in H2. injection H2 as <-. rewrite Ec in H3. injection H3 as <- <-. congruence.
           ++ right. exists c', lo', hi'. split; [lia|]. auto.
    + cbn [snd]. rewrite IH, Htail. split; intros (c' & lo' & hi' & H1 & H2 & H3 & H4); exists c', lo', hi'.
      * split; [lia|]. auto.
      * split; [|auto]. destruct (Nat.eq_dec i j) as [<-|]; [|lia].
        rewrite Hhead in H2. injection H2 as <-. congruence.
Qed.

Lemma range_of_triggers : forall c lo hi n, get_case_range c = Some (lo, hi) ->
  (triggers c n <-> f_le lo n /\ le_f n hi).
Proof.
  intros [[v|]|[l|] [h|]] lo hi n H; try discriminate; injection H as <- <-; reflexivity.
Qed.
Lemma no_range_no_trigger : forall c n, get_case_range c = None -> ~ triggers c n.
Proof. intros [[v|]|[l|] [h|]] n H; try discriminate; intros []. Qed.
Lemma range_values : forall c lo hi, get_case_range c = Some (lo, hi) -> In lo (case_values c) /\ In hi (case_values c) /\ upper c = Some hi.
Proof.
  intros [[v|]|[l|] [h|]] lo hi H; try discriminate; injection H as <- <-; cbn; tauto.
Qed.

Lemma rand_range_spec : forall args rs re, (forall v, In (Some v) args -> in_range v) ->
  get_rand_range args = Some (rs, re) ->
  (forall n, rand_returns args n <-> rs <= n <= re) /\ I32_MIN < rs /\ re < I32_MAX.
Proof.
  intros args rs re Hin H. unfold get_rand_range in H.
  assert (Z0 : ceil_i32 (Fin 0) = 0) by reflexivity.
  destruct args as [|[a|] [|[b|] [|c l]]]; try discriminate; injection H as <- <-.
  - specialize (Hin a (or_introl eq_refl)). pose proof (in_range_floor a Hin) as Hf. change (saturate (Qceiling 0)) with 0.
    split; [|unfold I32_MIN in *; lia]. intro n. cbn [rand_returns].
    destruct (Z_lt_le_dec n I32_MAX) as [Ln|Ln]; destruct (Z_lt_le_dec I32_MIN n) as [Lm|Lm].
    + rewrite <- (floor_spec a n (in_range_not_nan _ Hin)) by lia. reflexivity.
    + unfold I32_MIN in *. split; intros [A B]; lia.
    + split; intros [A B]; [|lia]. destruct a as [q| | |]; try contradiction. cbn [le_f in_range] in *.
      exfalso. destruct Hin as [_ H2]. assert ((inject_Z n < inject_Z I32_MAX)%Q) by (eapply Qle_lt_trans; eassumption).
      rewrite <- Zlt_Qlt in H. lia.
    + unfold I32_MIN, I32_MAX in *. lia.
  - pose proof (Hin a (or_introl eq_refl)) as Ha. pose proof (Hin b (or_intror (or_introl eq_refl))) as Hb.
    pose proof (in_range_ceil a Ha) as Hc. pose proof (in_range_floor b Hb) as Hf.
    split; [|lia]. intro n. cbn [rand_returns].
    destruct (Z_lt_le_dec n I32_MAX) as [Ln|Ln]; destruct (Z_lt_le_dec I32_MIN n) as [Lm|Lm].
    + rewrite <- (floor_spec b n (in_range_not_nan _ Hb)) by lia.
      rewrite <- (ceil_spec a n (in_range_not_nan _ Ha)) by lia. reflexivity.
    + split; intros [A B]; [|lia]. exfalso. destruct a as [q| | |]; try contradiction. cbn [f_le in_range] in *.
      destruct Ha as [H1 _]. assert ((inject_Z I32_MIN < inject_Z n)%Q) by (eapply Qlt_le_trans; eassumption).
      rewrite <- Zlt_Qlt in H. lia.
    + split; intros [A B]; [|lia]. exfalso. destruct b as [q| | |]; try contradiction. cbn [le_f in_range] in *.
      destruct Hb as [_ H2]. assert ((inject_Z n < inject_Z I32_MAX)%Q) by (eapply Qle_lt_trans; eassumption).
      rewrite <- Zlt_Qlt in H. lia.
    + unfold I32_MIN, I32_MAX in *. lia.
Qed.

(** C21, coverage.  When the rand bounds lie inside i32 and the case bounds are numbers whose upper
    ends lie below i32::MAX, the check completes; without a default branch it names the least value
    that rand can return and no case with known bounds matches, if there is one, and with a default
    branch it never names one. *)
Theorem C21_gap_exact : forall args cases has_default,
  (forall v, In (Some v) args -> in_range v) ->
  (forall c v, In c cases -> In v (case_values c) -> v <> NaN) ->
  (forall c v, In c cases -> upper c = Some v -> below_max v) ->
  (get_rand_range args <> None) ->
  exists rep, check_switch_rand_range args cases has_default = Some rep /\
    (forall n, gap rep = Some n <->
       has_default = false /\
       (rand_returns args n /\ forall c, In c cases -> ~ triggers c n) /\
       (forall m, m < n -> ~ (rand_returns args m /\ forall c, In c cases -> ~ triggers c m))).
Proof.
  intros args cases has_default Ha Hc Hu Hr.
  unfold check_switch_rand_range.
  destruct (get_rand_range args) as [[rs re]|] eqn:Er; [|contradiction].
  destruct (rand_range_spec args rs re Ha Er) as (Hret & Hrs & Hre).
  pose proof (classify_pushed rs re cases 0) as Hp.
  destruct (classify rs re 0 cases) as [pushed reported]. cbn [fst] in Hp.
  destruct has_default.
  { eexists. split; [reflexivity|]. cbn [gap]. intro n. split; [discriminate | intros [H _]; discriminate]. }
  destruct (sweep_spec (sort_by_start pushed) rs (sort_sorted pushed)) as (u & E & Hle & Hcov & Hun).
  { intros r Hin. apply sort_in, Hp in Hin. destruct Hin as (c & lo & hi & Hcin & Hg & -> & _).
    cbn [snd]. apply below_max_floor. apply (Hu c); [exact Hcin|]. apply (range_values c lo hi Hg). }
  rewrite E. eexists. split; [reflexivity|]. cbn [gap].
  (* a value of the range is matched by a case exactly when a pushed range covers it *)
  assert (Hmatch : forall n, rs <= n <= re -> ((exists c, In c cases /\ triggers c n) <->
            exists r, In r (sort_by_start pushed) /\ fst r <= n <= snd r)).
  { intros n Hn. split.
    - intros (c & Hcin & Ht). destruct (get_case_range c) as [[lo hi]|] eqn:Eg.
      2:{ contradiction (no_range_no_trigger c n Eg Ht). }
      apply (range_of_triggers c lo hi n Eg) in Ht. destruct Ht as [T1 T2].
      destruct (range_values c lo hi Eg) as (V1 & V2 & _).
      apply (ceil_spec lo n (Hc c lo Hcin V1) ltac:(lia)) in T1.
      apply (floor_spec hi n (Hc c hi Hcin V2) ltac:(lia)) in T2.
      exists (ceil_i32 lo, floor_i32 hi). cbn [fst snd]. split; [|lia].
      apply sort_in, Hp. exists c, lo, hi. cbn [fst snd]. split; [exact Hcin|]. split; [exact Eg|]. split; [reflexivity|]. lia.
    - intros (r & Hr' & Hrn). apply sort_in, Hp in Hr'.
      destruct Hr' as (c & lo & hi & Hcin & Eg & -> & _). cbn [fst snd] in Hrn.
      destruct (range_values c lo hi Eg) as (V1 & V2 & _).
      exists c. split; [exact Hcin|]. apply (range_of_triggers c lo hi n Eg). split.
      + apply (ceil_spec lo n (Hc c lo Hcin V1)); lia.
      + apply (floor_spec hi n (Hc c hi Hcin V2)); lia. }
  assert (Hsplit : forall n, rs <= n <= re ->
            (forall c, In c cases -> ~ triggers c n) <->
            ~ exists r, In r (sort_by_start pushed) /\ fst r <= n <= snd r).
  { intros n Hn. rewrite <- (Hmatch n Hn). split.
    - intros H (c & Hcin & Ht). exact (H c Hcin Ht).
    - intros H c Hcin Ht. apply H. exists c. auto. }
  assert (Hbad : u <= re -> rand_returns args u /\ forall c, In c cases -> ~ triggers c u).
  { intro Hure. split; [apply Hret; lia|]. apply Hsplit; [lia|]. intros (r & Hr' & Hrn). exact (Hun r Hr' Hrn). }
  assert (Hlow : forall m, m < u -> ~ (rand_returns args m /\ forall c, In c cases -> ~ triggers c m)).
  { intros m Hm [Hm1 Hm2]. apply Hret in Hm1. apply (Hsplit m Hm1) in Hm2. apply Hm2. apply Hcov. lia. }
  intro n. destruct (Z.leb_spec u re) as [L|L].
  - split.
    + intro H. injection H as <-. split; [reflexivity|]. split; [apply Hbad; exact L | exact Hlow].
    + intros (_ & Hn1 & Hn2). f_equal.
      destruct (Z.lt_trichotomy u n) as [T|[T|T]]; [|exact T|].
      * contradiction (Hn2 u T (Hbad L)).
      * contradiction (Hlow n T Hn1).
  - split; [discriminate|]. intros (_ & Hn1 & _). exfalso. apply (Hlow n); [|exact Hn1].
    destruct Hn1 as [Hn1 _]. apply Hret in Hn1. lia.
Qed.
Print Assumptions C21_gap_exact.

(** C21, dead cases (partial: the converse needs the case to contain an integer).  A case reported as
    never triggering matches no value rand can return; a case that contains some i32 integer but
    none that rand can return is reported. *)
Theorem C21_never_partial : forall args cases has_default rep,
  (forall v, In (Some v) args -> in_range v) ->
  (forall c v, In c cases -> In v (case_values c) -> v <> NaN) ->
  get_rand_range args <> None ->
  check_switch_rand_range args cases has_default = Some rep ->
  (forall j r, In (j, r) (never rep) -> exists c, nth_error cases j = Some c /\
     forall n, rand_returns args n -> ~ triggers c n) /\
  ((exists n, rand_returns args n) ->
   forall j c n, nth_error cases j = Some c -> I32_MIN < n < I32_MAX -> triggers c n ->
     (forall m, rand_returns args m -> ~ triggers c m) -> exists r, In (j, r) (never rep)).
Proof.
  intros args cases has_default rep Ha Hc Hr H. unfold check_switch_rand_range in H.
  destruct (get_rand_range args) as [[rs re]|] eqn:Er; [|contradiction].
  destruct (rand_range_spec args rs re Ha Er) as (Hret & Hrs & Hre).
  pose proof (classify_reported rs re cases 0) as Hp.
  destruct (classify rs re 0 cases) as [pushed reported]. cbn [snd] in Hp.
  assert (Hnev : never rep = reported).
  { destruct has_default; [injection H as <-; reflexivity|].
    destruct (sweep rs (sort_by_start pushed)); [injection H as <-; reflexivity | discriminate]. }
  rewrite Hnev. split.
  - intros j r Hj. apply Hp in Hj. destruct Hj as (c & lo & hi & _ & Hn & Hg & -> & Ho).
    rewrite Nat.sub_0_r in Hn. exists c. split; [exact Hn|]. intros n Hn' Ht. apply Hret in Hn'.
    apply (range_of_triggers c lo hi n Hg) in Ht. destruct Ht as [T1 T2].
    destruct (range_values c lo hi Hg) as (V1 & V2 & _).
    pose proof (nth_error_In _ _ Hn) as Hcin.
    apply (ceil_spec lo n (Hc c lo Hcin V1)) in T1; [|lia].
    apply (floor_spec hi n (Hc c hi Hcin V2)) in T2; [|lia].
    cbn [fst snd] in Ho. lia.
  - intros Hne j c n Hn Hnr Ht Hno.
    pose proof (nth_error_In _ _ Hn) as Hcin.
    destruct (get_case_range c) as [[lo hi]|] eqn:Hg; [|contradiction (no_range_no_trigger c n Hg Ht)].
    exists (ceil_i32 lo, floor_i32 hi). apply Hp. exists c, lo, hi. rewrite Nat.sub_0_r.
    split; [lia|]. split; [exact Hn|]. split; [exact Hg|]. split; [reflexivity|]. cbn [fst snd].
    apply (range_of_triggers c lo hi n Hg) in Ht. destruct Ht as [T1 T2].
    destruct (range_values c lo hi Hg) as (V1 & V2 & _).
    apply (ceil_spec lo n (Hc c lo Hcin V1)) in T1; [|lia].
    apply (floor_spec hi n (Hc c hi Hcin V2)) in T2; [|lia].
    destruct (Z_lt_le_dec re (ceil_i32 lo)); [left; assumption|].
    destruct (Z_lt_le_dec (floor_i32 hi) rs); [right; assumption|]. exfalso.
    destruct Hne as [n0 Hn0]. apply Hret in Hn0.
    apply (Hno (Z.max rs (ceil_i32 lo))); [apply Hret; lia|].
    apply (range_of_triggers c lo hi _ Hg). split.
    + apply (ceil_spec lo _ (Hc c lo Hcin V1)); lia.
    + apply (floor_spec hi _ (Hc c hi Hcin V2)); lia.
Qed.
Print Assumptions C21_never_partial.

(** Refuted: a case that contains no integer at all (here 1.5) never triggers, yet is not
    reported. *)
Theorem C21_never_refuted :
  exists args cases rep,
    check_switch_rand_range args cases true = Some rep /\ never rep = [] /\
    (exists n, rand_returns args n) /\
    forall c, In c cases -> get_case_range c <> None /\ forall n, ~ triggers c n.
Proof.
  exists [Some (Fin 0); Some (Fin 5)], [Exact (Some (Fin (3 # 2)))]. eexists.
  split; [vm_compute; reflexivity|]. split; [reflexivity|]. split.
  { exists 2. split; vm_compute; discriminate. }
  intros c [<-|[]]. split; [discriminate|]. intros n [H1 H2].
  cbn [f_le le_f] in *. apply ceil_le in H1. apply le_floor in H2.
  change (Qceiling (3 # 2)) with 2 in H1. change (Qfloor (3 # 2)) with 1 in H2. lia.
Qed.
Print Assumptions C21_never_refuted.

(** The hypothesis on upper ends matters: a case reaching i32::MAX overflows [end + 1]. *)
Theorem C21_overflow :
  check_switch_rand_range [Some (Fin 1); Some (Fin 5)] [Range (Some (Fin 1)) (Some (Fin (10000000000 # 1)))] false = None.
Proof. vm_compute. reflexivity. Qed.
Print Assumptions C21_overflow.

Example C21_demo :
  check_switch_rand_range [Some (Fin 1); Some (Fin 10)]
    [Range (Some (Fin 5)) (Some (Fin 7)); Exact (Some (Fin 1)); Exact None; Range (Some (Fin (5 # 2))) (Some (Fin 4));
     Exact (Some (Fin 12))] false
  = Some {| never := [(4%nat, (12, 12))]; gap := Some 2 |} /\
  check_switch_rand_range [Some (Fin 3)] [Range (Some (Fin 0)) (Some (Fin 2)); Exact (Some (Fin 3))] false
  = Some {| never := []; gap := None |}.
Proof. split; vm_compute; reflexivity. Qed.
