From Coq Require Import List ZArith Lia Bool Ascii String.
From Verif Require Import Dmm.Model Dmm.Spec.
Import ListNotations.
Open Scope Z_scope.
Local Ltac Zify.zify_post_hook ::= Z.div_mod_to_equations.

(** ** Letters *)
Lemma base_52_letter c : base_52_reverse c = if (97 <=? Z.of_N (N_of_ascii c)) && (Z.of_N (N_of_ascii c) <=? 122)
    || (65 <=? Z.of_N (N_of_ascii c)) && (Z.of_N (N_of_ascii c) <=? 90) then Some (letter_value c) else None.
Proof.
  unfold base_52_reverse, letter_value. set (n := Z.of_N (N_of_ascii c)). cbn zeta.
  destruct (Z.leb_spec 97 n); destruct (Z.leb_spec n 122); destruct (Z.leb_spec 65 n); destruct (Z.leb_spec n 90);
    cbn [andb orb]; try reflexivity; try (exfalso; lia); try (f_equal; lia).
Qed.

Lemma base_52_some c d : base_52_reverse c = Some d <-> is_letter c /\ d = letter_value c.
Proof.
  rewrite base_52_letter. unfold is_letter. cbn zeta. set (n := Z.of_N (N_of_ascii c)).
  destruct (Z.leb_spec 97 n); destruct (Z.leb_spec n 122); destruct (Z.leb_spec 65 n); destruct (Z.leb_spec n 90);
    cbn [andb orb]; (split; [try discriminate|]); try (intros Hx; inversion Hx; subst; split; [lia|reflexivity]);
    intros [H3 H4]; subst; try reflexivity; exfalso; lia.
Qed.

Lemma letter_range c : is_letter c -> 0 <= letter_value c < 52.
Proof. unfold is_letter, letter_value; cbn zeta. intros H. destruct (Z.leb_spec (Z.of_N (N_of_ascii c)) 90); lia. Qed.

Lemma BASE_52_nth d : 0 <= d < 52 ->
  exists c, nth_error BASE_52 (Z.to_nat d) = Some c /\ is_letter c /\ letter_value c = d.
Proof.
  intros Hd.
  assert (Hall : forallb (fun n => match nth_error BASE_52 n with
            | Some c => ((97 <=? Z.of_N (N_of_ascii c)) && (Z.of_N (N_of_ascii c) <=? 122) ||
                         (65 <=? Z.of_N (N_of_ascii c)) && (Z.of_N (N_of_ascii c) <=? 90)) &&
                        (letter_value c =? Z.of_nat n)
            | None => false end) (seq 0 52) = true) by (vm_compute; reflexivity).
  rewrite forallb_forall in Hall. specialize (Hall (Z.to_nat d)).
  destruct (nth_error BASE_52 (Z.to_nat d)) as [c|]; [|discriminate Hall; apply in_seq; lia].
  exists c. split; [reflexivity|]. 
  assert (Hin : In (Z.to_nat d) (seq 0 52)) by (apply in_seq; lia). specialize (Hall Hin).
  rewrite andb_true_iff, orb_true_iff, !andb_true_iff, !Z.leb_le, Z.eqb_eq in Hall.
  unfold is_letter. cbn zeta. split; [tauto|]. lia.
Qed.

(** ** Reading *)
Lemma word_value_nonneg s : Forall is_letter s -> 0 <= word_value s.
Proof.
  induction 1 as [|c s Hc Hs IH]; simpl; [lia|].
  pose proof (letter_range c Hc). pose proof (Z.pow_nonneg 52 (Z.of_nat (List.length s)) ltac:(lia)). nia.
Qed.

Lemma word_value_bound s : Forall is_letter s -> word_value s < 52 ^ Z.of_nat (List.length s).
Proof.
  induction 1 as [|c s Hc Hs IH]; [simpl; lia|]. cbn [word_value List.length].
  rewrite Nat2Z.inj_succ, Z.pow_succ_r by lia.
  pose proof (letter_range c Hc). pose proof (Z.pow_nonneg 52 (Z.of_nat (List.length s)) ltac:(lia)). nia.
Qed.

Lemma read_key_from_spec s : forall cur v, 0 <= cur <= KEY_MAX ->
  (read_key_from cur s = Some v <->
   Forall is_letter s /\ v = cur * 52 ^ Z.of_nat (List.length s) + word_value s /\ v <= KEY_MAX).
Proof.
  induction s as [|c s IH]; intros cur v Hcur.
  - simpl. split.
    + intros H; inversion H; subst. split; [constructor|lia].
    + intros (_ & -> & _). f_equal. lia.
  - cbn [read_key_from]. destruct (base_52_reverse c) as [d|] eqn:Ed.
    + apply base_52_some in Ed as [Hc ->]. pose proof (letter_range c Hc) as Hd.
      unfold advance_key.
      assert (Hpow : 0 < 52 ^ Z.of_nat (List.length s)) by (apply Z.pow_pos_nonneg; lia).
      assert (Hstep : cur * 52 ^ Z.of_nat (List.length (c :: s)) + word_value (c :: s) =
                      (cur * 52 + letter_value c) * 52 ^ Z.of_nat (List.length s) + word_value s).
      { cbn [List.length word_value]. rewrite Nat2Z.inj_succ, Z.pow_succ_r by lia. ring. }
      rewrite Hstep.
      destruct (Z.ltb_spec KEY_MAX (cur * 52)) as [Hov|Hok1].
      { split; [discriminate|]. intros (Hl & -> & Hle). inversion Hl; subst.
        pose proof (word_value_nonneg s ltac:(assumption)). exfalso.
        assert ((cur * 52 + letter_value c) * 1 <= (cur * 52 + letter_value c) * 52 ^ Z.of_nat (List.length s))
          by (apply Z.mul_le_mono_nonneg_l; lia). lia. }
      destruct (Z.ltb_spec KEY_MAX (cur * 52 + letter_value c)) as [Hov|Hok2].
      { split; [discriminate|]. intros (Hl & -> & Hle). inversion Hl; subst.
        pose proof (word_value_nonneg s ltac:(assumption)). exfalso.
        assert ((cur * 52 + letter_value c) * 1 <= (cur * 52 + letter_value c) * 52 ^ Z.of_nat (List.length s))
          by (apply Z.mul_le_mono_nonneg_l; lia). lia. }
      rewrite IH by lia. split.
      * intros (Hl & -> & Hle). split; [constructor; assumption|]. auto.
      * intros (Hl & -> & Hle). inversion Hl; subst. auto.
    + split; [discriminate|]. intros (Hl & _). inversion Hl; subst.
      assert (base_52_reverse c = Some (letter_value c)) by (apply base_52_some; auto). congruence.
Qed.

Lemma read_key_lemma s v :
  read_key s = Some v <-> Forall is_letter s /\ v = word_value s /\ v <= KEY_MAX.
Proof. unfold read_key. rewrite read_key_from_spec by (unfold KEY_MAX; lia). rewrite Z.mul_0_l, Z.add_0_l. reflexivity. Qed.

(** ** Formatting *)
Lemma format_digits_spec n : forall key, 0 <= key ->
  exists s, format_digits n (52 ^ (Z.of_nat n - 1)) key = Some s /\ List.length s = n /\
    Forall is_letter s /\ word_value s = key mod 52 ^ Z.of_nat n.
Proof.
  induction n as [|n IH]; intros key Hkey.
  - exists []. simpl. repeat split; [constructor|]. rewrite Z.mod_1_r. reflexivity.
  - cbn [format_digits].
    replace (Z.of_nat (S n) - 1) with (Z.of_nat n) by lia.
    assert (Hpow : 0 < 52 ^ Z.of_nat n) by (apply Z.pow_pos_nonneg; lia).
    destruct (BASE_52_nth ((key / 52 ^ Z.of_nat n) mod 52)) as (c & -> & Hc & Hv).
    { apply Z.mod_pos_bound. lia. }
    destruct n as [|n].
    + exists [c]. cbn [format_digits List.length word_value]. repeat split; [auto|].
      cbn in Hv |- *. rewrite Z.div_1_r in Hv. rewrite Hv. lia.
    + replace (52 ^ Z.of_nat (S n) / 52) with (52 ^ (Z.of_nat (S n) - 1)).
      * destruct (IH key Hkey) as (s & -> & Hlen & Hl & Hw).
        exists (c :: s). cbn [List.length word_value]. repeat split; [congruence|auto|].
        rewrite Hlen, Hw, Hv. rewrite Nat2Z.inj_succ with (n := S n).
        rewrite Z.pow_succ_r by lia. rewrite (Z.mul_comm 52).
        rewrite Z.rem_mul_r by lia. ring.
      * replace (Z.of_nat (S n)) with (Z.succ (Z.of_nat n)) by lia.
        rewrite Z.pow_succ_r by lia. replace (Z.succ (Z.of_nat n) - 1) with (Z.of_nat n) by lia.
        rewrite Z.mul_comm, Z.div_mul by lia. reflexivity.
Qed.

Lemma pow52_big len : 3 <= len -> KEY_MAX < 52 ^ len.
Proof.
  intros H. apply Z.lt_le_trans with (52 ^ 3); [reflexivity|]. apply Z.pow_le_mono_r; lia.
Qed.

Lemma format_key_lemma len key : 1 <= len <= 12 -> 0 <= key <= KEY_MAX ->
  (format_key len key <> None <-> fits len key) /\
  (forall s, format_key len key = Some s ->
     Z.of_nat (List.length s) = len /\ Forall is_letter s /\ word_value s = key /\ read_key s = Some key).
Proof.
  intros Hlen Hkey. unfold format_key, fits.
  assert (Hcase : forall s, format_digits (Z.to_nat len) (52 ^ (len - 1)) key = Some s -> fits len key ->
     Z.of_nat (List.length s) = len /\ Forall is_letter s /\ word_value s = key /\ read_key s = Some key).
  { intros s Hs Hfit. destruct (format_digits_spec (Z.to_nat len) key) as (s' & Hs' & Hl & Hf & Hw); [lia|].
    rewrite Z2Nat.id in Hs', Hw by lia. rewrite Hs' in Hs; inversion Hs; subst s'.
    rewrite Z.mod_small in Hw by exact Hfit.
    split; [lia|]. split; [assumption|]. split; [assumption|].
    apply read_key_lemma. split; [assumption|]. split; [congruence|lia]. }
  assert (H64 : (2 ^ 64 <=? 52 ^ (len - 1)) = false).
  { apply Z.leb_gt. apply Z.le_lt_trans with (52 ^ 11); [apply Z.pow_le_mono_r; lia|]. reflexivity. }
  assert (H1 : (len <? 1) = false) by (apply Z.ltb_ge; lia).
  rewrite H64, H1.
  destruct (Z.ltb_spec len MAX_KEY_LENGTH) as [Hlt|Hge]; unfold MAX_KEY_LENGTH in *.
  - destruct (Z.leb_spec (52 ^ len) key) as [Hbig|Hsmall]; cbn [andb].
    + split; [|discriminate]. split; [congruence|lia].
    + split; [|intros s Hs; apply Hcase; [assumption|unfold fits; lia]].
      split; [lia|]. intros _.
      destruct (format_digits_spec (Z.to_nat len) key) as (s' & Hs' & _); [lia|].
      rewrite Z2Nat.id in Hs' by lia. rewrite Hs'. discriminate.
  - cbn [andb]. pose proof (pow52_big len Hge) as Hbig.
    split; [|intros s Hs; apply Hcase; [assumption|unfold fits; lia]].
    split; [lia|]. intros _.
    destruct (format_digits_spec (Z.to_nat len) key) as (s' & Hs' & _); [lia|].
    rewrite Z2Nat.id in Hs' by lia. rewrite Hs'. discriminate.
Qed.

Lemma format_key_inj len k1 k2 s : 1 <= len <= 12 -> 0 <= k1 <= KEY_MAX -> 0 <= k2 <= KEY_MAX ->
  format_key len k1 = Some s -> format_key len k2 = Some s -> k1 = k2.
Proof.
  intros Hl H1 H2 E1 E2.
  apply (format_key_lemma len k1 Hl H1) in E1 as (_ & _ & E1 & _).
  apply (format_key_lemma len k2 Hl H2) in E2 as (_ & _ & E2 & _). congruence.
Qed.

(** ** adjust_key_length *)
Lemma fold_max_spec ks : forall k, (forall x, In x (k :: ks) -> x <= fold_left Z.max ks k) /\
  In (fold_left Z.max ks k) (k :: ks).
Proof.
  induction ks as [|a ks IH]; intros k; simpl.
  - split; [intros x [<-|[]]; lia|auto].
  - destruct (IH (Z.max k a)) as [H1 H2]. split.
    + intros x [<-|[<-|Hx]].
      * etransitivity; [|apply H1; left; reflexivity]. lia.
      * etransitivity; [|apply H1; left; reflexivity]. lia.
      * apply H1; right; assumption.
    + destruct H2 as [H2|H2]; [|auto]. rewrite <- H2.
      destruct (Z.max_spec k a) as [[_ ->]|[_ ->]]; auto.
Qed.

Lemma adjust_lemma old keys : keys <> [] -> (forall k, In k keys -> 0 <= k <= KEY_MAX) ->
  let len := adjust_key_length old keys in
  1 <= len <= 3 /\
  (forall k, In k keys -> format_key len k <> None) /\
  (forall len', len' < len -> exists k, In k keys /\ format_key len' k = None).
Proof.
  intros Hne Hk. destruct keys as [|k0 ks]; [congruence|]. cbn zeta. unfold adjust_key_length.
  destruct (fold_max_spec ks k0) as [Hub Hin]. set (mx := fold_left Z.max ks k0) in *.
  cbn zeta.
  assert (Hzero : forall len', len' < 1 -> exists k, In k (k0 :: ks) /\ format_key len' k = None).
  { intros len' Hl. exists k0. split; [left; reflexivity|]. unfold format_key, MAX_KEY_LENGTH.
    destruct (Z.ltb_spec len' 3); [|lia]. destruct (Z.leb_spec (52 ^ len') k0); [reflexivity|].
    cbn [andb]. destruct (Z.ltb_spec len' 1); [reflexivity|lia]. }
  assert (Hfit : forall len, 1 <= len <= 3 -> mx < 52 ^ len -> forall k, In k (k0 :: ks) -> format_key len k <> None).
  { intros len Hl Hm k Hkin. apply format_key_lemma; [lia|auto|].
    unfold fits. specialize (Hub k Hkin). specialize (Hk k Hkin). lia. }
  assert (Hshort : forall len', 1 <= len' -> len' < 3 -> 52 ^ len' <= mx ->
                   exists k, In k (k0 :: ks) /\ format_key len' k = None).
  { intros len' Hl1 Hl2 Hm. exists mx. split; [assumption|]. unfold format_key, MAX_KEY_LENGTH.
    destruct (Z.ltb_spec len' 3); [|lia]. destruct (Z.leb_spec (52 ^ len') mx); [reflexivity|lia]. }
  pose proof (Hk mx Hin) as Hmx. unfold KEY_MAX in Hmx.
  destruct (Z.leb_spec 2704 mx) as [H3|H3]; [|destruct (Z.leb_spec 52 mx) as [H2|H2]].
  - split; [lia|]. split; [apply Hfit; [lia|simpl; lia]|].
    intros len' Hl. destruct (Z_lt_le_dec len' 1); [auto|].
    apply Hshort; [lia|lia|]. assert (len' = 1 \/ len' = 2) as [-> | ->] by lia; simpl; lia.
  - split; [lia|]. split; [apply Hfit; [lia|simpl; lia]|].
    intros len' Hl. destruct (Z_lt_le_dec len' 1); [auto|].
    assert (len' = 1) by lia; subst. apply Hshort; [lia|lia|simpl; lia].
  - split; [lia|]. split; [apply Hfit; [lia|simpl; lia]|].
    intros len' Hl. apply Hzero. lia.
Qed.
