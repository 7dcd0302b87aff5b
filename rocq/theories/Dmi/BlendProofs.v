(** Proofs for C34. *)
From Coq Require Import List ZArith Bool Lia.
From Verif Require Import Dmi.Model Dmi.Spec.
Import ListNotations.
Open Scope Z_scope.
Local Ltac Zify.zify_post_hook ::= Z.div_mod_to_equations.

Lemma mul255_eq : forall x y, byte x -> byte y -> mul255 x y = x * y / 255 /\ byte (mul255 x y).
Proof.
  unfold byte, mul255. intros x y Hx Hy.
  assert (H : 0 <= x * y <= 255 * 255) by nia.
  remember (x * y) as p eqn:Hp. clear Hp.
  assert (Hq : 0 <= p / 255 <= 255) by lia.
  rewrite Z.mod_small by lia. lia.
Qed.

Lemma mul255_255 : forall x, byte x -> mul255 x 255 = x.
Proof.
  intros x Hx. destruct (mul255_eq x 255 Hx ltac:(unfold byte; lia)) as [-> _].
  apply Z.div_mul. lia.
Qed.

Lemma mul255_le : forall x y, byte x -> byte y -> mul255 x y <= x.
Proof.
  intros x y Hx Hy. destruct (mul255_eq x y Hx Hy) as [-> _]. unfold byte in *.
  apply Z.div_le_upper_bound; [lia|]. nia.
Qed.

Lemma tint_ok : forall s c, pixel_ok s -> pixel_ok c -> pixel_ok (tint s c).
Proof.
  intros s c (H1 & H2 & H3 & H4) (C1 & C2 & C3 & C4). unfold pixel_ok. cbn [tint r g b a].
  repeat split; apply mul255_eq; assumption.
Qed.

Lemma tint_white : forall s, pixel_ok s -> tint s white = s.
Proof.
  intros [r0 g0 b0 a0] (H1 & H2 & H3 & H4). unfold tint, white. cbn [r g b a] in *.
  rewrite !mul255_255 by assumption. reflexivity.
Qed.

Lemma out_alpha_facts : forall sa da, byte sa -> byte da ->
  byte (out_alpha sa da) /\ sa <= out_alpha sa da /\ da <= out_alpha sa da /\
  out_alpha sa da = (255 * sa + da * (255 - sa)) / 255.
Proof.
  intros sa da Hs Hd. unfold out_alpha.
  assert (Hi : byte (255 - sa)) by (unfold byte in *; lia).
  destruct (mul255_eq da (255 - sa) Hd Hi) as [-> Hb]. clear Hi Hb. unfold byte in *.
  assert (H : da * 255 - 255 * sa <= da * (255 - sa) <= 255 * (255 - sa)) by nia.
  assert (H0 : 0 <= da * (255 - sa)) by nia.
  remember (da * (255 - sa)) as p eqn:Hp. clear Hp. lia.
Qed.

Lemma channel_byte : forall s sa d da o, byte (channel s sa d da o).
Proof. intros. unfold channel, byte. remember (_ / o) as q. clear. lia. Qed.

Lemma blend_ok : forall s c d, pixel_ok s -> pixel_ok c -> pixel_ok d -> pixel_ok (blend s c d).
Proof.
  intros s c d Hs Hc Hd. pose proof (tint_ok s c Hs Hc) as Ht. unfold blend.
  destruct Ht as (_ & _ & _ & Ha). destruct Hd as (_ & _ & _ & Hda).
  destruct (out_alpha_facts _ _ Ha Hda) as (Ho & _).
  destruct (out_alpha (a (tint s c)) (a d) =? 0); unfold pixel_ok; cbn [r g b a];
    repeat split; try apply channel_byte; try (unfold byte; lia); exact Ho || apply Ho.
Qed.

(** transparent source *)
Lemma channel_transparent : forall s d da, byte d -> byte da -> da <> 0 -> channel s 0 d da da = d.
Proof.
  intros s d da Hd Hda Hne. unfold channel, byte in *.
  replace (s * 0 + d * da * (255 - 0) / 255) with (d * da).
  - rewrite Z.div_mul by lia. apply Z.mod_small. lia.
  - rewrite Z.mul_0_r, Z.add_0_l. replace (255 - 0) with 255 by lia. rewrite Z.div_mul by lia. reflexivity.
Qed.

(** opaque source *)
Lemma channel_opaque : forall s d da, byte s -> channel s 255 d da 255 = s.
Proof.
  intros s d da Hs. unfold channel, byte in *.
  replace (255 - 255) with 0 by lia. rewrite Z.mul_0_r. change (0 / 255) with 0.
  rewrite Z.add_0_r, Z.div_mul by lia. apply Z.mod_small. lia.
Qed.

(** transparent destination *)
Lemma channel_clear_dst : forall s sa d, byte s -> byte sa -> sa <> 0 -> channel s sa d 0 sa = s.
Proof.
  intros s sa d Hs Hsa Hne. unfold channel, byte in *.
  rewrite Z.mul_0_r, Z.mul_0_l. change (0 / 255) with 0. rewrite Z.add_0_r.
  rewrite Z.div_mul by lia. apply Z.mod_small. lia.
Qed.

(** opaque destination: exact bounds *)
Lemma channel_opaque_dst : forall s sa d, byte s -> byte sa -> byte d ->
  Z.min s d <= channel s sa d 255 255 <= Z.max s d.
Proof.
  intros s sa d Hs Hsa Hd. unfold channel, byte in *.
  replace (d * 255 * (255 - sa) / 255) with (d * (255 - sa)).
  2:{ replace (d * 255 * (255 - sa)) with (d * (255 - sa) * 255) by ring.
      rewrite Z.div_mul by lia. reflexivity. }
  assert (H : Z.min s d * 255 <= s * sa + d * (255 - sa) <= Z.max s d * 255).
  { destruct (Z.le_ge_cases s d).
    - rewrite Z.min_l, Z.max_r by assumption. nia.
    - rewrite Z.min_r, Z.max_l by assumption. nia. }
  remember (s * sa + d * (255 - sa)) as p eqn:Hp. clear Hp.
  assert (Hq : Z.min s d <= p / 255 <= Z.max s d).
  { split; [apply Z.div_le_lower_bound | apply Z.div_le_upper_bound]; lia. }
  rewrite Z.mod_small by lia. lia.
Qed.

(** ** the loops *)
Lemma set_nth_length : forall A (l : list A) n x, length (set_nth l n x) = length l.
Proof.
  induction l as [|y l IH]; intros [|n] x; cbn [set_nth length]; try reflexivity.
  rewrite IH. reflexivity.
Qed.

Lemma nth_set_nth : forall A (l : list A) n m x,
  nth_error (set_nth l n x) m =
  if Nat.eqb n m then (if Nat.ltb n (length l) then Some x else None) else nth_error l m.
Proof.
  induction l as [|y l IH]; intros n m x.
  - cbn [set_nth]. destruct (Nat.eqb_spec n m) as [->|]; [|reflexivity].
    destruct m; reflexivity.
  - destruct n as [|n], m as [|m]; cbn [set_nth nth_error Nat.eqb]; try reflexivity.
    rewrite IH. reflexivity.
Qed.

Lemma Forall_set_nth : forall A (P : A -> Prop) l n x, Forall P l -> P x -> Forall P (set_nth l n x).
Proof.
  induction l as [|y l IH]; intros [|n] x Hl Hx; cbn [set_nth]; try assumption;
    inversion Hl; subst; constructor; auto.
Qed.

Section Loops.
  Variables (self other : Image) (color : Rgba8).
  Hypothesis Hself : image_ok self.
  Hypothesis Hother : image_ok other.
  Hypothesis Hcolor : pixel_ok color.

  Definition dat_ok (dat : list Rgba8) : Prop :=
    length dat = length (data self) /\ Forall pixel_ok dat.

  Definition at_ (dat : list Rgba8) (x y : Z) : option Rgba8 :=
    nth_error dat (Z.to_nat (y * iwidth self + x)).

  Definition in_self (x y : Z) : Prop := 0 <= x < iwidth self /\ 0 <= y < iheight self.
  Definition in_other (x y : Z) : Prop := 0 <= x < iwidth other /\ 0 <= y < iheight other.

  Lemma idx_bound : forall w h x y, 0 <= x < w -> 0 <= y < h -> 0 <= y * w + x < w * h.
  Proof. clear. intros. split; [nia|]. assert (y * w + w <= w * h) by nia. lia. Qed.

  Lemma idx_inj : forall w x y x' y', 0 <= x < w -> 0 <= x' < w -> 0 <= y -> 0 <= y' ->
    y * w + x = y' * w + x' -> x = x' /\ y = y'.
  Proof.
    clear. intros w x y x' y' Hx Hx' Hy Hy' H.
    assert (y = y').
    { assert (y = (y * w + x) / w) by (rewrite Z.div_add_l, (Z.div_small x w) by lia; lia).
      assert (y' = (y' * w + x') / w) by (rewrite Z.div_add_l, (Z.div_small x' w) by lia; lia).
      congruence. }
    subst. split; [lia|reflexivity].
  Qed.

  Lemma at_some : forall dat x y, length dat = length (data self) -> in_self x y -> exists p, at_ dat x y = Some p.
  Proof.
    intros dat x y Hd [Hx Hy]. unfold at_.
    destruct (nth_error dat _) as [p|] eqn:E; [exists p; reflexivity|].
    apply nth_error_None in E. destruct Hself as (_ & _ & _ & Hlen & _).
    pose proof (idx_bound _ _ _ _ Hx Hy). lia.
  Qed.

  Lemma src_some : forall x y, in_other x y -> exists p, nth_error (data other) (Z.to_nat (y * iwidth other + x)) = Some p /\ pixel_ok p.
  Proof.
    intros x y [Hx Hy].
    destruct (nth_error (data other) _) as [p|] eqn:E.
    - exists p. split; [reflexivity|]. destruct Hother as (_ & _ & _ & _ & Hf).
      rewrite Forall_forall in Hf. apply Hf. eapply nth_error_In; eassumption.
    - apply nth_error_None in E. destruct Hother as (_ & _ & _ & Hlen & _).
      pose proof (idx_bound _ _ _ _ Hx Hy). lia.
  Qed.

  Definition src_at (x y : Z) : Rgba8 :=
    match nth_error (data other) (Z.to_nat (y * iwidth other + x)) with
    | Some p => p | None => white end.

  Lemma pixel_step : forall sx sy x y dat, dat_ok dat -> in_other sx sy -> in_self x y ->
    exists dat', composite_pixel self other color sx sy x y dat = Some dat' /\ dat_ok dat' /\
      (forall x' y', in_self x' y' ->
         at_ dat' x' y' = if (x' =? x) && (y' =? y)
                          then option_map (blend (src_at sx sy) color) (at_ dat x y)
                          else at_ dat x' y').
  Proof.
    intros sx sy x y dat [Hlen Hf] Ho Hs. unfold composite_pixel.
    destruct (src_some _ _ Ho) as (src & Hsrc & Hsok).
    destruct (at_some dat x y Hlen Hs) as [dst Hdst].
    pose proof (idx_bound _ _ _ _ (proj1 Ho) (proj2 Ho)) as B1.
    pose proof (idx_bound _ _ _ _ (proj1 Hs) (proj2 Hs)) as B2.
    destruct Hself as (W1 & W2 & W3 & W4 & W5). destruct Hother as (O1 & O2 & O3 & O4 & O5).
    replace (sy * iwidth other + sx <? 2 ^ 32) with true by (symmetry; apply Z.ltb_lt; lia).
    replace (y * iwidth self + x <? 2 ^ 32) with true by (symmetry; apply Z.ltb_lt; lia).
    cbn [andb]. rewrite Hsrc. unfold at_ in Hdst. rewrite Hdst.
    eexists. split; [reflexivity|]. split.
    - split; [rewrite set_nth_length; exact Hlen|].
      apply Forall_set_nth; [exact Hf|]. apply blend_ok; try assumption.
      rewrite Forall_forall in Hf. apply Hf. eapply nth_error_In; eassumption.
    - intros x' y' Hs'. unfold at_. rewrite nth_set_nth.
      pose proof (idx_bound _ _ _ _ (proj1 Hs') (proj2 Hs')) as B3.
      destruct (Nat.eqb_spec (Z.to_nat (y * iwidth self + x)) (Z.to_nat (y' * iwidth self + x'))) as [He|Hne].
      + assert (He' : y * iwidth self + x = y' * iwidth self + x') by lia.
        destruct (idx_inj _ _ _ _ _ (proj1 Hs) (proj1 Hs') ltac:(apply Hs) ltac:(apply Hs') He') as [-> ->].
        rewrite !Z.eqb_refl. cbn [andb]. rewrite Hdst. cbn [option_map].
        unfold src_at. rewrite Hsrc.
        destruct (Nat.ltb_spec (Z.to_nat (y' * iwidth self + x')) (length dat)); [reflexivity | lia].
      + destruct (Z.eqb_spec x' x) as [->|]; destruct (Z.eqb_spec y' y) as [->|]; cbn [andb]; try reflexivity.
        contradiction.
  Qed.

  Lemma row_step : forall n sx sy x y dat, dat_ok dat ->
    0 <= sx -> sx + Z.of_nat n <= iwidth other -> 0 <= sy < iheight other ->
    0 <= x -> x + Z.of_nat n <= iwidth self -> 0 <= y < iheight self ->
    exists dat', composite_row self other color n sx sy x y dat = Some dat' /\ dat_ok dat' /\
      (forall x' y', in_self x' y' ->
         at_ dat' x' y' = if (x <=? x') && (x' <? x + Z.of_nat n) && (y' =? y)
                          then option_map (blend (src_at (sx + (x' - x)) sy) color) (at_ dat x' y')
                          else at_ dat x' y').
  Proof.
    induction n as [|n IH]; intros sx sy x y dat Hd H1 H2 H3 H4 H5 H6.
    - exists dat. cbn [composite_row]. split; [reflexivity|]. split; [exact Hd|].
      intros x' y' _. destruct (Z.leb_spec x x'); destruct (Z.ltb_spec x' (x + Z.of_nat 0)); cbn [andb];
        try reflexivity. lia.
    - cbn [composite_row].
      destruct (pixel_step sx sy x y dat Hd) as (dat1 & E1 & Hd1 & Hp1);
        [split; lia | split; lia |]. rewrite E1.
      destruct (IH (sx + 1) sy (x + 1) y dat1 Hd1) as (dat2 & E2 & Hd2 & Hp2); try lia.
      exists dat2. split; [exact E2|]. split; [exact Hd2|].
      intros x' y' Hs'. rewrite Hp2 by exact Hs'. rewrite Hp1 by exact Hs'.
      destruct (Z.eqb_spec y' y) as [->|Hny].
      2:{ rewrite !andb_false_r. reflexivity. }
      rewrite !andb_true_r.
      destruct (Z.eqb_spec x' x) as [->|Hnx].
      + replace (x + 1 <=? x) with false by (symmetry; apply Z.leb_gt; lia). cbn [andb].
        rewrite Z.leb_refl. replace (x <? x + Z.of_nat (S n)) with true by (symmetry; apply Z.ltb_lt; lia).
        cbn [andb]. replace (sx + (x - x)) with sx by lia. reflexivity.
      + replace (x + 1 <=? x') with (x <=? x').
        2:{ destruct (Z.leb_spec x x'); destruct (Z.leb_spec (x + 1) x'); try reflexivity; lia. }
        replace (x + 1 + Z.of_nat n) with (x + Z.of_nat (S n)) by lia.
        replace (sx + 1 + (x' - (x + 1))) with (sx + (x' - x)) by lia. reflexivity.
  Qed.

  Lemma rows_step : forall n w sx sy x y dat, dat_ok dat ->
    0 <= sx -> sx + Z.of_nat w <= iwidth other -> 0 <= sy -> sy + Z.of_nat n <= iheight other ->
    0 <= x -> x + Z.of_nat w <= iwidth self -> 0 <= y -> y + Z.of_nat n <= iheight self ->
    exists dat', composite_rows self other color n w sx sy x y dat = Some dat' /\ dat_ok dat' /\
      (forall x' y', in_self x' y' ->
         at_ dat' x' y' = if (x <=? x') && (x' <? x + Z.of_nat w) && ((y <=? y') && (y' <? y + Z.of_nat n))
                          then option_map (blend (src_at (sx + (x' - x)) (sy + (y' - y))) color) (at_ dat x' y')
                          else at_ dat x' y').
  Proof.
    induction n as [|n IH]; intros w sx sy x y dat Hd H1 H2 H3 H4 H5 H6 H7 H8.
    - exists dat. cbn [composite_rows]. split; [reflexivity|]. split; [exact Hd|].
      intros x' y' _.
      replace ((y <=? y') && (y' <? y + Z.of_nat 0)) with false.
      2:{ destruct (Z.leb_spec y y'); destruct (Z.ltb_spec y' (y + Z.of_nat 0)); cbn [andb]; try reflexivity; lia. }
      rewrite andb_false_r. reflexivity.
    - cbn [composite_rows].
      destruct (row_step w sx sy x y dat Hd) as (dat1 & E1 & Hd1 & Hp1); try lia. rewrite E1.
      destruct (IH w sx (sy + 1) x (y + 1) dat1 Hd1) as (dat2 & E2 & Hd2 & Hp2); try lia.
      exists dat2. split; [exact E2|]. split; [exact Hd2|].
      intros x' y' Hs'. rewrite Hp2 by exact Hs'. rewrite Hp1 by exact Hs'.
      destruct ((x <=? x') && (x' <? x + Z.of_nat w)) eqn:Ex; cbn [andb]; [|reflexivity].
      destruct (Z.eqb_spec y' y) as [->|Hny].
      + replace (y + 1 <=? y) with false by (symmetry; apply Z.leb_gt; lia). cbn [andb].
        rewrite Z.leb_refl. replace (y <? y + Z.of_nat (S n)) with true by (symmetry; apply Z.ltb_lt; lia).
        cbn [andb]. replace (sy + (y - y)) with sy by lia. reflexivity.
      + replace (y + 1 <=? y') with (y <=? y').
        2:{ destruct (Z.leb_spec y y'); destruct (Z.leb_spec (y + 1) y'); try reflexivity; lia. }
        replace (y + 1 + Z.of_nat n) with (y + Z.of_nat (S n)) by lia.
        replace (sy + 1 + (y' - (y + 1))) with (sy + (y' - y)) by lia. reflexivity.
  Qed.
End Loops.

Lemma pixel_in : forall i x y, 0 <= x < iwidth i -> 0 <= y < iheight i ->
  pixel i x y = nth_error (data i) (Z.to_nat (y * iwidth i + x)).
Proof.
  intros i x y Hx Hy. unfold pixel.
  replace (0 <=? x) with true by (symmetry; apply Z.leb_le; lia).
  replace (x <? iwidth i) with true by (symmetry; apply Z.ltb_lt; lia).
  replace (0 <=? y) with true by (symmetry; apply Z.leb_le; lia).
  replace (y <? iheight i) with true by (symmetry; apply Z.ltb_lt; lia).
  reflexivity.
Qed.

Lemma pixel_out : forall i x y, ~ (0 <= x < iwidth i /\ 0 <= y < iheight i) -> pixel i x y = None.
Proof.
  intros i x y H. unfold pixel.
  destruct (Z.leb_spec 0 x); destruct (Z.ltb_spec x (iwidth i)); destruct (Z.leb_spec 0 y);
    destruct (Z.ltb_spec y (iheight i)); cbn [andb]; try reflexivity. exfalso. apply H. lia.
Qed.

Lemma composite_exact : forall self other color px py cx cy cw ch,
  image_ok self -> image_ok other -> pixel_ok color ->
  0 <= px -> 0 <= py -> 0 <= cw -> 0 <= ch -> px + cw <= iwidth self -> py + ch <= iheight self ->
  0 <= cx -> 0 <= cy -> cx + cw <= iwidth other -> cy + ch <= iheight other ->
  exists out, composite self other (px, py) (cx, cy, cw, ch) color = Some out /\
    iwidth out = iwidth self /\ iheight out = iheight self /\ image_ok out /\
    (forall x y, ~ (px <= x < px + cw /\ py <= y < py + ch) -> pixel out x y = pixel self x y) /\
    (forall x y, px <= x < px + cw -> py <= y < py + ch ->
       exists s d, pixel other (cx + (x - px)) (cy + (y - py)) = Some s /\ pixel self x y = Some d /\
         pixel_ok s /\ pixel_ok d /\ pixel out x y = Some (blend s color d)).
Proof.
  intros self other color px py cx cy cw ch Hs Ho Hc H1 H2 H3 H4 H5 H6 H7 H8 H9 H10.
  unfold composite.
  pose proof Hs as (W1 & W2 & W3 & W4 & W5).
  replace (px + cw <? 2 ^ 32) with true by (symmetry; apply Z.ltb_lt; lia).
  replace (py + ch <? 2 ^ 32) with true by (symmetry; apply Z.ltb_lt; lia).
  cbn [andb].
  destruct (rows_step self other color Hs Ho Hc (Z.to_nat ch) (Z.to_nat cw) cx cy px py (data self))
    as (dat & E & [Hl Hf] & Hp); try lia; [split; [reflexivity | exact W5] |].
  rewrite E. eexists. split; [reflexivity|].
  rewrite !Z2Nat.id in Hp by lia.
  set (out := {| iwidth := iwidth self; iheight := iheight self; data := dat |}).
  split; [reflexivity|]. split; [reflexivity|]. split.
  { unfold image_ok. cbn [out iwidth iheight data].
    split; [exact W1|]. split; [exact W2|]. split; [exact W3|]. split; [rewrite Hl; exact W4 | exact Hf]. }
  split.
  - intros x y Hn.
    destruct (Z_le_dec 0 x); [|rewrite !pixel_out; [reflexivity| lia | cbn [out iwidth iheight]; lia]].
    destruct (Z_lt_dec x (iwidth self)); [|rewrite !pixel_out; [reflexivity| lia | cbn [out iwidth iheight]; lia]].
    destruct (Z_le_dec 0 y); [|rewrite !pixel_out; [reflexivity| lia | cbn [out iwidth iheight]; lia]].
    destruct (Z_lt_dec y (iheight self)); [|rewrite !pixel_out; [reflexivity| lia | cbn [out iwidth iheight]; lia]].
    rewrite !pixel_in by (cbn [out iwidth iheight]; lia).
    cbn [out data iwidth]. specialize (Hp x y ltac:(split; lia)). unfold at_ in Hp. rewrite Hp.
    destruct (Z.leb_spec px x); destruct (Z.ltb_spec x (px + cw)); destruct (Z.leb_spec py y);
      destruct (Z.ltb_spec y (py + ch)); cbn [andb]; try reflexivity. exfalso. apply Hn. lia.
  - intros x y Hx Hy.
    destruct (src_some other Ho (cx + (x - px)) (cy + (y - py))) as (s & Hsrc & Hsok); [split; lia|].
    destruct (at_some self Hs (data self) x y eq_refl) as [d Hd]; [split; lia|].
    exists s, d. unfold at_ in Hd.
    rewrite (pixel_in other), (pixel_in self), (pixel_in out) by (cbn [out iwidth iheight]; lia).
    split; [exact Hsrc|]. split; [exact Hd|]. split; [exact Hsok|]. split.
    { rewrite Forall_forall in W5. apply W5. eapply nth_error_In; eassumption. }
    cbn [out data iwidth]. specialize (Hp x y ltac:(split; lia)). unfold at_ in Hp. rewrite Hp, Hd.
    replace (px <=? x) with true by (symmetry; apply Z.leb_le; lia).
    replace (x <? px + cw) with true by (symmetry; apply Z.ltb_lt; lia).
    replace (py <=? y) with true by (symmetry; apply Z.leb_le; lia).
    replace (y <? py + ch) with true by (symmetry; apply Z.ltb_lt; lia).
    cbn [andb option_map]. unfold src_at. rewrite Hsrc. reflexivity.
Qed.
