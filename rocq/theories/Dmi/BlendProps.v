(** C34: compositing. *)
From Coq Require Import List ZArith Bool Lia.
From Verif Require Import Dmi.Model Dmi.Spec Dmi.BlendProofs.
Import ListNotations.
Open Scope Z_scope.

(** C34, locality: when the crop lies inside the source and the target rectangle inside the
    destination, compositing succeeds, changes no pixel outside the rectangle, and inside it gives
    each pixel the blend of the corresponding source pixel with the old one. *)
Theorem C34_local : forall self other color px py cx cy cw ch,
  image_ok self -> image_ok other -> pixel_ok color ->
  0 <= px -> 0 <= py -> 0 <= cw -> 0 <= ch -> px + cw <= iwidth self -> py + ch <= iheight self ->
  0 <= cx -> 0 <= cy -> cx + cw <= iwidth other -> cy + ch <= iheight other ->
  exists out, composite self other (px, py) (cx, cy, cw, ch) color = Some out /\
    iwidth out = iwidth self /\ iheight out = iheight self /\ image_ok out /\
    (forall x y, ~ (px <= x < px + cw /\ py <= y < py + ch) -> pixel out x y = pixel self x y) /\
    (forall x y, px <= x < px + cw -> py <= y < py + ch ->
       exists s d, pixel other (cx + (x - px)) (cy + (y - py)) = Some s /\ pixel self x y = Some d /\
         pixel_ok s /\ pixel_ok d /\ pixel out x y = Some (blend s color d)).
Proof. exact composite_exact. Qed.
Print Assumptions C34_local.

(** C34, one pixel.  [sa] is the alpha of the tinted source, the source alpha scaled by the tint. *)
Theorem C34_pixel_partial : forall s c d, pixel_ok s -> pixel_ok c -> pixel_ok d ->
  let sa := a s * a c / 255 in
  let p := blend s c d in
  pixel_ok p /\
  sa <= a p /\ a d <= a p /\
  (sa = 0 -> a p = a d /\ (a d <> 0 -> p = d)) /\
  (c = white -> a s = 255 -> p = s) /\
  (c = white -> a s <> 0 -> a d = 0 -> p = s) /\
  (c = white -> a d = 255 ->
     a p = 255 /\ Z.min (r s) (r d) <= r p <= Z.max (r s) (r d) /\
     Z.min (g s) (g d) <= g p <= Z.max (g s) (g d) /\ Z.min (b s) (b d) <= b p <= Z.max (b s) (b d)).
Proof.
  intros s c d Hs Hc Hd sa p.
  assert (Hsa : a (tint s c) = sa).
  { cbn [tint a]. apply mul255_eq; [apply Hs | apply Hc]. }
  pose proof (tint_ok s c Hs Hc) as Ht.
  assert (Hta : byte sa) by (rewrite <- Hsa; apply Ht).
  assert (Hda : byte (a d)) by apply Hd.
  destruct (out_alpha_facts sa (a d) Hta Hda) as (Ho & Ho1 & Ho2 & Ho3).
  assert (Hap : a p = out_alpha sa (a d)).
  { unfold p, blend. rewrite Hsa. destruct (_ =? 0); reflexivity. }
  split; [apply blend_ok; assumption|]. rewrite Hap. split; [exact Ho1|]. split; [exact Ho2|]. split; [|split; [|split]].
  - intro Hz. assert (Hoa : out_alpha sa (a d) = a d).
    { rewrite Ho3, Hz. replace (255 * 0 + a d * (255 - 0)) with (a d * 255) by lia. apply Z.div_mul. lia. }
    split; [exact Hoa|]. intro Hne. unfold p, blend. rewrite Hsa, Hoa, Hz.
    destruct (Z.eqb_spec (a d) 0) as [|_]; [contradiction|].
    destruct Hd as (D1 & D2 & D3 & D4).
    rewrite !channel_transparent by assumption. destruct d; reflexivity.
  - intros -> Has. unfold p, blend. rewrite tint_white by exact Hs. rewrite Has.
    destruct Hs as (S1 & S2 & S3 & S4).
    assert (E : out_alpha 255 (a d) = 255).
    { unfold out_alpha, mul255. replace (255 - 255) with 0 by lia. rewrite Z.mul_0_r. reflexivity. }
    rewrite E. change (255 =? 0) with false. cbv iota. rewrite !channel_opaque by assumption.
    rewrite <- Has. destruct s; reflexivity.
  - intros -> Has Had. unfold p, blend. rewrite tint_white by exact Hs. rewrite Had.
    destruct Hs as (S1 & S2 & S3 & S4).
    assert (E : out_alpha (a s) 0 = a s) by (unfold out_alpha, mul255; rewrite Z.mul_0_l; cbn; lia).
    rewrite E. destruct (Z.eqb_spec (a s) 0) as [|_]; [contradiction|].
    rewrite !channel_clear_dst by assumption. destruct s; reflexivity.
  - intros -> Had. unfold p, blend. rewrite tint_white by exact Hs.
    assert (Hss : sa = a s) by (rewrite <- Hsa, tint_white by exact Hs; reflexivity).
    assert (E : out_alpha (a s) (a d) = 255).
    { rewrite <- Hss, Ho3, Had. rewrite Z.mul_sub_distr_l. replace (255 * sa + (255 * 255 - 255 * sa)) with (255 * 255) by lia. reflexivity. }
    rewrite E, Had. change (255 =? 0) with false. cbv iota. cbn [r g b a].
    destruct Hs as (S1 & S2 & S3 & S4). destruct Hd as (D1 & D2 & D3 & D4).
    split; [congruence|]. split; [|split]; apply channel_opaque_dst; assumption.
Qed.
Print Assumptions C34_pixel_partial.

(** Refuted clause: over a translucent destination a channel can exceed both inputs, and even
    wrap round to 0 through [as u8] (dmm-tools/src/dmi.rs:219-221). *)
Theorem C34_channel_bound_refuted :
  exists s d, pixel_ok s /\ pixel_ok d /\ a d <> 0 /\ a s <> 0 /\
    Z.min (r s) (r d) > r (blend s white d) /\
    exists s' d', pixel_ok s' /\ pixel_ok d' /\ r (blend s' white d') > Z.max (r s') (r d').
Proof.
  exists {| r := 2; g := 0; b := 0; a := 1 |}, {| r := 255; g := 0; b := 0; a := 1 |}.
  unfold pixel_ok, byte; cbn [r g b a].
  repeat (split; [vm_compute; intuition discriminate|]).
  exists {| r := 100; g := 0; b := 0; a := 1 |}, {| r := 100; g := 0; b := 0; a := 1 |}.
  unfold pixel_ok, byte; cbn [r g b a].
  repeat (split; [vm_compute; intuition discriminate|]). vm_compute. reflexivity.
Qed.
Print Assumptions C34_channel_bound_refuted.

Definition red : Rgba8 := {| r := 255; g := 0; b := 0; a := 255 |}.
Definition clear : Rgba8 := {| r := 0; g := 0; b := 0; a := 0 |}.

(** The hypothesis that the rectangle lies inside the destination matters: columns past the right
    edge spill into the next row instead of being rejected. *)
Theorem C34_overrun_spills :
  let dst := {| iwidth := 2; iheight := 2; data := [clear; clear; clear; clear] |} in
  let src := {| iwidth := 2; iheight := 1; data := [red; red] |} in
  exists out, composite dst src (1, 0) (0, 0, 2, 1) white = Some out /\
    pixel out 0 1 = Some red /\ pixel dst 0 1 = Some clear.
Proof. eexists. split; [vm_compute; reflexivity|]. split; reflexivity. Qed.
Print Assumptions C34_overrun_spills.

Example C34_demo :
  let dst := {| iwidth := 2; iheight := 2; data := [clear; red; clear; red] |} in
  let src := {| iwidth := 2; iheight := 1; data := [red; clear] |} in
  image_ok dst /\ image_ok src /\
  composite dst src (0, 1) (0, 0, 2, 1) white =
    Some {| iwidth := 2; iheight := 2; data := [clear; red; red; red] |}.
Proof.
  cbv zeta. unfold image_ok, pixel_ok, byte, red, clear; cbn [iwidth iheight data length].
  split; [|split; [|vm_compute; reflexivity]]; repeat (split; [lia|]); repeat constructor; cbn; lia.
Qed.
