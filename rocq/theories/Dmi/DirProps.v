(** C32: direction algebra. *)
From Coq Require Import List ZArith Bool Lia.
From Verif Require Import Dmi.Model Dmi.Spec.
Import ListNotations.
Open Scope Z_scope.

(** Every operation but the clockwise quarter turn is the geometric one; offsets identify
    directions; the integer representation is an exact bijection with its range. *)
Theorem C32_direction_algebra_partial :
  forall d,
  offset (flip d) = neg2 (offset d) /\
  offset (flip_ns d) = (fst (offset d), - snd (offset d)) /\
  offset (flip_ew d) = (- fst (offset d), snd (offset d)) /\
  offset (clockwise_45 d) = rot45cw (offset d) /\
  offset (counterclockwise_45 d) = rot45ccw (offset d) /\
  offset (counterclockwise_90 d) = rot90ccw (offset d) /\
  (d <> Southwest -> offset (clockwise_90 d) = rot90cw (offset d)) /\
  clockwise_45 (counterclockwise_45 d) = d /\ counterclockwise_45 (clockwise_45 d) = d /\
  (is_diagonal d = true <-> fst (offset d) <> 0 /\ snd (offset d) <> 0) /\
  (forall e, contains d e = true <->
     fst (offset d) = fst (offset e) /\ fst (offset d) <> 0 \/
     snd (offset d) = snd (offset e) /\ snd (offset d) <> 0) /\
  (forall e, offset d = offset e -> d = e) /\ In d ALL /\ NoDup ALL /\
  (-1 <= fst (offset d) <= 1 /\ -1 <= snd (offset d) <= 1 /\ offset d <> (0, 0)).
Proof.
  intro d.
  assert (HA : NoDup ALL) by (unfold ALL; repeat constructor; cbn; intuition discriminate).
  destruct d; cbn [flip flip_ns flip_ew clockwise_45 counterclockwise_45 counterclockwise_90 clockwise_90];
    repeat match goal with |- _ /\ _ => split end;
    try reflexivity; try exact HA; try (cbn; tauto); try (cbn; lia); try discriminate;
    try (intros _; reflexivity); try (intro H; contradiction H; reflexivity);
    try (cbn; split; [discriminate | intros [H1 H2]; lia]);
    try (cbn; split; [intros _; lia | reflexivity]);
    try (intros []; cbn; try discriminate; reflexivity);
    try (intros []; cbn; intros; try discriminate; lia);
    try (intros []; cbn; split; intros; try discriminate; try reflexivity; lia).
Qed.
Print Assumptions C32_direction_algebra_partial.

(** Every vector of the 3x3 block other than the centre is some direction's offset, so the clauses
    above determine every operation. *)
Theorem C32_offsets_cover :
  forall x y, -1 <= x <= 1 -> -1 <= y <= 1 -> (x, y) <> (0, 0) -> exists d, offset d = (x, y).
Proof.
  intros x y Hx Hy Hne.
  assert (x = -1 \/ x = 0 \/ x = 1) as [ -> | [ -> | -> ]] by lia;
  assert (y = -1 \/ y = 0 \/ y = 1) as [ -> | [ -> | -> ]] by lia;
    try (contradiction Hne; reflexivity);
    [exists Southwest | exists West | exists Northwest | exists South | exists North
    | exists Southeast | exists East | exists Northeast]; reflexivity.
Qed.
Print Assumptions C32_offsets_cover.

(** from_int and to_int are inverse, and from_int accepts nothing else. *)
Theorem C32_int_bijection :
  (forall d, from_int (to_int d) = Some d) /\
  (forall n d, from_int n = Some d <-> to_int d = n).
Proof.
  assert (H1 : forall d, from_int (to_int d) = Some d) by (intros []; reflexivity).
  split; [exact H1|]. intros n d. split; [|intros <-; apply H1].
  unfold from_int. intro H.
  destruct n as [|p|p]; try discriminate.
  do 4 (destruct p as [p|p|]; try discriminate; try (injection H as <-; reflexivity)).
Qed.
Print Assumptions C32_int_bijection.

(** Stepping in a direction and back is the identity, whenever the first step stays within i32. *)
Theorem C32_step_and_back :
  forall c d c', in_i32 (fst c) = true -> in_i32 (snd c) = true ->
  coord_add_dir c d = Some c' ->
  c' = (fst c + fst (offset d), snd c + snd (offset d)) /\ coord_add_dir c' (flip d) = Some c.
Proof.
  intros [x y] d c' Hx Hy H. cbn [fst snd] in *. unfold coord_add_dir in *.
  destruct d; cbn [offset flip fst snd] in *;
    (destruct (in_i32 _ && in_i32 _) eqn:E; [|discriminate]); injection H as <-; cbn [fst snd];
    (split; [reflexivity|]);
    match goal with |- (if in_i32 ?a && in_i32 ?b then _ else _) = _ =>
      replace a with x by lia; replace b with y by lia end;
    rewrite Hx, Hy; reflexivity.
Qed.
Print Assumptions C32_step_and_back.

(** Refuted clause: the clockwise quarter turn of Southwest is Northeast, not Northwest
    (dmi.rs:175), so it is neither a rotation nor injective nor inverse to the counterclockwise
    turn. *)
Theorem C32_clockwise_90_refuted :
  offset (clockwise_90 Southwest) <> rot90cw (offset Southwest) /\
  clockwise_90 Southwest = clockwise_90 Northwest /\
  counterclockwise_90 (clockwise_90 Southwest) <> Southwest /\
  clockwise_90 Southwest <> clockwise_45 (clockwise_45 Southwest).
Proof. repeat split; cbn; discriminate. Qed.
Print Assumptions C32_clockwise_90_refuted.

Example C32_demo : coord_add_dir (5, 7) Northwest = Some (4, 8) /\
  coord_add_dir (4, 8) (flip Northwest) = Some (5, 7) /\ coord_add_dir (I32_MAX, 0) East = None.
Proof. repeat split. Qed.
