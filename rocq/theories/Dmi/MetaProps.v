(** C33: DMI metadata. *)
From Coq Require Import String List NArith ZArith Bool Lia.
From Verif Require Import Common.Text Common.Decimal Dmi.Model Dmi.Spec Dmi.MetaProofs Dmi.RenderProofs.
Import ListNotations.
Open Scope Z_scope.

(** C33, layout: for every text that parses (and fewer than 2^32 sprites), the i-th state starts
    right after the sprites of the states before it; the (state, direction, frame) triples within
    their counts and the sprite numbers 0 .. total-1 correspond one to one; a direction the state
    does not have shows the south-facing sprite. *)
Theorem C33_layout :
  forall (F : Type) (parse_f32 : text -> option F) is_one data m,
  parse_metadata parse_f32 is_one data = Done m -> total (states m) < 2 ^ 32 ->
  (forall i s, nth_error (states m) i = Some s -> st_offset s = total (firstn i (states m)) /\
     0 <= frames_count (frames s)) /\
  (forall i s d f, nth_error (states m) i = Some s -> 0 <= f < frames_count (frames s) ->
     exists k, index_of_frame s d f = Done k /\
       total (firstn i (states m)) <= k < total (firstn i (states m)) + sprites s /\ k < total (states m)) /\
  (forall i j s t d e f h k, nth_error (states m) i = Some s -> nth_error (states m) j = Some t ->
     has_dir (dirs s) d -> has_dir (dirs t) e ->
     0 <= f < frames_count (frames s) -> 0 <= h < frames_count (frames t) ->
     index_of_frame s d f = Done k -> index_of_frame t e h = Done k -> i = j /\ d = e /\ f = h) /\
  (forall k, 0 <= k < total (states m) -> exists i s d f,
     nth_error (states m) i = Some s /\ has_dir (dirs s) d /\ 0 <= f < frames_count (frames s) /\
     index_of_frame s d f = Done k) /\
  (forall s d f, In s (states m) -> ~ has_dir (dirs s) d -> index_of_frame s d f = index_of_frame s South f).
Proof.
  intros F parse_f32 is_one data m H Ht. pose proof (parse_wf _ _ _ _ H) as W.
  split; [|split; [|split; [|split]]].
  - intros i s Hi. split.
    + apply (wf_split _ _ W _ _ _ (firstn_nth_split _ _ _ _ Hi)).
    + pose proof (wf_frames _ _ W) as Wf. rewrite Forall_forall in Wf. apply Wf. eapply nth_error_In; eassumption.
  - intros i s d f Hi Hf. destruct (index_value _ _ _ _ d f W Ht Hi Hf) as (A & A0 & A1 & A2).
    eexists. split; [exact A|]. lia.
  - intros. eapply index_inj; eassumption.
  - intros k Hk. eapply index_surj; eassumption.
  - intros s d f _ Hd. apply index_default. exact Hd.
Qed.
Print Assumptions C33_layout.

(** C33, order: within a state the sprites are stored frame by frame, and within a frame in BYOND's
    direction order. *)
Theorem C33_direction_order :
  forall (F : Type) (parse_f32 : text -> option F) is_one data m i s d f,
  parse_metadata parse_f32 is_one data = Done m -> total (states m) < 2 ^ 32 ->
  nth_error (states m) i = Some s -> 0 <= f < frames_count (frames s) -> has_dir (dirs s) d ->
  exists j, nth_error byond_order j = Some d /\
    index_of_frame s d f = Done (st_offset s + f * dirs_count (dirs s) + Z.of_nat j).
Proof.
  intros F parse_f32 is_one data m i s d f H Ht Hi Hf Hd. pose proof (parse_wf _ _ _ _ H) as W.
  destruct (index_value _ _ _ _ d f W Ht Hi Hf) as (A & _).
  pose proof (proj1 (wf_split _ _ W _ _ _ (firstn_nth_split _ _ _ _ Hi))) as Ho. rewrite A, <- Ho.
  exists (Z.to_nat (dir_idx (dirs s) d)). split.
  - destruct (dirs s), d; cbn in Hd |- *; try reflexivity; intuition discriminate.
  - f_equal. pose proof (dir_idx_range (dirs s) d). lia.
Qed.
Print Assumptions C33_direction_order.

(** C33, lookup: the i-th state is found under its name and the number of earlier states with that
    name, every lookup is safe, and finds only a state with exactly that name and number. *)
Theorem C33_lookup :
  forall (F : Type) (parse_f32 : text -> option F) is_one data m,
  parse_metadata parse_f32 is_one data = Done m ->
  (forall i s, nth_error (states m) i = Some s ->
     get_icon_state m (name s, Z.of_nat (length (filter (same_name (name s)) (firstn i (states m))))) = Done (Some s)
     /\ duplicate_index s = Z.of_nat (length (filter (same_name (name s)) (firstn i (states m))))) /\
  (forall k, get_icon_state m k = Done None \/
     exists s, In s (states m) /\ (name s, duplicate_index s) = k /\ get_icon_state m k = Done (Some s)).
Proof. intros F parse_f32 is_one data m H. apply lookup_exact. apply (parse_wf _ _ _ _ H). Qed.
Print Assumptions C33_lookup.

(** C33, rectangles: on a bitmap with room for the sprites, every triple's rectangle lies inside the
    bitmap and different triples have disjoint rectangles. *)
Theorem C33_rectangles :
  forall (F : Type) (parse_f32 : text -> option F) is_one data m bw bh,
  parse_metadata parse_f32 is_one data = Done m ->
  0 < width m <= bw -> 0 < height m -> bw < 2 ^ 32 -> bh < 2 ^ 32 ->
  total (states m) <= (bw / width m) * (bh / height m) -> total (states m) < 2 ^ 32 ->
  (forall s d f, In s (states m) -> 0 <= f < frames_count (frames s) ->
     exists rc, rect_of m bw (name s, duplicate_index s) d f = Done (Some rc) /\ rect_inside bw bh rc) /\
  (forall i j s t d e f h rc rc', nth_error (states m) i = Some s -> nth_error (states m) j = Some t ->
     has_dir (dirs s) d -> has_dir (dirs t) e ->
     0 <= f < frames_count (frames s) -> 0 <= h < frames_count (frames t) ->
     rect_of m bw (name s, duplicate_index s) d f = Done (Some rc) ->
     rect_of m bw (name t, duplicate_index t) e h = Done (Some rc') ->
     (i, d, f) <> (j, e, h) -> rects_disjoint rc rc').
Proof.
  intros F parse_f32 is_one data m bw bh H [Hw Hwb] Hh Hbw Hbh Htot Ht.
  pose proof (parse_wf _ _ _ _ H) as W. split.
  - intros s d f Hs Hf. destruct (In_nth_error _ _ Hs) as [i Hi].
    destruct (index_value _ _ _ _ d f W Ht Hi Hf) as (A & A0 & A1 & A2).
    destruct (rect_value m bw bh s d f _ W Hw Hh Hbw Hbh Hwb Htot Ht Hs A ltac:(lia)) as (R & _ & In1).
    eexists. split; [exact R | exact In1].
  - intros i j s t d e f h rc rc' Hi Hj Hd He Hf Hhh R1 R2 Hne.
    destruct (index_value _ _ _ _ d f W Ht Hi Hf) as (A & A0 & A1 & A2).
    destruct (index_value _ _ _ _ e h W Ht Hj Hhh) as (B & B0 & B1 & B2).
    destruct (rect_value m bw bh s d f _ W Hw Hh Hbw Hbh Hwb Htot Ht (nth_error_In _ _ Hi) A ltac:(lia)) as (E1 & Hc & _).
    destruct (rect_value m bw bh t e h _ W Hw Hh Hbw Hbh Hwb Htot Ht (nth_error_In _ _ Hj) B ltac:(lia)) as (E2 & _ & _).
    rewrite E1 in R1. rewrite E2 in R2. injection R1 as <-. injection R2 as <-.
    apply rects_apart; try assumption; try lia.
    intro Heq. apply Hne.
    rewrite <- Heq in B.
    destruct (index_inj _ _ _ _ _ _ _ _ _ _ _ W Ht Hi Hj Hd He Hf Hhh A B) as (-> & -> & ->). reflexivity.
Qed.
Print Assumptions C33_rectangles.

(** C33, meaning: the description an icon editor writes for a list of states parses to those states,
    in order, with their names, directions, frames, delays, loop, rewind and movement flags. *)
Theorem C33_descriptions_parse :
  forall (F : Type) (parse_f32 : text -> option F) is_one w h ds,
  (w <= U32_MAX)%N -> (h <= U32_MAX)%N ->
  Forall (desc_ok parse_f32) ds ->
  fold_right Z.add 0 (map (fun d => Z.of_N (d_frames d) * dirs_count (d_dirs d)) ds) < 2 ^ 64 ->
  exists m, parse_metadata parse_f32 is_one (render w h ds) = Done m /\
    width m = Z.of_N w /\ height m = Z.of_N h /\ Forall2 (denotes parse_f32 is_one) ds (states m).
Proof. intros. apply parse_render; assumption. Qed.
Print Assumptions C33_descriptions_parse.

(** A concrete sheet (delays modelled by u8 here). *)
Definition demo_desc : list state_desc :=
  [{| d_name := lit "walk"; d_dirs := DFour; d_frames := 2; d_delays := Some [lit "1"; lit "5"];
      d_loop := Some 3%N; d_rewind := None; d_movement := Some true |};
   {| d_name := lit "walk"; d_dirs := DOne; d_frames := 1; d_delays := None;
      d_loop := None; d_rewind := Some true; d_movement := None |}].

Example C33_demo :
  exists m, parse_metadata (parse_uint U8_MAX) (N.eqb 1) (render 32 32 demo_desc) = Done m /\
    Forall (desc_ok (parse_uint U8_MAX)) demo_desc /\
    total (states m) = 9 /\ get_icon_state m (lit "walk", 1) = Done (nth_error (states m) 1) /\
    (exists s, nth_error (states m) 0 = Some s /\ index_of_frame s West 1 = Done 7 /\ frames s = FDelays [1; 5]%N) /\
    rect_of m 128 (lit "walk", 1) North 0 = Done (Some (0, 64, 32, 32)).
Proof.
  eexists. split; [vm_compute; reflexivity|]. split.
  { assert (Hnm : forall c, In c (lit "walk") -> c <> 10%N /\ c <> 92%N /\ c <> 34%N).
    { intros c Hc. vm_compute in Hc. repeat (destruct Hc as [<-|Hc]; [split; [|split]; discriminate|]). contradiction. }
    constructor; [|constructor; [|constructor]].
    - split; [exact Hnm|]. split; [discriminate|]. split; [|intros n E; injection E as <-; discriminate].
      intros l E. injection E as <-. split; [reflexivity|]. split; [discriminate|].
      intros t [<-|[<-|[]]]; (split; [discriminate|]; split; [eexists; reflexivity|]);
        intros c [<-|[]]; split; [discriminate | reflexivity | discriminate | reflexivity].
    - split; [exact Hnm|]. split; [discriminate|]. split; intros l E; discriminate. }
  split; [reflexivity|]. split; [reflexivity|]. split; [|reflexivity].
  eexists. split; [reflexivity|]. split; reflexivity.
Qed.
