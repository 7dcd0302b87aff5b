(** C64: icon smoothing. *)
From Coq Require Import List NArith ZArith Bool String Lia.
From Verif Require Import Common.Text Objtree.Ispath Const.Model Dmi.Model Minimap.Model Passes.Model Passes.Spec Passes.Config.
Import ListNotations.
Open Scope Z_scope.

Lemma bit_testbit : forall x k, 0 <= k -> bit x k = Z.testbit x k.
Proof.
  intros x k Hk. unfold bit. destruct (Z.testbit x k) eqn:E.
  - destruct (Z.eqb_spec (Z.land x (2 ^ k)) 0) as [H|H]; [|reflexivity]. exfalso.
    assert (Hb : Z.testbit (Z.land x (2 ^ k)) k = true) by (rewrite Z.land_spec, E, Z.pow2_bits_true by exact Hk; reflexivity).
    rewrite H, Z.bits_0 in Hb. discriminate.
  - destruct (Z.eqb_spec (Z.land x (2 ^ k)) 0) as [H|H]; [reflexivity|]. exfalso. apply H. apply Z.bits_inj'. intros m Hm.
    rewrite Z.land_spec, Z.bits_0. destruct (Z.eq_dec m k) as [->|Hmk]; [rewrite E; reflexivity|].
    rewrite Z.pow2_bits_false by lia. apply andb_false_r.
Qed.

(** the number of an object, from what is found in the eight directions *)
Definition adj_of (n s e w ne se sw nw : bool) : Z :=
  let one (b : bool) (k : Z) (adj : Z) := Z.lor adj (if b then 2 ^ k else 0) in
  let adj := one w WEST_J (one e EAST_J (one s SOUTH_J (one n NORTH_J 0))) in
  let adj :=
    if bit adj NORTH_J then
      let adj := if bit adj WEST_J then one nw NORTHWEST_J adj else adj in
      if bit adj EAST_J then one ne NORTHEAST_J adj else adj
    else adj in
  if bit adj SOUTH_J then
    let adj := if bit adj WEST_J then one sw SOUTHWEST_J adj else adj in
    if bit adj EAST_J then one se SOUTHEAST_J adj else adj
  else adj.

Lemma adj_bits : forall n s e w ne se sw nw, let j := adj_of n s e w ne se sw nw in
  0 <= j < 256 /\ Z.testbit j 0 = n /\ Z.testbit j 1 = s /\ Z.testbit j 2 = e /\ Z.testbit j 3 = w /\
  Z.testbit j 4 = n && e && ne /\ Z.testbit j 5 = s && e && se /\ Z.testbit j 6 = s && w && sw /\ Z.testbit j 7 = n && w && nw.
Proof.
  intros n s e w ne se sw nw. destruct n, s, e, w, ne, se, sw, nw; vm_compute; intuition congruence.
Qed.

Section Smooth.
  Context (F : Type) (fl : f32 F) (f_int : F -> Z) {T V : Type}.
  Local Notation constant := (constant F).
  Local Notation Atom := (@Atom T V).
  Local Notation Neighborhood := (@Neighborhood T V).
  Context (path_of : T -> text) (var : Atom -> text -> constant) (from_vars : Atom -> Sprite) (sprite_of_type : text -> Sprite).
  Local Notation find_dir := (find_type_in_direction F fl path_of var).
  Local Notation joins := (joins F fl path_of var).
  Local Notation junction := (junction F fl path_of var).
  Local Notation smooth_2020 := (smooth_2020 F fl f_int path_of var from_vars sprite_of_type).
  Local Notation smooth_2025 := (smooth_2025 F fl f_int path_of var from_vars sprite_of_type).
  Local Notation istype := (istype path_of).

  Lemma find_joins : forall n a d flags, find_dir n a d flags = true <-> joins n a flags d.
  Proof using Type.
    intros n a d flags. unfold find_type_in_direction. destruct (nb_offset n d) as [|b0 l0] eqn:En.
    - rewrite bit_testbit by (unfold SMOOTH_BORDER; lia). split; [intro H; apply joins_border; assumption|].
      intros [_ H|l b k x y _ H|b _ H]; [exact H|rewrite En in H; destruct H|rewrite En in H; destruct H].
    - rewrite <- En. assert (Hne : nb_offset n d <> []) by congruence. clear En b0 l0.
      destruct (var a (lit "canSmoothWith")) as [h|t ar|l|f0 ar|p|s|s|f] eqn:Ev.
      3: { rewrite existsb_exists. split.
        - intros (b & Hb & E). destruct (var b (lit "smoothing_groups")) as [h|t ar|k|f0 ar|p|s|s|f] eqn:Eb; try discriminate E.
          rewrite existsb_exists in E. destruct E as (x & Hx & E). rewrite existsb_exists in E. destruct E as (y & Hy & E).
          eapply joins_group; eassumption.
        - intros [H|l' b k x y H1 H2 H3 H4 H5 H6|b H]; [contradiction| |exfalso; apply (H l); exact Ev].
          assert (l' = l) by congruence. subst l'. exists b. split; [exact H2|]. rewrite H3.
          rewrite existsb_exists. exists x. split; [exact H4|]. rewrite existsb_exists. exists y. auto. }
      all: rewrite existsb_exists; split;
        [intros (b & Hb & E); apply text_eqb_eq in E; eapply joins_self; [intros l' H; congruence|exact Hb|exact E]|];
        intros [H|l' b k x y H1|b _ H1 H2]; [contradiction|congruence|]; exists b; split; [exact H1|]; apply text_eqb_eq; exact H2.
  Qed.

  Definition movable (a : Atom) : Prop := istype a (lit "/atom/movable/") = true.

  Lemma adjacencies_of : forall n a flags, ~ movable a ->
    calculate_adjacencies F fl path_of var n a flags =
    adj_of (find_dir n a North flags) (find_dir n a South flags) (find_dir n a East flags) (find_dir n a West flags)
           (find_dir n a Northeast flags) (find_dir n a Southeast flags) (find_dir n a Southwest flags) (find_dir n a Northwest flags).
  Proof using Type.
    intros n a flags H. unfold calculate_adjacencies. unfold movable in H. destruct (istype a (lit "/atom/movable/")); [contradiction H; reflexivity|].
    reflexivity.
  Qed.

  Lemma adjacencies_junction : forall n a flags, ~ movable a -> junction n a flags (calculate_adjacencies F fl path_of var n a flags).
  Proof using Type.
    clear from_vars sprite_of_type f_int. intros n a flags H. rewrite adjacencies_of by exact H. unfold Spec.junction, joins_corner. rewrite <- !find_joins.
    match goal with |- context [adj_of ?x1 ?x2 ?x3 ?x4 ?x5 ?x6 ?x7 ?x8] =>
      destruct (adj_bits x1 x2 x3 x4 x5 x6 x7 x8) as (B & B0 & B1 & B2 & B3 & B4 & B5 & B6 & B7) end.
    cbv zeta in *. rewrite B0, B1, B2, B3, B4, B5, B6, B7, !andb_true_iff. repeat split; try (apply B); tauto.
  Qed.

  Lemma smoothed_shows : forall a state, shows_state F var a state (smoothed F var a state).
  Proof using Type.
    intros a state. unfold shows_state, smoothed.
    destruct (var a (lit "smooth_icon")) as [h|t ar|l|f0 ar|p|s|s|f]; cbn [as_path_str with_state with_icon icon icon_state sdir color ofs_x ofs_y plane layer];
      do 7 (split; [reflexivity|]).
    6, 7: split; [intros name [H|H]; congruence|intro H; destruct (H s); congruence].
    all: split; [intros name [H|H]; congruence|reflexivity].
  Qed.

  Local Notation piece := (piece F fl path_of var).
  Local Notation shows_state := (shows_state F var).

  Lemma corner_piece : forall n a flags j f1 f2 f3 v h c what n1 n2,
    0 <= f1 -> 0 <= f2 -> 0 <= f3 ->
    (Z.testbit j f1 = true <-> joins n a flags v) -> (Z.testbit j f2 = true <-> joins n a flags h) ->
    (Z.testbit j f3 = true <-> joins n a flags v /\ joins n a flags h /\ joins n a flags c) ->
    exists x, corner j what f1 n1 f2 n2 f3 = what ++ 45%N :: x /\ piece n a flags v h c n1 n2 x.
  Proof using Type.
    clear from_vars sprite_of_type f_int. intros n a flags j f1 f2 f3 v h c what n1 n2 P1 P2 P3 H1 H2 H3. unfold corner. rewrite !bit_testbit by assumption.
    cbn [app]. eexists. split; [reflexivity|].
    destruct (Z.testbit j f1), (Z.testbit j f2); cbn [andb].
    - destruct (Z.testbit j f3); [apply piece_full|apply piece_both]; try tauto; intuition congruence.
    - apply piece_v; intuition congruence.
    - apply piece_h; intuition congruence.
    - apply piece_none; intuition congruence.
  Qed.

  (** the four pieces of an object, for the corners northwest, northeast, southwest and southeast *)
  Definition four_pieces (n : Neighborhood) (a : Atom) (flags : Z) (l : list Sprite) : Prop :=
    exists s1 s2 s3 s4 x1 x2 x3 x4, l = [s1; s2; s3; s4] /\
      shows_state a (lit "1-" ++ x1) s1 /\ piece n a flags North West Northwest (lit "n") (lit "w") x1 /\
      shows_state a (lit "2-" ++ x2) s2 /\ piece n a flags North East Northeast (lit "n") (lit "e") x2 /\
      shows_state a (lit "3-" ++ x3) s3 /\ piece n a flags South West Southwest (lit "s") (lit "w") x3 /\
      shows_state a (lit "4-" ++ x4) s4 /\ piece n a flags South East Southeast (lit "s") (lit "e") x4.

  Lemma cardinal_pieces : forall n a flags j, junction n a flags j -> four_pieces n a flags (cardinal_smooth F var a j).
  Proof using Type.
    intros n a flags j (B & B0 & B1 & B2 & B3 & B4 & B5 & B6 & B7). unfold joins_corner in *.
    destruct (corner_piece n a flags j NORTH_J WEST_J NORTHWEST_J North West Northwest (lit "1") (lit "n") (lit "w")) as (x1 & E1 & P1);
      unfold NORTH_J, WEST_J, NORTHWEST_J in *; try lia; try assumption.
    destruct (corner_piece n a flags j NORTH_J EAST_J NORTHEAST_J North East Northeast (lit "2") (lit "n") (lit "e")) as (x2 & E2 & P2);
      unfold NORTH_J, EAST_J, NORTHEAST_J in *; try lia; try assumption.
    destruct (corner_piece n a flags j SOUTH_J WEST_J SOUTHWEST_J South West Southwest (lit "3") (lit "s") (lit "w")) as (x3 & E3 & P3);
      unfold SOUTH_J, WEST_J, SOUTHWEST_J in *; try lia; try assumption.
    destruct (corner_piece n a flags j SOUTH_J EAST_J SOUTHEAST_J South East Southeast (lit "4") (lit "s") (lit "e")) as (x4 & E4 & P4);
      unfold SOUTH_J, EAST_J, SOUTHEAST_J in *; try lia; try assumption.
    unfold cardinal_smooth. exists (smoothed F var a (lit "1" ++ 45%N :: x1)), (smoothed F var a (lit "2" ++ 45%N :: x2)),
      (smoothed F var a (lit "3" ++ 45%N :: x3)), (smoothed F var a (lit "4" ++ 45%N :: x4)), x1, x2, x3, x4.
    unfold NORTH_J, SOUTH_J, EAST_J, WEST_J, NORTHEAST_J, SOUTHEAST_J, SOUTHWEST_J, NORTHWEST_J.
    rewrite E1, E2, E3, E4. split; [reflexivity|].
    split; [apply smoothed_shows|]. split; [exact P1|]. split; [apply smoothed_shows|]. split; [exact P2|].
    split; [apply smoothed_shows|]. split; [exact P3|]. split; [apply smoothed_shows|exact P4].
  Qed.

  (** the flags that the pass sees *)
  Definition flags_of (mask : Z) (a : Atom) (flags : Z) : Prop :=
    (forall f, var a (lit "smoothing_flags") = CFloat f -> flags = Z.land mask (f_int f)) /\
    ((forall f, var a (lit "smoothing_flags") <> CFloat f) -> flags = 0).

  Lemma flags_eq : forall mask a flags, flags_of mask a flags -> Z.land mask (or (to_int F f_int (var a (lit "smoothing_flags"))) 0) = flags.
  Proof using Type.
    intros mask a flags [H1 H2]. destruct (var a (lit "smoothing_flags")); cbn [to_int or]; try (symmetry; rewrite H2 by discriminate; rewrite Z.land_0_r; reflexivity).
    symmetry. apply H1. reflexivity.
  Qed.

  (** C64, corners: an object with the first flag is shown as four pieces, each determined by the two
      sides and the diagonal at its corner. *)
  Theorem C64_corners_partial : forall mask a n flags, flags_of mask a flags -> ~ movable a ->
    Z.testbit flags 0 = true -> Z.testbit flags 2 = false ->
    exists l, smooth_2020 mask a n = (l, false) /\ four_pieces n a flags l.
  Proof using Type.
    intros mask a n flags Hf Hm H0 H2. unfold Model.smooth_2020. rewrite (flags_eq _ _ _ Hf). rewrite !bit_testbit by (unfold SMOOTH_CORNERS, SMOOTH_DIAGONAL_CORNERS; lia).
    unfold SMOOTH_CORNERS, SMOOTH_DIAGONAL_CORNERS. rewrite H0, H2. eexists. split; [reflexivity|].
    apply cardinal_pieces, adjacencies_junction, Hm.
  Qed.

  (** ** Diagonal walls *)

  (** what is seen behind a diagonal wall whose sides [v] and [h] do not join: space, or the nearest open turf there *)
  Definition wants_space (a : Atom) : Prop :=
    exists l pre k v post, var a (lit "fixed_underlay") = CList l /\ l = pre ++ (k, Some v) :: post /\
      const_eqb F fl (CString (lit "space")) k = true /\
      forall e, In e pre -> const_eqb F fl (CString (lit "space")) (fst e) = false.
  Inductive behind (n : Neighborhood) (a : Atom) (d : Dir) : Sprite -> Prop :=
  | behind_space : wants_space a -> behind n a d (sprite_of_type (lit "/turf/open/space/basic"))
  | behind_turf b pre post :
      ~ wants_space a ->
      nb_offset n d ++ nb_offset n (counterclockwise_45 d) ++ nb_offset n (clockwise_45 d) = pre ++ b :: post ->
      istype b (lit "/turf/open/") = true -> (forall e, In e pre -> istype e (lit "/turf/open/") = false) ->
      behind n a d (from_vars b)
  | behind_plating :
      ~ wants_space a ->
      (forall e, In e (nb_offset n d ++ nb_offset n (counterclockwise_45 d) ++ nb_offset n (clockwise_45 d)) -> istype e (lit "/turf/open/") = false) ->
      behind n a d (sprite_of_type (lit "/turf/open/floor/plating")).

  Lemma find_first : forall (A : Type) (f : A -> bool) l x, find f l = Some x ->
    exists pre post, l = pre ++ x :: post /\ f x = true /\ forall e, In e pre -> f e = false.
  Proof using Type.
    clear. intros A f l x. induction l as [|y l IH]; cbn [find]; [discriminate|]. destruct (f y) eqn:E.
    - intros [= ->]. exists [], l. split; [reflexivity|]. split; [exact E|]. intros e [].
    - intro H. destruct (IH H) as (pre & post & -> & Hx & Hp). exists (y :: pre), post. split; [reflexivity|]. split; [exact Hx|].
      intros e [<-|He]; [exact E|exact (Hp e He)].
  Qed.

  Lemma index_space : forall a, wants_space a <-> exists v, index_str F fl (var a (lit "fixed_underlay")) (lit "space") = Some v.
  Proof using Type.
    clear from_vars sprite_of_type f_int. intro a. unfold wants_space, index_str. split.
    - intros (l & pre & k & v & post & -> & -> & Hk & Hp). exists v.
      assert (E : find (fun e : constant * option constant => const_eqb F fl (CString (lit "space")) (fst e)) (pre ++ (k, Some v) :: post) = Some (k, Some v)).
      { clear - Hk Hp. induction pre as [|e pre IH]; cbn [app find fst]; [rewrite Hk; reflexivity|].
        rewrite (Hp e (or_introl eq_refl)). apply IH. intros e' He. apply Hp. right. exact He. }
      rewrite E. reflexivity.
    - intros [v E]. destruct (var a (lit "fixed_underlay")) as [h|t ar|l|f0 ar|p|s|s|f] eqn:Ev; try discriminate.
      destruct (find _ l) as [[k w]|] eqn:Ef; [|discriminate]. cbn [snd] in E. subst w.
      destruct (find_first _ _ _ _ Ef) as (pre & post & E1 & E2 & E3). exists l, pre, k, v, post. auto.
  Qed.

  Lemma underlay_behind : forall n a j d, reverse_ndir j = Some d ->
    exists s, diagonal_underlay F fl path_of var from_vars sprite_of_type n a j = [s] /\ behind n a (flip d) s.
  Proof using Type.
    intros n a j d Hd. unfold diagonal_underlay. pose proof (index_space a) as Hw.
    destruct (index_str F fl (var a (lit "fixed_underlay")) (lit "space")) as [v|] eqn:Ei.
    - eexists. split; [reflexivity|]. apply behind_space. apply Hw. eexists. reflexivity.
    - assert (Hn : ~ wants_space a) by (intro H; apply Hw in H; destruct H as [v H]; discriminate).
      rewrite Hd. destruct (find _ _) as [b|] eqn:Ef.
      + destruct (find_first _ _ _ _ Ef) as (pre & post & E1 & E2 & E3). eexists. split; [reflexivity|].
        eapply behind_turf; eassumption.
      + eexists. split; [reflexivity|]. apply behind_plating; [exact Hn|]. apply find_none. exact Ef.
  Qed.

  (** the four ways to be a corner: [v], [h] join, [c] lies between them, the wall is cut off at the other side *)
  Inductive cut : Dir -> Dir -> Dir -> text -> Prop :=
  | cut_se : cut North West Northwest (lit "d-se")
  | cut_sw : cut North East Northeast (lit "d-sw")
  | cut_ne : cut South West Southwest (lit "d-ne")
  | cut_nw : cut South East Southeast (lit "d-nw").
  Definition only (n : Neighborhood) (a : Atom) (flags : Z) (v h : Dir) : Prop :=
    joins n a flags v /\ joins n a flags h /\ ~ joins n a flags (flip v) /\ ~ joins n a flags (flip h).

  (** [presets] and [reverse_ndir] by cases on the bits *)
  Lemma preset_table : forall x0 x1 x2 x3 x4 x5 x6 x7, let j := adj_of x0 x1 x2 x3 x4 x5 x6 x7 in
    presets j =
      (if x0 && negb x1 && x3 && negb x2 then Some (lit "d-se", if x7 then lit "d-se-1" else lit "d-se-0")
       else if x0 && negb x1 && x2 && negb x3 then Some (lit "d-sw", if x4 then lit "d-sw-1" else lit "d-sw-0")
       else if x1 && negb x0 && x3 && negb x2 then Some (lit "d-ne", if x6 then lit "d-ne-1" else lit "d-ne-0")
       else if x1 && negb x0 && x2 && negb x3 then Some (lit "d-nw", if x5 then lit "d-nw-1" else lit "d-nw-0")
       else None) /\
    reverse_ndir j =
      (if x0 && negb x1 && x3 && negb x2 then Some Northwest
       else if x0 && negb x1 && x2 && negb x3 then Some Northeast
       else if x1 && negb x0 && x3 && negb x2 then Some Southwest
       else if x1 && negb x0 && x2 && negb x3 then Some Southeast
       else if x0 && negb x1 && negb x2 && negb x3 then Some North
       else if x1 && negb x0 && negb x2 && negb x3 then Some South
       else if x2 && negb x3 && negb x0 && negb x1 then Some East
       else if x3 && negb x2 && negb x0 && negb x1 then Some West
       else None).
  Proof using Type. intros. destruct x0, x1, x2, x3, x4, x5, x6, x7; vm_compute; split; reflexivity. Qed.

  Lemma only_corner : forall n a flags, is_corner F fl path_of var n a flags <-> exists v h c s, cut v h c s /\ only n a flags v h.
  Proof using Type.
    clear from_vars sprite_of_type f_int. intros n a flags. unfold is_corner, only. 
    assert (D : forall d, joins n a flags d \/ ~ joins n a flags d).
    { intro d. rewrite <- find_joins. destruct (find_dir n a d flags); [left; reflexivity|right; discriminate]. }
    split.
    - intros [H1 H2]. destruct (D North) as [N|N], (D West) as [W|W].
      + exists North, West, Northwest, (lit "d-se"). split; [constructor|]. cbn [flip]. tauto.
      + exists North, East, Northeast, (lit "d-sw"). split; [constructor|]. cbn [flip]. tauto.
      + exists South, West, Southwest, (lit "d-ne"). split; [constructor|]. cbn [flip]. destruct (D South), (D East); tauto.
      + exists South, East, Southeast, (lit "d-nw"). split; [constructor|]. cbn [flip]. destruct (D South), (D East); tauto.
    - intros (v & h & c & s & Hc & H). destruct Hc; cbn [flip] in H; tauto.
  Qed.

  (** C64, diagonal corners: where two neighbouring sides join and no other, the object is cut off diagonally,
      with or without the tile between them, and behind a wall there is what lies on the other side;
      otherwise it is shown as four pieces. *)
  Theorem C64_diagonal_partial : forall mask a n flags, flags_of mask a flags -> ~ movable a ->
    Z.testbit flags 0 = true -> Z.testbit flags 2 = true ->
    exists l, smooth_2020 mask a n = (l, false) /\
      (~ is_corner F fl path_of var n a flags -> four_pieces n a flags l) /\
      (forall v h c st, cut v h c st -> only n a flags v h ->
         exists under s1 s2, l = under ++ [s1; s2] /\ shows_state a st s1 /\
           (joins n a flags c -> shows_state a (st ++ lit "-1") s2) /\ (~ joins n a flags c -> shows_state a (st ++ lit "-0") s2) /\
           (istype a (lit "/turf/closed/wall/") = false -> under = []) /\
           (istype a (lit "/turf/closed/wall/") = true -> exists s, under = [s] /\ behind n a (flip c) s)).
  Proof using Type.
    intros mask a n flags Hf Hm H0 H2. unfold Model.smooth_2020. rewrite (flags_eq _ _ _ Hf).
    rewrite !bit_testbit by (unfold SMOOTH_CORNERS, SMOOTH_DIAGONAL_CORNERS; lia). unfold SMOOTH_CORNERS, SMOOTH_DIAGONAL_CORNERS. rewrite H0, H2.
    eexists. split; [reflexivity|]. unfold diagonal_smooth.
    pose proof (adjacencies_junction n a flags Hm) as Hj.
    set (j := calculate_adjacencies F fl path_of var n a flags) in *.
    assert (Ej : j = calculate_adjacencies F fl path_of var n a flags) by reflexivity.
    rewrite adjacencies_of in Ej by exact Hm.
    match type of Ej with _ = adj_of ?x0 ?x1 ?x2 ?x3 ?x4 ?x5 ?x6 ?x7 =>
      destruct (preset_table x0 x1 x2 x3 x4 x5 x6 x7) as [Ep Er] end.
    cbv zeta in Ep, Er. rewrite <- Ej in Ep, Er. clear Ej. split.
    - intro Hn. rewrite only_corner in Hn.
      assert (E : presets j = None).
      { rewrite Ep.
        destruct (find_dir n a North flags && negb (find_dir n a South flags) && find_dir n a West flags && negb (find_dir n a East flags)) eqn:C1.
        { exfalso. apply Hn. exists North, West, Northwest, (lit "d-se"). split; [constructor|]. unfold only. cbn [flip]. rewrite <- !find_joins.
          rewrite !andb_true_iff, !negb_true_iff in C1. intuition congruence. }
        destruct (find_dir n a North flags && negb (find_dir n a South flags) && find_dir n a East flags && negb (find_dir n a West flags)) eqn:C2.
        { exfalso. apply Hn. exists North, East, Northeast, (lit "d-sw"). split; [constructor|]. unfold only. cbn [flip]. rewrite <- !find_joins.
          rewrite !andb_true_iff, !negb_true_iff in C2. intuition congruence. }
        destruct (find_dir n a South flags && negb (find_dir n a North flags) && find_dir n a West flags && negb (find_dir n a East flags)) eqn:C3.
        { exfalso. apply Hn. exists South, West, Southwest, (lit "d-ne"). split; [constructor|]. unfold only. cbn [flip]. rewrite <- !find_joins.
          rewrite !andb_true_iff, !negb_true_iff in C3. intuition congruence. }
        destruct (find_dir n a South flags && negb (find_dir n a North flags) && find_dir n a East flags && negb (find_dir n a West flags)) eqn:C4.
        { exfalso. apply Hn. exists South, East, Southeast, (lit "d-nw"). split; [constructor|]. unfold only. cbn [flip]. rewrite <- !find_joins.
          rewrite !andb_true_iff, !negb_true_iff in C4. intuition congruence. }
        reflexivity. }
      rewrite E. apply cardinal_pieces. exact Hj.
    - intros v h c st Hc Ho. unfold only in Ho. rewrite <- !find_joins in Ho.
      assert (E : presets j = Some (st, if find_dir n a c flags then st ++ lit "-1" else st ++ lit "-0") /\ reverse_ndir j = Some c).
      { rewrite Ep, Er. destruct Hc; cbn [flip] in Ho; destruct Ho as (O1 & O2 & O3 & O4); apply not_true_is_false in O3; apply not_true_is_false in O4;
          rewrite O1, O2, O3, O4; cbn [andb negb]; split; try reflexivity;
          match goal with |- Some (_, if ?b then _ else _) = _ => destruct b; reflexivity end. }
      destruct E as [E1 E2]. rewrite E1.
      eexists _, _, _. split; [reflexivity|]. split; [apply smoothed_shows|].
      split; [intro H; apply find_joins in H; rewrite H; apply smoothed_shows|].
      split; [intro H; rewrite <- find_joins in H; apply not_true_is_false in H; rewrite H; apply smoothed_shows|].
      split; [intros ->; reflexivity|]. intros ->.
      destruct (underlay_behind n a j c E2) as (s & Es & Hs). exists s. split; [exact Es|exact Hs].
  Qed.

  (** ** The bitmask *)
  Lemma dec_written : forall j, 0 <= j < 256 -> written (dec j) j.
  Proof using Type.
    clear. intros j Hj.
    assert (H : forallb (fun k => let j := Z.of_nat k in
        match digits_value 0 (dec j) with Some m => (m =? Z.to_N j)%N | None => false end &&
        match dec j with [] => false | 48%N :: _ :: _ => false | _ => true end) (seq 0 256) = true) by (vm_compute; reflexivity).
    rewrite forallb_forall in H. specialize (H (Z.to_nat j)). rewrite in_seq in H. specialize (H ltac:(lia)). cbv zeta in H.
    rewrite Z2Nat.id in H by lia. apply andb_true_iff in H. destruct H as [H1 H2]. split; [|split].
    - destruct (digits_value 0 (dec j)); [|discriminate]. apply N.eqb_eq in H1. congruence.
    - intro E. rewrite E in H2. discriminate.
    - intros s' E. rewrite E in H2. destruct s'; [reflexivity|discriminate].
  Qed.

  (** exactly one side joins *)
  Definition is_end (n : Neighborhood) (a : Atom) (flags : Z) : Prop :=
    exists d, In d [North; South; East; West] /\ forall e, In e [North; South; East; West] -> (joins n a flags e <-> e = d).

  Definition is_cut (n : Neighborhood) (a : Atom) (flags : Z) : Prop :=
    istype a (lit "/turf/closed/") = true /\ Z.testbit flags 2 = true /\ (is_corner F fl path_of var n a flags \/ is_end n a flags).

  Lemma reverse_cut : forall n a flags, ~ movable a ->
    ((exists d, reverse_ndir (calculate_adjacencies F fl path_of var n a flags) = Some d) <-> is_corner F fl path_of var n a flags \/ is_end n a flags).
  Proof using Type.
    clear from_vars sprite_of_type f_int. intros n a flags Hm. rewrite adjacencies_of by exact Hm.
    match goal with |- context [adj_of ?x0 ?x1 ?x2 ?x3 ?x4 ?x5 ?x6 ?x7] =>
      destruct (preset_table x0 x1 x2 x3 x4 x5 x6 x7) as [_ Er] end.
    cbv zeta in Er. rewrite Er. clear Er. unfold is_corner, is_end. rewrite <- !find_joins.
    assert (Hd : forall d, (forall e, In e [North; South; East; West] -> (joins n a flags e <-> e = d)) <->
              (forall e, In e [North; South; East; West] -> (find_dir n a e flags = true <-> e = d))).
    { intro d. split; intros H e He; [rewrite find_joins|rewrite <- find_joins]; exact (H e He). }
    split.
    - intros [d E].
      destruct (find_dir n a North flags) eqn:FN, (find_dir n a South flags) eqn:FS, (find_dir n a East flags) eqn:FE, (find_dir n a West flags) eqn:FW;
        cbn [andb negb] in E; try discriminate E;
        try (left; split; split; intros; congruence); right.
      + exists North. split; [cbn; tauto|]. apply Hd. intros e [<-|[<-|[<-|[<-|[]]]]]; rewrite ?FN, ?FS, ?FE, ?FW; split; intro; congruence.
      + exists South. split; [cbn; tauto|]. apply Hd. intros e [<-|[<-|[<-|[<-|[]]]]]; rewrite ?FN, ?FS, ?FE, ?FW; split; intro; congruence.
      + exists East. split; [cbn; tauto|]. apply Hd. intros e [<-|[<-|[<-|[<-|[]]]]]; rewrite ?FN, ?FS, ?FE, ?FW; split; intro; congruence.
      + exists West. split; [cbn; tauto|]. apply Hd. intros e [<-|[<-|[<-|[<-|[]]]]]; rewrite ?FN, ?FS, ?FE, ?FW; split; intro; congruence.
    - intros [[H1 H2]|(d & Hin & H)].
      + destruct (find_dir n a North flags), (find_dir n a South flags), (find_dir n a East flags), (find_dir n a West flags);
          cbn [andb negb]; try (eexists; reflexivity); exfalso; intuition congruence.
      + pose proof (proj1 (Hd d) H) as H'. clear H. rename H' into H. pose proof (H North ltac:(cbn; tauto)) as HN. pose proof (H South ltac:(cbn; tauto)) as HS.
        pose proof (H East ltac:(cbn; tauto)) as HE. pose proof (H West ltac:(cbn; tauto)) as HW.
        destruct (find_dir n a North flags), (find_dir n a South flags), (find_dir n a East flags), (find_dir n a West flags);
          cbn [andb negb]; try (eexists; reflexivity); exfalso;
          destruct Hin as [<-|[<-|[<-|[<-|[]]]]]; intuition congruence.
  Qed.

  Lemma closed_not_floor : forall a : Atom, istype a (lit "/turf/closed/") = true -> istype a (lit "/turf/open/floor/") = false.
  Proof using Type.
    intros a. unfold Model.istype, ispath.
    change (trim_end_matches SLASH (lit "/turf/closed/")) with (lit "/turf/closed").
    change (trim_end_matches SLASH (lit "/turf/open/floor/")) with (lit "/turf/open/floor").
    destruct (strip_prefix (lit "/turf/closed") (path_of (type_ a))) as [r|] eqn:E; [|discriminate]. intros _.
    apply strip_prefix_spec in E. rewrite E. reflexivity.
  Qed.

  (** what bitmask smoothing shows, [post]: in 2025 *)
  Definition bitmask_shows (post : bool) (n : Neighborhood) (a : Atom) (flags : Z) (out : list Sprite * bool) : Prop :=
    let broken := istype a (lit "/turf/open/floor/") = true /\
                  (to_bool F fl (var a (lit "broken")) = true \/ to_bool F fl (var a (lit "burnt")) = true) in
    let ready := post = true /\ forall h, var a (lit "post_init_icon_state") <> CNull h in
    (broken -> out = ([], true)) /\
    (~ broken -> exists under,
       (~ is_cut n a flags -> under = []) /\
       (is_cut n a flags -> exists d s, under = [s] /\ behind n a d s /\ forall e, e = d \/ e = counterclockwise_45 d \/ e = clockwise_45 d ->
          In e [North; South; East; West] -> ~ joins n a flags e) /\
       (ready -> out = (under, true)) /\
       (~ ready -> exists s j num suffix, out = (under ++ [s], false) /\ junction n a flags j /\ written num j /\
          (is_cut n a flags -> suffix = lit "-d") /\ (~ is_cut n a flags -> suffix = []) /\
          ((forall base, var a (lit "base_icon_state") = CString base -> shows_state a (base ++ lit "-" ++ num ++ suffix) s) /\
           ((forall base, var a (lit "base_icon_state") <> CString base) -> shows_state a (lit "-" ++ num ++ suffix) s)))).

  Lemma bitmask_spec : forall post n a flags, ~ movable a ->
    bitmask_shows post n a flags (bitmask_smooth F fl path_of var from_vars sprite_of_type post n a (calculate_adjacencies F fl path_of var n a flags) flags).
  Proof using Type.
    intros post n a flags Hm. unfold bitmask_shows, bitmask_smooth, truth.
    pose proof (adjacencies_junction n a flags Hm) as Hj. pose proof (reverse_cut n a flags Hm) as Hr.
    assert (Hrd : forall d, reverse_ndir (calculate_adjacencies F fl path_of var n a flags) = Some d ->
      forall e, e = flip d \/ e = counterclockwise_45 (flip d) \/ e = clockwise_45 (flip d) -> In e [North; South; East; West] -> ~ joins n a flags e).
    { intro d. rewrite adjacencies_of by exact Hm.
      match goal with |- context [adj_of ?x0 ?x1 ?x2 ?x3 ?x4 ?x5 ?x6 ?x7] =>
        destruct (preset_table x0 x1 x2 x3 x4 x5 x6 x7) as [_ Er] end.
      cbv zeta in Er. rewrite Er. clear. intros E e He Hin. rewrite <- find_joins.
      destruct (find_dir n a North flags) eqn:FN, (find_dir n a South flags) eqn:FS, (find_dir n a East flags) eqn:FE, (find_dir n a West flags) eqn:FW;
        cbn [andb negb] in E; try discriminate E; injection E as <-; cbn [flip clockwise_45 counterclockwise_45] in He;
        destruct He as [He|[He|He]]; subst e; try congruence; cbn in Hin; exfalso; intuition congruence. }
    set (j := calculate_adjacencies F fl path_of var n a flags) in *. clearbody j.
    destruct (istype a (lit "/turf/open/floor/") && (to_bool F fl (var a (lit "broken")) || to_bool F fl (var a (lit "burnt")))) eqn:Eb.
    { rewrite andb_true_iff, orb_true_iff in Eb. split; [reflexivity|]. intro H. contradiction H. }
    split. { intros [H1 H2]. exfalso. rewrite H1 in Eb. cbn [andb] in Eb. rewrite orb_false_iff in Eb. destruct Eb, H2; congruence. }
    intros _.
    set (diag := negb (istype a (lit "/turf/open/floor/")) && istype a (lit "/turf/closed/") && bit flags SMOOTH_DIAGONAL_CORNERS &&
                 match reverse_ndir j with Some _ => true | None => false end).
    assert (Hd : diag = true <-> is_cut n a flags).
    { unfold diag, is_cut. rewrite bit_testbit by (unfold SMOOTH_DIAGONAL_CORNERS; lia). unfold SMOOTH_DIAGONAL_CORNERS.
      rewrite !andb_true_iff, negb_true_iff, <- Hr. pose proof (closed_not_floor a) as Hcf. split.
      - intros [[[H1 H2] H3] H4]. split; [exact H2|]. split; [exact H3|]. destruct (reverse_ndir j); [eauto|discriminate].
      - intros (H1 & H2 & d & ->). auto. }
    exists (if diag then diagonal_underlay F fl path_of var from_vars sprite_of_type n a j else []).
    split. { intro H. destruct diag; [exfalso; apply H, Hd; reflexivity|reflexivity]. }
    split.
    { intro H. pose proof (proj2 Hd H) as E. rewrite E. destruct H as (_ & _ & Hc). apply Hr in Hc. destruct Hc as [d Ed].
      destruct (underlay_behind n a j d Ed) as (s & Es & Hs). exists (flip d), s. split; [exact Es|]. split; [exact Hs|]. apply Hrd. exact Ed. }
    assert (Hp : (post && negb (match var a (lit "post_init_icon_state") with CNull _ => true | _ => false end) = true) <->
      (post = true /\ forall h, var a (lit "post_init_icon_state") <> CNull h)).
    { rewrite andb_true_iff. destruct (var a (lit "post_init_icon_state")); cbn [negb]; split; intros [H1 H2]; split; try exact H1; try discriminate; try reflexivity.
      exfalso. eapply H2. reflexivity. }
    destruct (post && negb (match var a (lit "post_init_icon_state") with CNull _ => true | _ => false end)).
    { split; [reflexivity|]. intro H. contradiction H. apply Hp. reflexivity. }
    split; [intro H; apply Hp in H; discriminate|]. intros _.
    eexists _, j, (dec j), (if diag then lit "-d" else []). split; [reflexivity|]. split; [exact Hj|]. split; [apply dec_written, Hj|].
    split; [intro H; apply Hd in H; rewrite H; reflexivity|].
    split; [intro H; destruct diag; [exfalso; apply H, Hd; reflexivity|reflexivity]|].
    split.
    - intros base ->. cbn [as_str or]. apply smoothed_shows.
    - intro H. assert (E : or (as_str F (var a (lit "base_icon_state"))) [] = []).
      { destruct (var a (lit "base_icon_state")) as [h|t ar|l|f0 ar|p|s|s|f]; try reflexivity. exfalso. exact (H s eq_refl). }
      rewrite E. apply smoothed_shows.
  Qed.

  (** C64, bitmask: an object with the second flag (the first in 2025) is shown in the state that its number
      names, diagonally where it is cut off. *)
  Theorem C64_bitmask_partial : forall mask a n flags, flags_of mask a flags -> ~ movable a ->
    (Z.testbit flags 0 = false -> Z.testbit flags 1 = true -> bitmask_shows false n a flags (smooth_2020 mask a n)) /\
    (Z.testbit flags 0 = true -> bitmask_shows true n a flags (smooth_2025 mask a n)).
  Proof using Type.
    intros mask a n flags Hf Hm. unfold Model.smooth_2020, Model.smooth_2025. rewrite (flags_eq _ _ _ Hf).
    rewrite !bit_testbit by (unfold SMOOTH_CORNERS, SMOOTH_BITMASK, SMOOTH_DIAGONAL_CORNERS; lia). unfold SMOOTH_CORNERS, SMOOTH_BITMASK. split.
    - intros -> ->. apply bitmask_spec, Hm.
    - intros ->. apply bitmask_spec, Hm.
  Qed.

  (** C64: other objects keep their looks. *)
  Theorem C64_untouched : forall mask a n flags, flags_of mask a flags ->
    (Z.testbit flags 0 = false -> Z.testbit flags 1 = false -> smooth_2020 mask a n = ([], true)) /\
    (Z.testbit flags 0 = false -> smooth_2025 mask a n = ([], true)).
  Proof using Type.
    intros mask a n flags Hf. unfold Model.smooth_2020, Model.smooth_2025. rewrite (flags_eq _ _ _ Hf).
    rewrite !bit_testbit by (unfold SMOOTH_CORNERS, SMOOTH_BITMASK, SMOOTH_DIAGONAL_CORNERS; lia). unfold SMOOTH_CORNERS, SMOOTH_BITMASK.
    split; [intros -> ->|intros ->]; reflexivity.
  Qed.

  (** C64, refuted: an object that stands loose is smoothed all the same; the code asks for a path below /atom/movable,
      and no object has one *)
  Theorem C64_anchored_refuted : forall a n flags r, path_of (type_ a) = lit "/obj" ++ r ->
    to_bool F fl (var a (lit "can_be_unanchored")) = true -> to_bool F fl (var a (lit "anchored")) = false ->
    junction n a flags (calculate_adjacencies F fl path_of var n a flags).
  Proof using Type.
    clear from_vars sprite_of_type f_int. intros a n flags r Hp _ _. apply adjacencies_junction. unfold movable, Model.istype, ispath. rewrite Hp. discriminate.
  Qed.

  (** ** The pass of 2016 *)

  (** C64, refuted: it never joins an object to the types in its canSmoothWith *)
  Theorem C64_types_refuted : forall n a d flags l,
    var a (lit "canSmoothWith") = CList l -> (forall e, In e l -> exists p, fst e = CPrefab p) ->
    (forall b, In b (nb_offset n d) -> exists s, path_of (type_ b) = SLASH :: s) ->
    nb_offset n d <> [] -> find_type_2016 F path_of var n a d flags = Some false.
  Proof using Type.
    intros n a d flags l Hl Hp Hb Hne. unfold find_type_2016. rewrite Hl.
    assert (Hc : forall t, smoothlist_contains F l t = false).
    { intro t. unfold smoothlist_contains. destruct (existsb _ l) eqn:E; [|reflexivity]. apply existsb_exists in E.
      destruct E as (e & He & E). destruct (Hp e He) as [p Hq]. rewrite Hq in E. discriminate. }
    assert (Hcut : forall s, exists q, cut_last (SLASH :: s) = Some q /\ (q = [] \/ exists q', q = SLASH :: q') /\ (List.length q <= List.length s)%nat).
    { clear. intro s. cbn [cut_last]. destruct (cut_last s) as [q|] eqn:E.
      - exists (SLASH :: q). split; [reflexivity|]. split; [right; eexists; reflexivity|]. revert q E.
        induction s as [|c s IH]; intros q E; cbn [cut_last] in E; [discriminate|]. destruct (cut_last s) as [q0|] eqn:E0.
        + injection E as <-. specialize (IH q0 eq_refl). cbn [List.length] in *. lia.
        + destruct (N.eqb c SLASH); [injection E as <-; cbn; lia|discriminate].
      - rewrite N.eqb_refl. exists []. split; [reflexivity|]. split; [left; reflexivity|]. cbn. lia. }
    assert (Hcl : forall fuel t, (List.length t <= fuel)%nat -> (t = [] \/ exists s, t = SLASH :: s) -> climb_path F fuel l t = Some false).
    { induction fuel as [|fuel IH]; intros t Hf Ht.
      - destruct t; [reflexivity|cbn in Hf; lia].
      - destruct Ht as [->|[s ->]]; [reflexivity|]. cbn [climb_path]. rewrite Hc. destruct (Hcut s) as (q & -> & Hq & Hql).
        apply IH; [cbn [List.length] in Hf; lia|exact Hq]. }
    destruct (nb_offset n d) as [|b0 l0] eqn:En; [contradiction|]. rewrite <- En in *. clear En b0 l0 Hne.
    destruct (bit flags SMOOTH_MORE).
    - revert Hb. generalize (nb_offset n d) as bs. induction bs as [|b bs IH]; intro Hb; [reflexivity|]. cbn [climb_atoms].
      rewrite Hcl; [|lia|right; apply Hb; left; reflexivity]. apply IH. intros b' H'. apply Hb. right. exact H'.
    - f_equal. destruct (existsb _ _) eqn:E; [|reflexivity]. apply existsb_exists in E. destruct E as (b & _ & E). rewrite Hc in E. discriminate.
  Qed.
End Smooth.
Print Assumptions C64_corners_partial.
Print Assumptions C64_diagonal_partial.
Print Assumptions C64_bitmask_partial.
Print Assumptions C64_untouched.
Print Assumptions C64_anchored_refuted.
Print Assumptions C64_types_refuted.
