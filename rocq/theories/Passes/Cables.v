(** C65: cables. *)
From Coq Require Import List NArith ZArith Bool String Lia.
From Verif Require Import Common.Text Objtree.Ispath Const.Model Dmi.Model Minimap.Model Passes.Model Passes.Spec Passes.Config.
Import ListNotations.
Open Scope Z_scope.

Section Cables.
  Context (F : Type) {T V : Type}.
  Local Notation constant := (constant F).
  Local Notation Atom := (@Atom T V).
  Local Notation Neighborhood := (@Neighborhood T V).
  Context (path_of : T -> text) (var : Atom -> text -> constant).
  Local Notation stands := (stands path_of).
  Local Notation separated := (separated path_of).
  Local Notation has_cable := (has_cable F path_of var).
  Local Notation reaches := (reaches F path_of var).
  Local Notation istype := (istype path_of).

  Lemma stands_exists : forall (tile : list Atom) p, trim_end_matches SLASH p = trim_end_matches SLASH (p ++ [SLASH]) ->
    stands tile p <-> existsb (fun a => istype a (p ++ [SLASH])) tile = true.
  Proof using Type.
    intros tile p H. rewrite existsb_exists. unfold Spec.stands, Model.istype, ispath. rewrite <- H. reflexivity.
  Qed.
  Lemma stands_smes : forall tile : list Atom, stands tile smes <-> existsb (fun a => istype a (lit "/obj/machinery/power/smes/")) tile = true.
  Proof using Type. intro tile. apply (stands_exists tile smes). reflexivity. Qed.
  Lemma stands_terminal : forall tile : list Atom, stands tile terminal <-> existsb (fun a => istype a (lit "/obj/machinery/power/terminal/")) tile = true.
  Proof using Type. intro tile. apply (stands_exists tile terminal). reflexivity. Qed.

  Lemma smes_not_terminal : forall a : Atom, istype a (lit "/obj/machinery/power/smes/") = true -> istype a (lit "/obj/machinery/power/terminal/") = false.
  Proof using Type.
    intros a. unfold Model.istype, ispath.
    change (trim_end_matches SLASH (lit "/obj/machinery/power/smes/")) with (lit "/obj/machinery/power/smes").
    change (trim_end_matches SLASH (lit "/obj/machinery/power/terminal/")) with (lit "/obj/machinery/power/terminal").
    destruct (strip_prefix (lit "/obj/machinery/power/smes") (path_of (type_ a))) as [r|] eqn:E; [|discriminate]. intros _.
    apply strip_prefix_spec in E. rewrite E. reflexivity.
  Qed.

  Lemma under_smes_stands : forall tile : list Atom, under_smes path_of tile = true <-> stands tile smes.
  Proof using Type.
    intro tile. rewrite stands_smes. unfold under_smes. rewrite !existsb_exists. split; intros (a & Ha & H); exists a; (split; [exact Ha|]).
    - apply andb_true_iff in H. apply H.
    - rewrite H. rewrite (smes_not_terminal a H). reflexivity.
  Qed.

  Lemma layer_on : forall a l, cable_layer F var a = l <-> on_layer F var a l.
  Proof using Type.
    intros a l. unfold cable_layer, on_layer. destruct (var a (lit "cable_layer")) as [h|t ar|k|f0 ar|p|s|s|f]; cbn [as_str or].
    6: { split; [intros <-; left; reflexivity|]. intros [H|[_ H]]; [congruence|]. exfalso. exact (H s eq_refl). }
    all: split; [intros <-; right; split; [reflexivity|discriminate]|intros [H|[H _]]; [discriminate|congruence]].
  Qed.

  Lemma links_reaches : forall here l there, links F path_of var here l there = true <-> reaches l here there.
  Proof using Type.
    intros here l there. unfold links, Spec.reaches, Spec.separated.
    pose proof (under_smes_stands here) as H1. pose proof (stands_terminal here) as H2. fold (under_terminal path_of here) in H2.
    pose proof (stands_terminal there) as H3. pose proof (stands_smes there) as H4.
    assert (Hc : existsb (fun a => istype a (lit "/obj/structure/cable/") && text_eqb (cable_layer F var a) l) there = true <-> has_cable there l).
    { rewrite existsb_exists. unfold Spec.has_cable. split; intros (a & Ha & H); exists a; (split; [exact Ha|]).
      - apply andb_true_iff in H. destruct H as [H5 H6]. apply text_eqb_eq in H6. apply layer_on in H6. split; [exact H5|exact H6].
      - destruct H as [H5 H6]. apply layer_on in H6. apply andb_true_iff. split; [exact H5|]. apply text_eqb_eq. exact H6. }
    destruct (under_smes path_of here), (under_terminal path_of here),
      (existsb (fun a => istype a (lit "/obj/machinery/power/terminal/")) there), (existsb (fun a => istype a (lit "/obj/machinery/power/smes/")) there);
      cbv iota; rewrite ?Hc; split; try discriminate; clear Hc;
      intuition congruence.
  Qed.

  Lemma linked_table : forall b1 b2 b3 b4 : bool,
    let acc0 := if b1 then Z.lor 0 1 else 0 in
    let acc1 := if b2 then Z.lor acc0 2 else acc0 in
    let acc2 := if b3 then Z.lor acc1 4 else acc1 in
    let acc3 := if b4 then Z.lor acc2 8 else acc2 in
    (acc3 =? 0) = negb (b1 || b2 || b3 || b4) /\
    filter (fun d => negb (Z.land acc3 (Dmi.Model.to_int d) =? 0)) CARDINALS =
      (if b1 then [North] else []) ++ (if b2 then [South] else []) ++ (if b3 then [East] else []) ++ (if b4 then [West] else []).
  Proof using Type. clear. intros [|] [|] [|] [|]; vm_compute; split; reflexivity. Qed.

  Lemma node_spec : forall tile : list Atom, should_have_node path_of tile = true <-> needs_node path_of tile.
  Proof using Type.
    intro tile. unfold should_have_node, needs_node, Spec.stands. rewrite existsb_exists. split.
    - intros (a & Ha & H). rewrite !orb_true_iff in H. destruct H as [[H|H]|H]; [left|right; left|right; right]; exists a; (split; [exact Ha|exact H]).
    - intros [(a & Ha & H)|[(a & Ha & H)|(a & Ha & H)]]; exists a; (split; [exact Ha|]); rewrite !orb_true_iff; [left; left|left; right|right]; exact H.
  Qed.

  Lemma state_name : forall n l, cable_name F path_of var n l (cable_state F path_of var n l).
  Proof using Type.
    intros n l. unfold cable_name, cable_state. cbv zeta. 
    assert (E : linked_dirs F path_of var n l =
      let acc0 := if links F path_of var (nb_center n) l (nb_offset n North) then Z.lor 0 1 else 0 in
      let acc1 := if links F path_of var (nb_center n) l (nb_offset n South) then Z.lor acc0 2 else acc0 in
      let acc2 := if links F path_of var (nb_center n) l (nb_offset n East) then Z.lor acc1 4 else acc1 in
      if links F path_of var (nb_center n) l (nb_offset n West) then Z.lor acc2 8 else acc2) by reflexivity.
    rewrite E. clear E. cbv zeta.
    pose proof (links_reaches (nb_center n) l (nb_offset n North)) as LN. pose proof (links_reaches (nb_center n) l (nb_offset n South)) as LS.
    pose proof (links_reaches (nb_center n) l (nb_offset n East)) as LE. pose proof (links_reaches (nb_center n) l (nb_offset n West)) as LW.
    set (bN := links F path_of var (nb_center n) l (nb_offset n North)) in *. set (bS := links F path_of var (nb_center n) l (nb_offset n South)) in *.
    set (bE := links F path_of var (nb_center n) l (nb_offset n East)) in *. set (bW := links F path_of var (nb_center n) l (nb_offset n West)) in *.
    clearbody bN bS bE bW.
    destruct (linked_table bN bS bE bW) as [E1 E2]. cbv zeta in E1, E2. rewrite E1, E2. clear E1 E2.
    exists ((if bN then [lit "-1"] else []) ++ (if bS then [lit "-2"] else []) ++ (if bE then [lit "-4"] else []) ++ (if bW then [lit "-8"] else [])).
    split.
    { change (lit "-1") with (side North). change (lit "-2") with (side South). change (lit "-4") with (side East). change (lit "-8") with (side West).
      destruct bN; cbn [app]; [apply part_in; [apply LN; reflexivity|]|apply part_out; [rewrite <- LN; discriminate|]];
      (destruct bS; cbn [app]; [apply part_in; [apply LS; reflexivity|]|apply part_out; [rewrite <- LS; discriminate|]]);
      (destruct bE; cbn [app]; [apply part_in; [apply LE; reflexivity|]|apply part_out; [rewrite <- LE; discriminate|]]);
      (destruct bW; cbn [app]; [apply part_in; [apply LW; reflexivity|]|apply part_out; [rewrite <- LW; discriminate|]]); apply part_nil. }
    pose proof (node_spec (nb_center n)) as Hn. destruct (should_have_node path_of (nb_center n)).
    - assert (Hn' : needs_node path_of (nb_center n)) by (apply Hn; reflexivity). clear - Hn'.
      destruct bN, bS, bE, bW; (split; [intro H; try discriminate H; try reflexivity|]);
        (split; [intros [H|[H1 H2]]; try discriminate H; try contradiction; reflexivity|]); intros H _; cbn [app List.length] in H; try lia; reflexivity.
    - assert (Hn' : ~ needs_node path_of (nb_center n)) by (intro H; apply Hn in H; discriminate). clear - Hn'.
      destruct bN, bS, bE, bW; (split; [intro H; try discriminate H; try reflexivity|]);
        (split; [intros [H|[H1 H2]]; try discriminate H; try contradiction; reflexivity|]); intros H H'; contradiction.
  Qed.

  (** C65: a cable is shown in the state named after the tiles it reaches, and looks the same otherwise. *)
  Theorem C65_state : forall a n l, istype a (lit "/obj/structure/cable") = true -> istype a (lit "/obj/structure/cable/multilayer") = false ->
    on_layer F var a l ->
    exists s, smart_cables F path_of var a n = ([s], false) /\ cable_name F path_of var n l (icon_state s) /\
      icon s = icon (sprite a) /\ sdir s = sdir (sprite a) /\ color s = color (sprite a) /\ ofs_x s = ofs_x (sprite a) /\
      ofs_y s = ofs_y (sprite a) /\ plane s = plane (sprite a) /\ layer s = layer (sprite a).
  Proof using Type.
    intros a n l H1 H2 Hl. unfold smart_cables. change (istype a (lit "/obj/structure/cable/")) with (istype a (lit "/obj/structure/cable")).
    rewrite H1, H2. cbn [negb orb]. eexists. split; [reflexivity|]. apply layer_on in Hl. subst l.
    split; [apply state_name|]. repeat split.
  Qed.

  (** C65: everything else keeps its looks. *)
  Theorem C65_untouched : forall a n, istype a (lit "/obj/structure/cable") = false \/ istype a (lit "/obj/structure/cable/multilayer") = true ->
    smart_cables F path_of var a n = ([], true).
  Proof using Type.
    intros a n H. unfold smart_cables. change (istype a (lit "/obj/structure/cable/")) with (istype a (lit "/obj/structure/cable")).
    destruct H as [-> | ->]; [reflexivity|]. rewrite orb_true_r. reflexivity.
  Qed.

  (** C65: where no tile has both a storage unit and a terminal, a cable that reaches over to the next tile is
      reached from there. *)
  Theorem C65_mutual_partial : forall l here there,
    ~ (stands here smes /\ stands here terminal) -> ~ (stands there smes /\ stands there terminal) ->
    has_cable here l -> reaches l here there -> reaches l there here.
  Proof using Type.
    intros l here there H1 H2 H3 [H4 H5]. split; [exact H3|]. unfold Spec.separated in *.
    pose proof (stands_smes here) as D1. pose proof (stands_terminal here) as D2.
    destruct (existsb (fun a => istype a (lit "/obj/machinery/power/smes/")) here); [|];
    intros [[A B]|[A [B C]]]; intuition congruence.
  Qed.
End Cables.

Definition zero_sprite : Sprite :=
  {| icon := []; icon_state := []; sdir := South; color := {| r := 255; g := 255; b := 255; a := 255 |}; ofs_x := 0; ofs_y := 0; plane := 0; layer := {| whole := 0; frac := 0 |} |}.

(** C65, refuted: on a tile with both, the cable reaches over to a storage unit next to it, but not back. *)
Theorem C65_mutual_refuted : exists (T : Type) (path_of : T -> text) (var : @Atom T unit -> text -> constant unit) (l : text) (here there : list (@Atom T unit)),
  has_cable unit path_of var here l /\ reaches unit path_of var l here there /\ ~ reaches unit path_of var l there here.
Proof.
  pose (at_ p := {| type_ := lit p; prefab := None; sprite := zero_sprite |} : @Atom text unit).
  exists text, (fun t => t), (fun _ _ => CNull None), (lit "l2"),
    [at_ "/obj/structure/cable"%string; at_ "/obj/machinery/power/smes"%string; at_ "/obj/machinery/power/terminal"%string],
    [at_ "/obj/structure/cable"%string; at_ "/obj/machinery/power/smes"%string].
  rewrite <- !links_reaches. split.
  - exists (at_ "/obj/structure/cable"%string). split; [left; reflexivity|]. split; [reflexivity|]. right. split; [reflexivity|discriminate].
  - split; [vm_compute; reflexivity|vm_compute; discriminate].
Qed.
Print Assumptions C65_state.
Print Assumptions C65_untouched.
Print Assumptions C65_mutual_partial.
Print Assumptions C65_mutual_refuted.
