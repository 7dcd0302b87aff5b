(** C60: a concrete map that meets the hypotheses. *)
From Coq Require Import List NArith ZArith Bool Lia String.
From Verif Require Import Common.Text Dmi.Model Dmi.Spec Minimap.Model Minimap.Spec Minimap.Draw Minimap.Scene Minimap.Props.
Import ListNotations.
Open Scope Z_scope.

Definition px (v : Z) : Rgba8 := {| r := v; g := 0; b := 0; a := 255 |}.
(** a 2 x 2 icon: 1 2 above 3 4 *)
Definition file : @IconFile unit :=
  {| metadata := {| width := 2; height := 2; states := []; state_names := [] |};
     image := {| iwidth := 2; iheight := 2; data := [px 1; px 2; px 3; px 4] |} |}.
Definition icons (name : text) : option (@IconFile unit) := if text_eqb name (lit "a.dmi") then Some file else None.
Definition mk (x y p : Z) : Sprite :=
  {| icon := lit "a.dmi"; icon_state := []; sdir := South; color := white; ofs_x := x; ofs_y := y; plane := p;
     layer := {| whole := 2; frac := 0 |} |}.
(** the variables of an object are its sprite *)
Definition fab (x y p : Z) : @Prefab Sprite := {| path := lit "/obj"; vars := mk x y p |}.
Definition find_type (p : text) : option text := Some p.
Definition from_vars (at_ : @Atom text Sprite) : Sprite := match prefab at_ with Some s => s | None => mk 0 0 0 end.
(** a pass that adds an overlay, unless the tile to the east is empty *)
Definition pass : @RenderPass text Sprite :=
  {| path_filter := fun _ => true; early_filter := fun _ => true; expand := fun _ => ([], true);
     adjust_sprite := fun _ s => s; overlays := fun _ => ([], []);
     neighborhood_appearance := fun _ n => (match nb_offset n East with [] => [] | _ => [mk 10 10 0] end, true);
     late_filter := fun _ => true; sprite_filter := fun _ => true |}.
Definition dict (k : nat) : option (list (@Prefab Sprite)) :=
  match k with O => Some [fab 0 0 1; fab 1 (-1) 0] | S O => Some [fab (-1) 0 0] | _ => None end.
(** tile (0, 1) and (1, 0) hold the first key *)
Definition level : @Level nat := {| dim_y := 2; dim_x := 2; rows := [[0; 1]; [1; 0]]%nat |}.
Definition img := generate find_type (mk 0 0 0) from_vars dict icons [pass] level (0, 0) (1, 1).

Lemma file_ok : forall name f, icons name = Some f -> icon_ok f.
Proof.
  intros name f. unfold icons. destruct (text_eqb _ _); [|discriminate]. intros [= <-].
  split; [|split].
  - unfold image_ok. cbn [image file iwidth iheight data List.length]. repeat (split; [lia|]).
    repeat constructor; cbn; lia.
  - cbn. lia.
  - intros n d. eexists. split; [reflexivity|]. intros rx ry w h [= <- <- <- <-]. cbn. lia.
Qed.
Lemma level_fine : level_ok dict level.
Proof.
  unfold level_ok. cbn [dim_x dim_y rows level List.length]. repeat (split; [lia|]). split.
  - intros row [<-|[<-|[]]]; reflexivity.
  - intros row k [<-|[<-|[]]] [<-|[<-|[]]]; eexists; reflexivity.
Qed.
Lemma rect_fine : rect_ok level (0, 0) (1, 1).
Proof. unfold rect_ok, on_map. cbn. lia. Qed.

(** the sprites that [generate] collects *)
Definition collected := match concat_some (map (row_sprites find_type (mk 0 0 0) from_vars dict [pass] level
  (0, 0) (1, 1) (dim_y level - snd (1, 1) - 1) (dim_y level - snd (0, 0) - 1)) (enumerate (rows level)))
  with Some a => a | None => [] end.
Definition shown_sprites := filter (fun ls => forallb (fun p => sprite_filter p (snd ls)) [pass]) collected.
Lemma collected_some : concat_some (map (row_sprites find_type (mk 0 0 0) from_vars dict [pass] level
  (0, 0) (1, 1) (dim_y level - snd (1, 1) - 1) (dim_y level - snd (0, 0) - 1)) (enumerate (rows level))) = Some collected.
Proof. vm_compute. reflexivity. Qed.
Definition byteb (n : Z) : bool := (0 <=? n) && (n <=? 255).
Definition okb (s : Sprite) : bool :=
  (- 2 ^ 29 <? ofs_x s) && (ofs_x s <? 2 ^ 29) && (- 2 ^ 29 <? ofs_y s) && (ofs_y s <? 2 ^ 29) &&
  (byteb (r (color s)) && byteb (g (color s)) && byteb (b (color s)) && byteb (a (color s))).
Lemma okb_ok : forall s, okb s = true -> sprite_ok s.
Proof. intros s. unfold okb, byteb, sprite_ok, pixel_ok, byte. rewrite !andb_true_iff, !Z.ltb_lt, !Z.leb_le. tauto. Qed.
Definition eqb (o : option Rgba8) (c : Rgba8) : bool :=
  match o with Some d => (r d =? r c) && (g d =? g c) && (b d =? b c) && (a d =? a c) | None => false end.
Lemma eqb_eq : forall o c, eqb o c = true -> o = Some c.
Proof.
  intros [[r1 g1 b1 a1]|] [r2 g2 b2 a2]; [|discriminate]. cbn [eqb r g b a]. rewrite !andb_true_iff, !Z.eqb_eq.
  intros [[[-> ->] ->] ->]. reflexivity.
Qed.

(** the tile (0, 0) holds the second key: its object is one pixel to the left, half cut off; its
    overlay is at (10, 10) because tile (1, 0) is not empty; tile (0, 1)'s second object is one pixel
    lower, so it is seen on tile (0, 0) *)
Example C60_demo :
  exists l i, scene find_type (mk 0 0 0) from_vars dict [pass] level (0, 0) (1, 1) l /\
    (forall t s, In (t, s) l -> sprite_ok s) /\ List.length l = 9%nat /\
    img = Some i /\ iwidth i = 64 /\ iheight i = 64 /\
    pixel i 0 63 = Some (px 4) /\ pixel i 1 63 = Some clear /\ pixel i 10 53 = Some (px 3) /\
    pixel i 2 32 = Some (px 4) /\ pixel i 0 31 = Some (px 3) /\ pixel i 1 31 = Some (px 4).
Proof.
  destruct (scene_spec find_type (mk 0 0 0) from_vars dict [pass] level (0, 0) (1, 1) level_fine) as (l & Hl & all & Ea & Ef);
    [unfold on_map; cbn; lia|unfold on_map; cbn; lia|cbn; lia|cbn; lia|].
  rewrite collected_some in Ea. assert (E : all = collected) by congruence. clear Ea. subst all.
  fold shown_sprites in Ef.
  assert (Hv : match img with Some i => (iwidth i =? 64) && (iheight i =? 64) && eqb (pixel i 0 63) (px 4) &&
                 eqb (pixel i 1 63) clear && eqb (pixel i 10 53) (px 3) && eqb (pixel i 2 32) (px 4) &&
                 eqb (pixel i 0 31) (px 3) && eqb (pixel i 1 31) (px 4) | None => false end = true) by (vm_compute; reflexivity).
  destruct img as [i|]; [|discriminate Hv].
  rewrite !andb_true_iff, !Z.eqb_eq in Hv. destruct Hv as [[[[[[[H1 H2] H3] H4] H5] H6] H7] H8].
  exists l, i. split; [exact Hl|]. split.
  { intros t s Hin. apply okb_ok. apply (in_map (flip level)) in Hin. rewrite <- Ef in Hin.
    assert (Hall : forallb (fun ls => okb (snd ls)) shown_sprites = true) by (vm_compute; reflexivity).
    rewrite forallb_forall in Hall. exact (Hall _ Hin). }
  split; [rewrite <- (map_length (flip level)), <- Ef; vm_compute; reflexivity|].
  split; [reflexivity|]. split; [exact H1|]. split; [exact H2|].
  repeat split; apply eqb_eq; assumption.
Qed.
