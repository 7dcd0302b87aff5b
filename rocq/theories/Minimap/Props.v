(** C60: a drawing of a map shows every sprite at its place and depth. *)
From Coq Require Import List NArith ZArith Bool Lia Sorting.Sorted.
From Verif Require Import Common.Text Dmi.Model Dmi.Spec Minimap.Model Minimap.Spec Minimap.Draw Minimap.Scene.
Import ListNotations.
Open Scope Z_scope.

(** C60: cutting a rectangle at the edges of the image.  The rectangle [rx, ry, w, h] of an icon,
    put at (lx, ly), loses exactly what lies outside, and each remaining pixel comes from the same
    place of the icon. *)
Theorem C60_clip : forall bx by_ lx ly rx ry w h,
  0 <= bx < 2 ^ 30 -> 0 <= by_ < 2 ^ 30 -> - 2 ^ 30 < lx < 2 ^ 30 -> - 2 ^ 30 < ly < 2 ^ 30 ->
  0 <= w < 2 ^ 28 -> 0 <= h < 2 ^ 28 -> 0 <= rx -> 0 <= ry -> rx + w < 2 ^ 31 -> ry + h < 2 ^ 31 ->
  (exists x y sx sy cw ch, clip (bx, by_) (lx, ly) (rx, ry, w, h) = Done ((x, y), (sx, sy, cw, ch)) /\
     0 <= x /\ 0 <= y /\ 0 <= cw /\ 0 <= ch /\ x + cw <= bx /\ y + ch <= by_ /\
     sx - x = rx - lx /\ sy - y = ry - ly /\ rx <= sx /\ ry <= sy /\ sx + cw <= rx + w /\ sy + ch <= ry + h /\
     forall p q, 0 <= p < bx -> 0 <= q < by_ ->
       (x <= p < x + cw /\ y <= q < y + ch <-> lx <= p < lx + w /\ ly <= q < ly + h)) \/
  (clip (bx, by_) (lx, ly) (rx, ry, w, h) = Fail /\
   forall p q, 0 <= p < bx -> 0 <= q < by_ -> ~ (lx <= p < lx + w /\ ly <= q < ly + h)).
Proof. exact clip_spec. Qed.
Print Assumptions C60_clip.

Section Props.
  Context {F T V K : Type}.
  Local Notation Atom := (@Atom T V).
  Local Notation Prefab := (@Prefab V).
  Local Notation RenderPass := (@RenderPass T V).
  Local Notation IconFile := (@IconFile F).
  Local Notation Level := (@Level K).
  Context (find_type : text -> option T) (default_sprite : Sprite) (from_vars : Atom -> Sprite)
          (dictionary : K -> option (list Prefab)) (icon_cache : text -> option IconFile)
          (passes : list RenderPass).
  Local Notation scene := (scene find_type default_sprite from_vars dictionary passes).
  Local Notation level_ok := (level_ok dictionary).
  Local Notation generate := (generate find_type default_sprite from_vars dictionary icon_cache passes).

  Lemma sort_flip : forall (lv : Level) l, sort_by_depth (map (flip lv) l) = map (flip lv) (sort_by_depth l).
  Proof using Type.
    intros lv l. induction l as [|x l IH]; [reflexivity|]. cbn [map sort_by_depth fold_right].
    fold (sort_by_depth l). fold (sort_by_depth (map (flip lv) l)). rewrite IH.
    generalize (sort_by_depth l) as k. induction k as [|y k IHk]; [reflexivity|]. cbn [map insert].
    change (snd (flip lv x)) with (snd x). change (snd (flip lv y)) with (snd y).
    destruct (depth_leb (snd x) (snd y)); [reflexivity|]. cbn [map]. rewrite IHk. reflexivity.
  Qed.

  Lemma painting_in : forall l k, painting_order l k -> forall x, In x k -> In x l.
  Proof using Type.
    intros l k [_ H] x Hx.
    destruct (filtered_total _ (fun s : (Z * Z) * Sprite => depth_of (snd s) = depth_of (snd x))
                (fun s => depth_dec (depth_of (snd s)) (depth_of (snd x))) k) as [m Hm].
    assert (Hl := proj2 (H _ _) Hm). apply (filtered_in _ _ _ _ Hl). apply (filtered_in _ _ _ _ Hm). auto.
  Qed.

  Lemma new_rgba_ok : forall w h, 0 <= w < 2 ^ 32 -> 0 <= h < 2 ^ 32 -> w * h < 2 ^ 32 ->
    image_ok (new_rgba w h) /\
    forall x y, 0 <= x < w -> 0 <= y < h -> pixel (new_rgba w h) x y = Some clear.
  Proof using Type.
    intros w h Hw Hh Hwh. split.
    - split; [exact Hw|]. split; [exact Hh|]. split; [exact Hwh|]. split.
      + cbn [new_rgba data iwidth iheight]. rewrite repeat_length. nia.
      + cbn [new_rgba data]. apply Forall_forall. intros p Hp. apply repeat_spec in Hp. subst.
        unfold pixel_ok, byte. cbn. lia.
    - intros x y Hx Hy. unfold pixel. cbn [new_rgba data iwidth iheight].
      destruct (Z.leb_spec 0 x); [|lia]. destruct (Z.ltb_spec x w); [|lia].
      destruct (Z.leb_spec 0 y); [|lia]. destruct (Z.ltb_spec y h); [|lia]. cbn [andb].
      rewrite (nth_error_nth' _ clear_pixel) by (rewrite repeat_length; nia). f_equal.
      assert (Hr : forall n m, nth m (repeat clear_pixel n) clear_pixel = clear_pixel).
      { clear. induction n as [|n IH]; intros [|m]; cbn; auto. }
      apply Hr.
  Qed.

  (** C60, the image: the drawing of a rectangle of tiles is 32 pixels per tile wide and high, and
      each of its pixels has the colour that painting the sprites of the rectangle's tiles, in the
      order of their depths, one over the other gives the corresponding pixel of the map.  Nothing
      else is drawn, and nothing panics. *)
  Theorem C60_image : forall (lv : Level) min max l,
    level_ok lv -> rect_ok lv min max ->
    (forall name f, icon_cache name = Some f -> icon_ok f) ->
    scene lv min max l -> (forall t s, In (t, s) l -> sprite_ok s) ->
    exists img painted, generate lv min max = Some img /\
      iwidth img = 32 * (fst max - fst min + 1) /\ iheight img = 32 * (snd max - snd min + 1) /\
      painting_order l painted /\
      forall gx gy, 32 * fst min <= gx < 32 * (fst max + 1) -> 32 * snd min <= gy < 32 * (snd max + 1) ->
        exists c, looks icon_cache painted gx gy c /\
          pixel img (gx - 32 * fst min) (32 * (snd max + 1) - 1 - gy) = Some c.
  Proof using Type.
    intros lv min max l Hok (Hmin & Hmax & Hx & Hy & Hsz) Hic Hsc Hsp.
    destruct (scene_spec find_type default_sprite from_vars dictionary passes lv min max Hok Hmin Hmax Hx Hy)
      as (l' & Hl' & all & Eall & Efl).
    pose proof (scene_fun _ _ _ _ _ _ _ _ _ Hmin Hmax Hsc _ Hl'). subst l'.
    pose proof (scene_in _ _ _ _ _ _ _ _ _ Hmin Hmax Hsc) as Hin.
    pose proof Hok as (Bx & By & _). pose proof Hmin as [M1 M2]. pose proof Hmax as [M3 M4].
    pose proof (sort_painting l) as Hp.
    assert (Hw : 32 * (fst max - fst min + 1) < 2 ^ 28) by nia.
    assert (Hh : 32 * (snd max - snd min + 1) < 2 ^ 28) by nia.
    destruct (new_rgba_ok (32 * (fst max - fst min + 1)) (32 * (snd max - snd min + 1))) as [Hn1 Hn2]; [lia|lia|lia|].
    destruct (draw_all_spec icon_cache (dim_y lv) min max (sort_by_depth l)
                (new_rgba (32 * (fst max - fst min + 1)) (32 * (snd max - snd min + 1))))
      as (img & Ei & A1 & A2 & A3 & A4); try assumption; try reflexivity; try lia.
    { intros t s Hts. apply (painting_in _ _ Hp) in Hts. split; [intros f Hf; eapply Hic; exact Hf|].
      split; [eapply Hsp; exact Hts|]. apply (Hin _ _ Hts). }
    exists img, (sort_by_depth l). split.
    - unfold Model.generate.
      destruct (Z.ltb_spec (dim_y lv - snd max - 1) 0); [lia|]. destruct (Z.ltb_spec (dim_y lv - snd min - 1) 0); [lia|].
      destruct (Z.ltb_spec (fst max - fst min + 1) 1); [lia|]. destruct (Z.ltb_spec (snd max - snd min + 1) 1); [lia|].
      cbn [orb]. rewrite Eall, Efl, sort_flip. unfold TILE_SIZE.
      rewrite !(Z.mod_small (_ - _ + 1)) by lia.
      destruct (Z.leb_spec (2 ^ 32) ((fst max - fst min + 1) * 32)); [lia|].
      destruct (Z.leb_spec (2 ^ 32) ((snd max - snd min + 1) * 32)); [lia|]. cbn [orb].
      rewrite (Z.mul_comm _ 32). rewrite (Z.mul_comm (snd max - snd min + 1) 32). exact Ei.
    - split; [rewrite A2; reflexivity|]. split; [rewrite A3; reflexivity|]. split; [exact Hp|].
      intros gx gy Hgx Hgy. apply A4; [exact Hgx|exact Hgy|]. apply Hn2; lia.
  Qed.

  Lemma shows_fun : forall t s gx gy c c', shows icon_cache t s gx gy c -> shows icon_cache t s gx gy c' -> c' = c.
  Proof using Type.
    intros t s gx gy c c' (f & rx & ry & w & h & E1 & E2 & _ & _ & E3) (f' & rx' & ry' & w' & h' & E1' & E2' & _ & _ & E3').
    assert (f' = f) by congruence. subst f'. unfold icon_rect in *.
    assert (Some (rx', ry', w', h') = Some (rx, ry, w, h)) by congruence.
    assert (rx' = rx) by congruence. assert (ry' = ry) by congruence. assert (h' = h) by congruence. subst. congruence.
  Qed.

  Lemma over_fun : forall k gx gy c0 c c', over icon_cache gx gy c0 k c -> over icon_cache gx gy c0 k c' -> c' = c.
  Proof using Type.
    intros k gx gy c0 c c' H. induction H as [c|c t s l src c1 Hs H IH|c t s l c1 Hs H IH]; intro H';
      inversion H' as [|? ? ? ? src' ? Hs' H1|? ? ? ? ? Hs' H1]; subst.
    - reflexivity.
    - pose proof (shows_fun _ _ _ _ _ _ Hs Hs'). subst src'. auto.
    - exfalso. exact (Hs' src Hs).
    - exfalso. exact (Hs _ Hs').
    - auto.
  Qed.

  (** C60, the terms of [C60_image] are definite: a rectangle of the map has exactly one scene, a
      scene exactly one painting order, a pixel exactly one colour. *)
  Theorem C60_definite : forall (lv : Level) min max, level_ok lv -> rect_ok lv min max ->
    (exists l, scene lv min max l /\ forall l', scene lv min max l' -> l' = l) /\
    (forall l, exists k, painting_order l k /\ forall k', painting_order l k' -> k' = k) /\
    (forall k gx gy c c', looks icon_cache k gx gy c -> looks icon_cache k gx gy c' -> c' = c).
  Proof using Type.
    intros lv min max Hok (Hmin & Hmax & Hx & Hy & Hsz). split; [|split].
    - destruct (scene_spec find_type default_sprite from_vars dictionary passes lv min max Hok Hmin Hmax Hx Hy)
        as (l & Hl & _). exists l. split; [exact Hl|]. intros l' Hl'. eapply scene_fun; [exact Hmin|exact Hmax|exact Hl|exact Hl'].
    - intro l. exists (sort_by_depth l). split; [apply sort_painting|]. intros k' Hk'.
      eapply painting_unique; [apply sort_painting|exact Hk'].
    - intros k gx gy c c' H H'. eapply over_fun; eassumption.
  Qed.

  (** *** crops *)
  Definition shown (gx gy : Z) (ts : (Z * Z) * Sprite) : bool :=
    match icon_cache (icon (snd ts)) with
    | None => false
    | Some f =>
        match rect_of (metadata f) (iwidth (image f)) (icon_state (snd ts), 0) (sdir (snd ts)) 0 with
        | Done (Some (rx, ry, w, h)) =>
            let u := gx - (32 * fst (fst ts) + ofs_x (snd ts)) in
            let v := gy - (32 * snd (fst ts) + ofs_y (snd ts)) in
            (0 <=? u) && (u <? w) && (0 <=? v) && (v <? h) &&
            match pixel (image f) (rx + u) (ry + (h - 1 - v)) with Some _ => true | None => false end
        | _ => false
        end
    end.

  Lemma shown_spec : forall gx gy ts, shown gx gy ts = true <-> exists src, shows icon_cache (fst ts) (snd ts) gx gy src.
  Proof using Type.
    intros gx gy [t s]. unfold shown. cbn [fst snd]. split.
    - destruct (icon_cache (icon s)) as [f|] eqn:Ef; [|discriminate].
      destruct (rect_of _ _ _ _ _) as [[[[[rx ry] w] h]|]| |] eqn:Er; try discriminate. cbv zeta. intro H.
      rewrite !andb_true_iff in H. destruct H as ((((H1 & H2) & H3) & H4) & H5).
      destruct (pixel (image f) _ _) as [c|] eqn:Ep; [|discriminate].
      exists c, f, rx, ry, w, h. split; [exact Ef|]. split; [exact Er|]. cbv zeta.
      split; [lia|]. split; [lia|]. exact Ep.
    - intros (src & f & rx & ry & w & h & Ef & Er & H1 & H2 & H3). rewrite Ef. unfold icon_rect in Er. rewrite Er.
      cbv zeta. rewrite H3. rewrite !andb_true_iff. repeat split; lia.
  Qed.

  Lemma over_filter : forall gx gy l c0 c, over icon_cache gx gy c0 l c ->
    over icon_cache gx gy c0 (filter (shown gx gy) l) c.
  Proof using Type.
    intros gx gy l c0 c H. induction H as [c|c t s l src c' Hs H IH|c t s l c' Hs H IH]; cbn [filter].
    - constructor.
    - assert (E : shown gx gy (t, s) = true) by (apply shown_spec; exists src; exact Hs). rewrite E.
      eapply over_shown; eassumption.
    - destruct (shown gx gy (t, s)) eqn:E; [|exact IH].
      apply shown_spec in E. destruct E as [src E]. exfalso. exact (Hs src E).
  Qed.

  Lemma filter_comm : forall A (f g : A -> bool) l, filter f (filter g l) = filter g (filter f l).
  Proof using Type.
    intros A f g l. induction l as [|x l IH]; [reflexivity|]. cbn [filter].
    destruct (g x) eqn:Eg, (f x) eqn:Ef; cbn [filter]; rewrite ?Eg, ?Ef; congruence.
  Qed.

  Lemma filtered_is : forall A (P : A -> Prop) (f : A -> bool) l k, (forall x, f x = true <-> P x) ->
    filtered P l k <-> k = filter f l.
  Proof using Type.
    intros A P f l k Hf. split; [intro H|intros ->].
    - eapply filtered_fun; [apply filtered_filter; exact Hf|exact H].
    - apply filtered_filter. exact Hf.
  Qed.

  Definition at_depth (d : depth) (s : (Z * Z) * Sprite) : bool := if depth_dec (depth_of (snd s)) d then true else false.
  Lemma at_depth_spec : forall d s, at_depth d s = true <-> depth_of (snd s) = d.
  Proof using Type. intros d s. unfold at_depth. destruct (depth_dec _ _); split; congruence. Qed.

  Lemma painting_filter : forall f l k, painting_order l k -> painting_order (filter f l) (filter f k).
  Proof using Type.
    intros f l k [S H]. split.
    - clear H. induction S as [|x k S IH Hx]; cbn [filter]; [constructor|]. destruct (f x); [|exact IH].
      constructor; [exact IH|]. rewrite Forall_forall in Hx |- *. intros y Hy. apply filter_In in Hy. apply Hx, Hy.
    - intros d m. rewrite !(filtered_is _ _ (at_depth d)) by (intro; apply at_depth_spec).
      rewrite !(filter_comm _ (at_depth d)).
      assert (E : filter (at_depth d) l = filter (at_depth d) k).
      { specialize (H d (filter (at_depth d) l)). rewrite !(filtered_is _ _ (at_depth d)) in H by (intro; apply at_depth_spec).
        apply H. reflexivity. }
      rewrite E. reflexivity.
  Qed.

  Definition within (min max : Z * Z) (t : Z * Z) : bool :=
    (fst min <=? fst t) && (fst t <=? fst max) && (snd min <=? snd t) && (snd t <=? snd max).

  Lemma interval_app : forall lo mid hi, lo <= mid + 1 -> mid <= hi ->
    interval lo hi = interval lo mid ++ interval (mid + 1) hi.
  Proof using Type.
    intros lo mid hi H1 H2. unfold interval.
    replace (Z.to_nat (hi - lo + 1)) with (Z.to_nat (mid - lo + 1) + Z.to_nat (hi - (mid + 1) + 1))%nat by lia.
    rewrite seq_app, map_app. f_equal. cbn [Nat.add].
    assert (G : forall n s, map (fun i => lo + Z.of_nat i) (seq (Z.to_nat (mid - lo + 1) + s) n) =
                            map (fun i => mid + 1 + Z.of_nat i) (seq s n)).
    { induction n as [|n IH]; intro s; [reflexivity|]. cbn [seq map]. f_equal; [lia|]. rewrite <- IH. f_equal. f_equal. lia. }
    rewrite <- (G _ 0%nat). rewrite Nat.add_0_r. reflexivity.
  Qed.

  Lemma interval_split : forall lo hi lo' hi', lo <= lo' -> lo' <= hi' -> hi' <= hi ->
    interval lo hi = interval lo (lo' - 1) ++ interval lo' hi' ++ interval (hi' + 1) hi.
  Proof using Type.
    intros lo hi lo' hi' H1 H2 H3. rewrite (interval_app lo (lo' - 1) hi) by lia. f_equal.
    replace (lo' - 1 + 1) with lo' by lia. apply interval_app; lia.
  Qed.

  Lemma filter_all : forall A (f : A -> bool) l, (forall x, In x l -> f x = true) -> filter f l = l.
  Proof using Type.
    intros A f l H. induction l as [|x l IH]; [reflexivity|]. cbn [filter]. rewrite (H x (or_introl eq_refl)).
    f_equal. apply IH. intros y Hy. apply H. right. exact Hy.
  Qed.
  Lemma filter_none : forall A (f : A -> bool) l, (forall x, In x l -> f x = false) -> filter f l = [].
  Proof using Type.
    intros A f l H. induction l as [|x l IH]; [reflexivity|]. cbn [filter]. rewrite (H x (or_introl eq_refl)).
    apply IH. intros y Hy. apply H. right. exact Hy.
  Qed.
  Lemma filter_concat_map : forall A B (f : B -> bool) (g : A -> list B) l,
    filter f (concat (map g l)) = concat (map (fun x => filter f (g x)) l).
  Proof using Type.
    intros A B f g l. induction l as [|x l IH]; [reflexivity|]. cbn [map concat]. rewrite filter_app, IH. reflexivity.
  Qed.
  Lemma concat_nil : forall A B (g : A -> list B) l, (forall x, In x l -> g x = []) -> concat (map g l) = [].
  Proof using Type.
    intros A B g l H. induction l as [|x l IH]; [reflexivity|]. cbn [map concat]. rewrite (H x (or_introl eq_refl)).
    apply IH. intros y Hy. apply H. right. exact Hy.
  Qed.

  Lemma tiles_within : forall min max min' max',
    fst min <= fst min' -> fst min' <= fst max' -> fst max' <= fst max ->
    snd min <= snd min' -> snd min' <= snd max' -> snd max' <= snd max ->
    filter (within min' max') (tiles min max) = tiles min' max'.
  Proof using Type.
    intros min max min' max' X1 X2 X3 Y1 Y2 Y3. unfold tiles. rewrite filter_concat_map.
    rewrite (interval_split (snd min) (snd max) (snd min') (snd max')) by assumption.
    rewrite !rev_app_distr, !map_app, !concat_app.
    rewrite (concat_nil _ _ _ (rev (interval (snd max' + 1) (snd max)))).
    2:{ intros y Hy. apply in_rev in Hy. apply in_interval in Hy. apply filter_none. intros t Ht.
        apply in_map_iff in Ht. destruct Ht as (x & <- & _). unfold within. cbn [fst snd].
        destruct (Z.leb_spec y (snd max')); [lia|]. rewrite andb_false_r. reflexivity. }
    rewrite (concat_nil _ _ _ (rev (interval (snd min) (snd min' - 1)))).
    2:{ intros y Hy. apply in_rev in Hy. apply in_interval in Hy. apply filter_none. intros t Ht.
        apply in_map_iff in Ht. destruct Ht as (x & <- & _). unfold within. cbn [fst snd].
        destruct (Z.leb_spec (snd min') y); [lia|]. rewrite andb_false_r. reflexivity. }
    rewrite app_nil_r, app_nil_l. f_equal. apply map_ext_in. intros y Hy. apply in_rev in Hy. apply in_interval in Hy.
    rewrite (interval_split (fst min) (fst max) (fst min') (fst max')) by assumption.
    rewrite !map_app, !filter_app.
    rewrite (filter_none _ _ (map _ (interval (fst min) _))).
    2:{ intros t Ht. apply in_map_iff in Ht. destruct Ht as (x & <- & Hx). apply in_interval in Hx. unfold within. cbn [fst snd].
        destruct (Z.leb_spec (fst min') x); [lia|]. reflexivity. }
    rewrite (filter_none _ _ (map _ (interval (fst max' + 1) _))).
    2:{ intros t Ht. apply in_map_iff in Ht. destruct Ht as (x & <- & Hx). apply in_interval in Hx. unfold within. cbn [fst snd].
        destruct (Z.leb_spec x (fst max')); [lia|]. rewrite andb_false_r. reflexivity. }
    rewrite app_nil_r, app_nil_l. apply filter_all. intros t Ht. apply in_map_iff in Ht. destruct Ht as (x & <- & Hx).
    apply in_interval in Hx. unfold within. cbn [fst snd]. rewrite !andb_true_iff. lia.
  Qed.

  Lemma scene_within : forall (lv : Level) min max min' max' l l',
    on_map lv min -> on_map lv max ->
    fst min <= fst min' -> fst min' <= fst max' -> fst max' <= fst max ->
    snd min <= snd min' -> snd min' <= snd max' -> snd max' <= snd max ->
    scene lv min max l -> scene lv min' max' l' ->
    l' = filter (fun ts => within min' max' (fst ts)) l.
  Proof using Type.
    intros lv min max min' max' l l' Hmin Hmax X1 X2 X3 Y1 Y2 Y3 (all & H1 & H2) (all' & H1' & H2').
    rewrite <- (tiles_within min max min' max') in H1' by assumption.
    assert (E : concat all' = filter (fun ts => within min' max' (fst ts)) (concat all)).
    { assert (Ht : forall t, In t (tiles min max) -> on_map lv t)
        by (intros t Hin; exact (proj1 (tiles_on_map lv min max t Hmin Hmax Hin))).
      clear H2 H2'. revert all' H1'. induction H1 as [|t k ts ks Hk H IH]; intros all' H'.
      - inversion H'. reflexivity.
      - cbn [filter] in H'. cbn [concat]. rewrite filter_app.
        assert (Hfst : forall x, In x k -> fst x = t).
        { destruct Hk as (objs & ls & _ & _ & ->). intros x Hx. apply in_map_iff in Hx. destruct Hx as (s & <- & _). reflexivity. }
        destruct (within min' max' t) eqn:Ew.
        + inversion H' as [|? k' ? ks' Hk' H'']; subst. cbn [concat]. f_equal.
          * rewrite filter_all; [|intros x Hx; rewrite (Hfst x Hx); exact Ew].
            eapply tile_fun; [apply Ht; left; reflexivity|exact Hk|exact Hk'].
          * apply IH; [intros; apply Ht; right; assumption|exact H''].
        + rewrite filter_none; [|intros x Hx; rewrite (Hfst x Hx); exact Ew].
          apply IH; [intros; apply Ht; right; assumption|exact H']. }
    set (keptb := fun ts : (Z * Z) * Sprite => forallb (fun p => sprite_filter p (snd ts)) passes).
    assert (Hkb : forall x, keptb x = true <-> kept passes (snd x)).
    { intro x. unfold keptb, kept. rewrite forallb_forall. reflexivity. }
    rewrite (filtered_is _ _ keptb) in H2, H2' by exact Hkb. subst l l'. rewrite E. apply filter_comm.
  Qed.

  (** C60, crops: drawing a part of a rectangle gives the same pixels as drawing the whole, wherever
      no sprite of a tile outside the part reaches. *)
  Theorem C60_crop : forall (lv : Level) min max min' max' l img img',
    level_ok lv -> rect_ok lv min max -> rect_ok lv min' max' ->
    fst min <= fst min' -> fst max' <= fst max -> snd min <= snd min' -> snd max' <= snd max ->
    (forall name f, icon_cache name = Some f -> icon_ok f) ->
    scene lv min max l -> (forall t s, In (t, s) l -> sprite_ok s) ->
    generate lv min max = Some img -> generate lv min' max' = Some img' ->
    forall gx gy, 32 * fst min' <= gx < 32 * (fst max' + 1) -> 32 * snd min' <= gy < 32 * (snd max' + 1) ->
      (forall t s src, In (t, s) l -> shows icon_cache t s gx gy src ->
         fst min' <= fst t <= fst max' /\ snd min' <= snd t <= snd max') ->
      pixel img' (gx - 32 * fst min') (32 * (snd max' + 1) - 1 - gy) =
      pixel img (gx - 32 * fst min) (32 * (snd max + 1) - 1 - gy).
  Proof using Type.
    intros lv min max min' max' l img img' Hok Hr Hr' X1 X3 Y1 Y3 Hic Hsc Hsp Eimg Eimg' gx gy Hgx Hgy Hout.
    destruct (C60_image lv min max l Hok Hr Hic Hsc Hsp) as (i & painted & Ei & _ & _ & Hp & Hpix).
    assert (i = img) by congruence. subst i.
    pose proof Hr as (Hmin & Hmax & _). pose proof Hr' as (Hmin' & Hmax' & X2 & Y2 & _).
    destruct (scene_spec find_type default_sprite from_vars dictionary passes lv min' max' Hok Hmin' Hmax' X2 Y2)
      as (l' & Hsc' & _).
    pose proof (scene_within lv min max min' max' l l' Hmin Hmax X1 X2 X3 Y1 Y2 Y3 Hsc Hsc') as El.
    destruct (C60_image lv min' max' l' Hok Hr' Hic Hsc') as (i & painted' & Ei' & _ & _ & Hp' & Hpix').
    { intros t s Hts. rewrite El in Hts. apply filter_In in Hts. eapply Hsp. apply Hts. }
    assert (i = img') by congruence. subst i.
    destruct (Hpix gx gy) as (c & Hc & Ec); [lia|lia|]. destruct (Hpix' gx gy) as (c' & Hc' & Ec'); [lia|lia|].
    rewrite Ec, Ec'. f_equal. apply over_filter in Hc. apply over_filter in Hc'.
    assert (E : filter (shown gx gy) painted' = filter (shown gx gy) painted).
    { eapply painting_unique; [apply painting_filter; exact Hp|].
      replace (filter (shown gx gy) l) with (filter (shown gx gy) l'); [apply painting_filter; exact Hp'|].
      rewrite El. clear - Hout. induction l as [|[t s] l IH]; [reflexivity|]. cbn [filter fst].
      destruct (within min' max' t) eqn:Ew.
      - cbn [filter]. rewrite IH; [reflexivity|]. intros t' s' src Hin. apply Hout. right. exact Hin.
      - destruct (shown gx gy (t, s)) eqn:Es.
        + exfalso. apply shown_spec in Es. destruct Es as [src Es].
          destruct (Hout t s src (or_introl eq_refl) Es) as [W1 W2].
          unfold within in Ew. rewrite !(proj2 (Z.leb_le _ _)) in Ew by lia. discriminate.
        + apply IH. intros t' s' src Hin. apply Hout. right. exact Hin. }
    rewrite E in Hc'. eapply over_fun; eassumption.
  Qed.
End Props.
Print Assumptions C60_image.
Print Assumptions C60_definite.
Print Assumptions C60_crop.

(** C60, the minimap command: whatever limits are given, the rectangle lies on the map and is not
    empty; limits on the map are used as they are, and without limits the whole map is drawn. *)
Theorem C60_command : forall dim min max, 1 <= dim -> (forall m, min = Some m -> 0 <= m) -> (forall m, max = Some m -> 0 <= m) ->
  let '(lo, hi) := command_range dim min max in
  1 <= lo <= hi /\ hi <= dim /\
  (forall m, min = Some m -> 1 <= m <= dim -> lo = m) /\
  (forall m, max = Some m -> lo <= m <= dim -> hi = m) /\
  (min = None -> lo = 1) /\ (max = None -> hi = dim).
Proof.
  intros dim min max Hd Hm HM. unfold command_range, clamp.
  destruct min as [m|], max as [M|]; cbv iota zeta;
    repeat (match goal with |- context [Z.ltb ?a ?b] => destruct (Z.ltb_spec a b) | |- context [Z.gtb ?a ?b] => destruct (Z.gtb_spec a b) end);
    try (specialize (Hm _ eq_refl)); try (specialize (HM _ eq_refl));
    repeat split; intros; try discriminate;
    repeat match goal with H : Some _ = Some _ |- _ => injection H as H end; try lia.
Qed.
Print Assumptions C60_command.

(** C60, limits of render-many: a chunk that starts past the edge of the map is not clamped, and
    the drawing panics (dmm-tools-cli/src/main.rs:644-651, minimap.rs:49). *)
Theorem C60_chunk_panics :
  forall F T V K (find_type : text -> option T) default_sprite from_vars (dictionary : K -> option (list (@Prefab V)))
    (icon_cache : text -> option (@IconFile F)) (passes : list (@RenderPass T V)) (lv : @Level K),
    1 <= dim_x lv -> 1 <= dim_y lv -> forall m ys, dim_x lv < m ->
    exists lo hi, chunk_range (dim_x lv) (Some m) None = Some (lo, hi) /\
      generate find_type default_sprite from_vars dictionary icon_cache passes lv (lo, fst ys) (hi, snd ys) = None.
Proof.
  intros F T V K ft ds fv dict ic ps lv H1 H2 m ys Hm. unfold chunk_range.
  destruct (Z.ltb_spec (Z.min (dim_x lv) (dim_x lv) - 1) 0); [lia|].
  eexists _, _. split; [reflexivity|]. unfold generate. cbn [fst snd].
  destruct (Z.ltb_spec (Z.min (dim_x lv) (dim_x lv) - 1 - (Z.max m 1 - 1) + 1) 1); [|lia].
  rewrite !orb_true_r. reflexivity.
Qed.
Print Assumptions C60_chunk_panics.
