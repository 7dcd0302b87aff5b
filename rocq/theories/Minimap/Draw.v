(** Clipping, placing and painting one sprite; the stable sort. *)
From Coq Require Import List NArith ZArith Bool Lia Sorting.Sorted.
From Verif Require Import Common.Text Dmi.Model Dmi.Spec Dmi.BlendProofs Dmi.BlendProps Minimap.Model Minimap.Spec.
Import ListNotations.
Open Scope Z_scope.

Lemma as_i32_id : forall z, - 2 ^ 31 <= z < 2 ^ 31 -> as_i32 z = z.
Proof. intros z H. unfold as_i32. rewrite Z.mod_small; lia. Qed.

Lemma i32_in : forall z, - 2 ^ 31 <= z < 2 ^ 31 -> i32 z = Some z.
Proof.
  intros z H. unfold i32, in_i32, I32_MIN, I32_MAX.
  destruct (Z.leb_spec (- 2 ^ 31) z); [|lia]. destruct (Z.leb_spec z (2 ^ 31 - 1)); [reflexivity|lia].
Qed.
Lemma in_i32_true : forall z, - 2 ^ 31 <= z < 2 ^ 31 -> in_i32 z = true.
Proof.
  intros z H. unfold in_i32, I32_MIN, I32_MAX.
  destruct (Z.leb_spec (- 2 ^ 31) z); [|lia]. destruct (Z.leb_spec z (2 ^ 31 - 1)); [reflexivity|lia].
Qed.

Lemma clip_axis_spec : forall bound loc start size,
  0 <= bound < 2 ^ 30 -> - 2 ^ 30 < loc < 2 ^ 30 -> 0 <= size < 2 ^ 28 -> 0 <= start -> start + size < 2 ^ 31 ->
  (exists x st sz, clip_axis bound loc start size = Done (x, st, sz) /\
     0 <= x /\ 0 <= sz /\ x + sz <= bound /\ st - x = start - loc /\ start <= st /\ st + sz <= start + size /\
     forall p, 0 <= p < bound -> (x <= p < x + sz <-> loc <= p < loc + size)) \/
  (clip_axis bound loc start size = Fail /\ forall p, 0 <= p < bound -> ~ loc <= p < loc + size).
Proof.
  intros bound loc start size Hb Hl Hs Hst Hst2. unfold clip_axis.
  destruct (Z.ltb_spec loc 0) as [Hn|Hn].
  - rewrite in_i32_true by lia. cbn [negb orb].
    destruct (Z.leb_spec (2 ^ 32) (start + - loc)); [lia|].
    change (checked_sub size (- loc)) with (if size <? - loc then None else Some (size - - loc)). destruct (Z.ltb_spec size (- loc)) as [Hx|Hx].
    + right. cbn [bind]. split; [reflexivity|]. intros p Hp. lia.
    + cbn [bind]. rewrite as_i32_id by lia. rewrite i32_in by lia. rewrite as_i32_id by lia. rewrite i32_in by lia.
      destruct (Z.gtb_spec (0 + (size - - loc) - bound) 0) as [Ho|Ho].
      * unfold checked_sub. destruct (Z.ltb_spec (size - - loc) (0 + (size - - loc) - bound)) as [Hy|Hy]; [lia|].
        left. eexists _, _, _. split; [reflexivity|]. do 6 (split; [lia|]). intros p Hp. lia.
      * left. eexists _, _, _. split; [reflexivity|]. do 6 (split; [lia|]). intros p Hp. lia.
  - cbn [bind]. rewrite as_i32_id by lia. rewrite i32_in by lia. rewrite as_i32_id by lia. rewrite i32_in by lia.
    destruct (Z.gtb_spec (loc + size - bound) 0) as [Ho|Ho].
    + unfold checked_sub. destruct (Z.ltb_spec size (loc + size - bound)) as [Hy|Hy].
      * right. split; [reflexivity|]. intros p Hp. lia.
      * left. eexists _, _, _. split; [reflexivity|]. do 6 (split; [lia|]). intros p Hp. lia.
    + left. eexists _, _, _. split; [reflexivity|]. do 6 (split; [lia|]). intros p Hp. lia.
Qed.

(** clip: the part of a rectangle inside the image, with the same source pixels *)
Lemma clip_spec : forall bx by_ lx ly rx ry w h,
  0 <= bx < 2 ^ 30 -> 0 <= by_ < 2 ^ 30 -> - 2 ^ 30 < lx < 2 ^ 30 -> - 2 ^ 30 < ly < 2 ^ 30 ->
  0 <= w < 2 ^ 28 -> 0 <= h < 2 ^ 28 -> 0 <= rx -> 0 <= ry -> rx + w < 2 ^ 31 -> ry + h < 2 ^ 31 ->
  (exists x y sx sy cw ch, clip (bx, by_) (lx, ly) (rx, ry, w, h) = Done ((x, y), (sx, sy, cw, ch)) /\
     0 <= x /\ 0 <= y /\ 0 <= cw /\ 0 <= ch /\ x + cw <= bx /\ y + ch <= by_ /\
     sx - x = rx - lx /\ sy - y = ry - ly /\ rx <= sx /\ ry <= sy /\ sx + cw <= rx + w /\ sy + ch <= ry + h /\
     forall p q, 0 <= p < bx -> 0 <= q < by_ ->
       (x <= p < x + cw /\ y <= q < y + ch <-> lx <= p < lx + w /\ ly <= q < ly + h)) \/
  (clip (bx, by_) (lx, ly) (rx, ry, w, h) = Fail /\
   forall p q, 0 <= p < bx -> 0 <= q < by_ -> ~ (lx <= p < lx + w /\ ly <= q < ly + h)).
Proof.
  intros bx by_ lx ly rx ry w h Hbx Hby Hlx Hly Hw Hh Hrx Hry Hxw Hyh. unfold clip. cbn [fst snd].
  destruct (clip_axis_spec bx lx rx w Hbx Hlx Hw Hrx Hxw) as [(x & sx & cw & E & A1 & A2 & A3 & A4 & A5 & A6 & A7)|(E & N)].
  - rewrite E. cbn [bind].
    destruct (clip_axis_spec by_ ly ry h Hby Hly Hh Hry Hyh) as [(y & sy & ch & E' & B1 & B2 & B3 & B4 & B5 & B6 & B7)|(E' & N)].
    + rewrite E'. cbn [bind]. rewrite (Z.mod_small x) by lia. rewrite (Z.mod_small y) by lia.
      left. exists x, y, sx, sy, cw, ch. split; [reflexivity|]. do 12 (split; [lia|]).
      intros p q Hp Hq. rewrite (A7 p Hp), (B7 q Hq). reflexivity.
    + rewrite E'. cbn [bind]. right. split; [reflexivity|]. intros p q Hp Hq [_ H]. exact (N q Hq H).
  - rewrite E. cbn [bind]. right. split; [reflexivity|]. intros p q Hp Hq [H _]. exact (N p Hp H).
Qed.

Section Painting.
  Context {F : Type}.
  Local Notation IconFile := (@IconFile F).
  Context (icon_cache : text -> option IconFile).

  Lemma rect_of_height : forall (m : @Metadata F) bw k d fr rx ry w h,
    rect_of m bw k d fr = Done (Some (rx, ry, w, h)) -> h = height m.
  Proof using Type.
    intros m bw k d fr rx ry w h. unfold rect_of. intro E.
    destruct (states m); [congruence|].
    destruct (get_icon_state m k) as [[s'|]| |]; try discriminate.
    destruct (index_of_frame s' d fr); try discriminate.
    destruct (width m =? 0); try discriminate.
    destruct (bw / width m =? 0); try discriminate.
    destruct (u32 _); try discriminate. destruct (u32 _); try discriminate. congruence.
  Qed.

  (** sprite [s] of tile [t] drawn on an image that shows the rectangle from [min] to [max] *)
  Lemma draw_spec : forall (dy : Z) (min max t : Z * Z) s img,
    (forall f, icon_cache (icon s) = Some f -> icon_ok f) -> sprite_ok s ->
    0 <= fst min -> 0 <= snd min -> fst min <= fst t <= fst max -> snd min <= snd t <= snd max ->
    fst max < 2 ^ 30 -> snd max < dy -> dy < 2 ^ 30 ->
    image_ok img -> iwidth img = 32 * (fst max - fst min + 1) -> iheight img = 32 * (snd max - snd min + 1) ->
    iwidth img < 2 ^ 28 -> iheight img < 2 ^ 28 ->
    exists img', draw icon_cache min (dy - snd max - 1) img ((fst t, dy - 1 - snd t), s) = Some img' /\
      image_ok img' /\ iwidth img' = iwidth img /\ iheight img' = iheight img /\
      forall gx gy c, 32 * fst min <= gx < 32 * (fst max + 1) -> 32 * snd min <= gy < 32 * (snd max + 1) ->
        pixel img (gx - 32 * fst min) (32 * (snd max + 1) - 1 - gy) = Some c ->
        (exists src, shows icon_cache t s gx gy src /\
           pixel img' (gx - 32 * fst min) (32 * (snd max + 1) - 1 - gy) = Some (blend src (color s) c)) \/
        (forall src, ~ shows icon_cache t s gx gy src) /\
           pixel img' (gx - 32 * fst min) (32 * (snd max + 1) - 1 - gy) = Some c.
  Proof using Type.
    intros dy [mx my] [xx xy] [tx ty] s img Hic Hs. cbn [fst snd].
    intros Hmx Hmy Htx Hty Hxx Hxy Hdy Himg Hw Hh Hbw Hbh.
    unfold draw. destruct (icon_cache (icon s)) as [f|] eqn:Ef.
    2:{ exists img. split; [reflexivity|]. split; [exact Himg|]. split; [reflexivity|]. split; [reflexivity|].
        intros gx gy c _ _ Hc. right. split; [|exact Hc]. intros src (f & rx & ry & w & h & E & _). congruence. }
    destruct (Hic f eq_refl) as (Hfi & Hmh & Hr). destruct (Hr (icon_state s) (sdir s)) as (o & Er & Ho).
    rewrite Er. destruct o as [[[[rx ry] w] h]|].
    2:{ exists img. split; [reflexivity|]. split; [exact Himg|]. split; [reflexivity|]. split; [reflexivity|].
        intros gx gy c _ _ Hc. right. split; [|exact Hc]. intros src (f' & rx & ry & w & h & E & E' & _).
        unfold icon_rect in E'. congruence. }
    destruct (Ho rx ry w h eq_refl) as (Hrx & Hry & Hww & Hxw & Hyh & Hiw & Hih).
    pose proof (rect_of_height _ _ _ _ _ _ _ _ _ Er) as Hhh.
    destruct Hs as (Hsx & Hsy & Hcol).
    assert (Hplace : place (mx, my) (dy - xy - 1) (height (metadata f)) (tx, dy - 1 - ty) s =
                     Some ((tx - mx) * 32 + ofs_x s, (xy - ty + 1) * 32 - (ofs_y s + h))).
    { unfold place, TILE_SIZE. cbn [fst snd]. rewrite as_i32_id by lia. rewrite i32_in by lia.
      rewrite (Z.mod_small mx) by lia. rewrite (Z.mod_small (dy - xy - 1)) by lia.
      assert (E0 : dy - 1 - ty + 1 - (dy - xy - 1) = xy - ty + 1) by lia. rewrite E0.
      destruct (Z.ltb_spec (tx - mx) 0); [lia|]. destruct (Z.leb_spec (2 ^ 32) ((tx - mx) * 32)); [lia|].
      destruct (Z.leb_spec (2 ^ 32) (dy - 1 - ty + 1)); [lia|]. destruct (Z.ltb_spec (xy - ty + 1) 0); [lia|].
      destruct (Z.leb_spec (2 ^ 32) ((xy - ty + 1) * 32)); [lia|]. cbn [orb].
      rewrite !as_i32_id by lia. rewrite !i32_in by lia. rewrite Hhh. reflexivity. }
    rewrite Hplace. rewrite Hw, Hh.
    assert (Hshow : forall gx gy src, shows icon_cache (tx, ty) s gx gy src <->
              0 <= gx - (32 * tx + ofs_x s) < w /\ 0 <= gy - (32 * ty + ofs_y s) < h /\
              pixel (image f) (rx + (gx - (32 * tx + ofs_x s))) (ry + (h - 1 - (gy - (32 * ty + ofs_y s)))) = Some src).
    { intros gx gy src. unfold shows. cbn [fst snd]. split.
      - intros (f' & rx' & ry' & w' & h' & E1 & E2 & E3 & E4 & E5). unfold icon_rect in E2.
        assert (f' = f) by congruence. subst f'.
        assert (Some (rx', ry', w', h') = Some (rx, ry, w, h)) by congruence.
        assert (rx' = rx) by congruence. assert (ry' = ry) by congruence. assert (w' = w) by congruence.
        assert (h' = h) by congruence. subst. auto.
      - intros (E3 & E4 & E5). exists f, rx, ry, w, h. auto. }
    destruct (clip_spec (32 * (xx - mx + 1)) (32 * (xy - my + 1)) ((tx - mx) * 32 + ofs_x s)
                ((xy - ty + 1) * 32 - (ofs_y s + h)) rx ry w h)
      as [(x & y & sx & sy & cw & ch & E & A1 & A2 & A3 & A4 & A5 & A6 & A7 & A8 & A9 & A10 & A11 & A12 & A13)|(E & N)];
      try lia; rewrite E.
    - destruct (C34_local img (image f) (color s) x y sx sy cw ch) as (out & Eo & O1 & O2 & O3 & O4 & O5);
        try assumption; try lia.
      exists out. split; [exact Eo|]. split; [exact O3|]. split; [rewrite O1; exact Hw|]. split; [rewrite O2; exact Hh|].
      intros gx gy c Hgx Hgy Hc.
      set (p := gx - 32 * mx) in *. set (q := 32 * (xy + 1) - 1 - gy) in *.
      assert (Hpq : 0 <= p < 32 * (xx - mx + 1) /\ 0 <= q < 32 * (xy - my + 1)) by (unfold p, q; lia).
      specialize (A13 p q (proj1 Hpq) (proj2 Hpq)).
      destruct (Z_le_dec x p) as [c1|c1]; [destruct (Z_lt_dec p (x + cw)) as [c2|c2]|];
        [destruct (Z_le_dec y q) as [c3|c3]; [destruct (Z_lt_dec q (y + ch)) as [c4|c4]|]| |].
      1:{ left. destruct (O5 p q) as (sp & d & P1 & P2 & _ & _ & P3); [lia|lia|].
          exists sp. split.
          - apply Hshow. assert (Hin : x <= p < x + cw /\ y <= q < y + ch) by lia. apply A13 in Hin.
            split; [unfold p in Hin; lia|]. split; [unfold q in Hin; lia|].
            replace (rx + (gx - (32 * tx + ofs_x s))) with (sx + (p - x)) by (unfold p; lia).
            replace (ry + (h - 1 - (gy - (32 * ty + ofs_y s)))) with (sy + (q - y)) by (unfold q; lia).
            exact P1.
          - assert (d = c) by congruence. subst d. exact P3. }
      all: right; split;
        [ intros src Hsrc; apply Hshow in Hsrc; destruct Hsrc as (S1 & S2 & _);
          assert (Hin : (tx - mx) * 32 + ofs_x s <= p < (tx - mx) * 32 + ofs_x s + w /\
            (xy - ty + 1) * 32 - (ofs_y s + h) <= q < (xy - ty + 1) * 32 - (ofs_y s + h) + h) by (unfold p, q; lia);
          apply A13 in Hin; lia
        | rewrite O4 by lia; exact Hc ].
    - exists img. split; [reflexivity|]. split; [exact Himg|]. split; [exact Hw|]. split; [exact Hh|].
      intros gx gy c Hgx Hgy Hc. right. split; [|exact Hc]. intros src Hsrc. apply Hshow in Hsrc.
      destruct Hsrc as (S1 & S2 & _).
      apply (N (gx - 32 * mx) (32 * (xy + 1) - 1 - gy)); lia.
  Qed.


  Lemma draw_all_spec : forall (dy : Z) (min max : Z * Z) l img,
    (forall t s, In (t, s) l ->
       (forall f, icon_cache (icon s) = Some f -> icon_ok f) /\ sprite_ok s /\
       fst min <= fst t <= fst max /\ snd min <= snd t <= snd max) ->
    0 <= fst min -> 0 <= snd min -> fst max < 2 ^ 30 -> snd max < dy -> dy < 2 ^ 30 ->
    image_ok img -> iwidth img = 32 * (fst max - fst min + 1) -> iheight img = 32 * (snd max - snd min + 1) ->
    iwidth img < 2 ^ 28 -> iheight img < 2 ^ 28 ->
    exists img', draw_all icon_cache min (dy - snd max - 1) img
                   (map (fun ts => ((fst (fst ts), dy - 1 - snd (fst ts)), snd ts)) l) = Some img' /\
      image_ok img' /\ iwidth img' = iwidth img /\ iheight img' = iheight img /\
      forall gx gy c, 32 * fst min <= gx < 32 * (fst max + 1) -> 32 * snd min <= gy < 32 * (snd max + 1) ->
        pixel img (gx - 32 * fst min) (32 * (snd max + 1) - 1 - gy) = Some c ->
        exists c', over icon_cache gx gy c l c' /\
          pixel img' (gx - 32 * fst min) (32 * (snd max + 1) - 1 - gy) = Some c'.
  Proof using Type.
    intros dy min max l. induction l as [|[t s] l IH]; intros img Hl H1 H2 H3 H4 H5 Himg Hw Hh Hbw Hbh.
    - exists img. cbn [map draw_all]. split; [reflexivity|]. split; [exact Himg|]. split; [reflexivity|].
      split; [reflexivity|]. intros gx gy c _ _ Hc. exists c. split; [constructor|exact Hc].
    - cbn [map draw_all fst snd]. destruct (Hl t s (or_introl eq_refl)) as (Hi & Hs & Ht1 & Ht2).
      destruct (draw_spec dy min max t s img Hi Hs H1 H2 Ht1 Ht2 H3 H4 H5 Himg Hw Hh Hbw Hbh)
        as (img1 & E & A1 & A2 & A3 & A4).
      rewrite E. destruct (IH img1) as (img' & E' & B1 & B2 & B3 & B4); try assumption; try congruence.
      { intros t' s' Hin. apply Hl. right. exact Hin. }
      exists img'. split; [exact E'|]. split; [exact B1|]. split; [congruence|]. split; [congruence|].
      intros gx gy c Hgx Hgy Hc. destruct (A4 gx gy c Hgx Hgy Hc) as [(src & S1 & S2)|(S1 & S2)].
      + destruct (B4 gx gy _ Hgx Hgy S2) as (c' & O & P). exists c'. split; [|exact P]. eapply over_shown; eauto.
      + destruct (B4 gx gy _ Hgx Hgy S2) as (c' & O & P). exists c'. split; [|exact P]. apply over_missed; assumption.
  Qed.
End Painting.

(** ** The sort *)
Lemma depth_leb_spec : forall s t, depth_leb s t = true <-> below_or_level (depth_of s) (depth_of t).
Proof.
  intros s t. unfold depth_leb, below_or_level, depth_of.
  destruct (Z.eqb_spec (plane s) (plane t)).
  - destruct (Z.eqb_spec (whole (layer s)) (whole (layer t))).
    + rewrite Z.leb_le. lia.
    + rewrite Z.ltb_lt. lia.
  - rewrite Z.ltb_lt. lia.
Qed.
Lemma below_trans : forall d e f, below_or_level d e -> below_or_level e f -> below_or_level d f.
Proof. intros [[? ?] ?] [[? ?] ?] [[? ?] ?]. unfold below_or_level. lia. Qed.
Lemma below_total : forall d e, ~ below_or_level d e -> below_or_level e d /\ d <> e.
Proof.
  intros [[p w] f] [[p' w'] f']. unfold below_or_level. intro H. split; [lia|]. intro E.
  assert (p = p') by congruence. assert (w = w') by congruence. assert (f = f') by congruence. lia.
Qed.
Lemma depth_dec : forall d e : depth, {d = e} + {d <> e}.
Proof. decide equality; [apply Z.eq_dec|decide equality; apply Z.eq_dec]. Qed.

Lemma filtered_total : forall A (P : A -> Prop) (dec : forall x, {P x} + {~ P x}) l, exists k, filtered P l k.
Proof.
  intros A P dec l. induction l as [|x l [k IH]]; [exists []; constructor|].
  destruct (dec x); [exists (x :: k)|exists k]; constructor; assumption.
Qed.
Lemma filtered_fun : forall A (P : A -> Prop) l k, filtered P l k -> forall k', filtered P l k' -> k' = k.
Proof.
  intros A P l k H. induction H; intros k' H'; inversion H'; subst; try contradiction; try reflexivity.
  - f_equal. auto.
  - auto.
Qed.
Lemma filtered_in : forall A (P : A -> Prop) l k, filtered P l k -> forall x, In x k <-> In x l /\ P x.
Proof.
  intros A P l k H. induction H; intro y; cbn [In]; [intuition| |].
  - rewrite IHfiltered. intuition. subst. assumption.
  - rewrite IHfiltered. intuition. subst. contradiction.
Qed.
Lemma filtered_filter : forall A (P : A -> Prop) (f : A -> bool) l,
  (forall x, f x = true <-> P x) -> filtered P l (filter f l).
Proof.
  intros A P f l H. induction l as [|x l IH]; cbn [filter]; [constructor|].
  destruct (f x) eqn:E; constructor; auto.
  - apply H. exact E.
  - intro HP. apply H in HP. congruence.
Qed.

Lemma insert_sorted : forall x l,
  StronglySorted (fun s t => below_or_level (depth_of (snd s)) (depth_of (snd t))) l ->
  StronglySorted (fun s t => below_or_level (depth_of (snd s)) (depth_of (snd t))) (insert x l).
Proof.
  intros x l H. induction H as [|y l H IH Hy]; cbn [insert].
  - constructor; [constructor|constructor].
  - destruct (depth_leb (snd x) (snd y)) eqn:E.
    + constructor; [constructor; assumption|]. constructor; [apply depth_leb_spec; exact E|].
      rewrite Forall_forall in Hy |- *. intros z Hz. eapply below_trans; [apply depth_leb_spec; exact E|apply Hy; exact Hz].
    + constructor; [exact IH|].
      assert (Hyx : below_or_level (depth_of (snd y)) (depth_of (snd x))).
      { apply below_total. intro K. apply depth_leb_spec in K. congruence. }
      clear - Hy Hyx. induction l as [|z l IHl]; cbn [insert].
      * constructor; [exact Hyx|constructor].
      * destruct (depth_leb (snd x) (snd z)).
        -- constructor; assumption.
        -- inversion Hy; subst. constructor; [assumption|]. apply IHl. assumption.
Qed.

Lemma insert_filtered : forall x l d k,
  filtered (fun s => depth_of (snd s) = d) (x :: l) k -> filtered (fun s => depth_of (snd s) = d) (insert x l) k.
Proof.
  intros x l d. induction l as [|y l IH]; intros k H; cbn [insert]; [exact H|].
  destruct (depth_leb (snd x) (snd y)) eqn:E; [exact H|].
  assert (Hne : depth_of (snd x) <> depth_of (snd y)).
  { apply below_total. intro K. apply depth_leb_spec in K. congruence. }
  inversion H as [|? ? k1 Px H1|? ? k1 Px H1]; subst.
  - inversion H1 as [|? ? k2 Py H2|? ? k2 Py H2]; subst; [exfalso; congruence|].
    apply filtered_drop; [exact Py|]. apply IH. apply filtered_keep; [reflexivity|exact H2].
  - inversion H1 as [|? ? k2 Py H2|? ? k2 Py H2]; subst.
    + apply filtered_keep; [reflexivity|]. apply IH. apply filtered_drop; assumption.
    + apply filtered_drop; [exact Py|]. apply IH. apply filtered_drop; assumption.
Qed.

Lemma sort_painting : forall l, painting_order l (sort_by_depth l).
Proof.
  intro l. split.
  - induction l as [|x l IH]; cbn [sort_by_depth fold_right]; [constructor|]. apply insert_sorted. exact IH.
  - assert (Fwd : forall d k, filtered (fun s => depth_of (snd s) = d) l k ->
                              filtered (fun s => depth_of (snd s) = d) (sort_by_depth l) k).
    { induction l as [|x l IH]; intros d k H; cbn [sort_by_depth fold_right]; [exact H|].
      apply insert_filtered. fold (sort_by_depth l).
      inversion H as [|? ? k1 Px H1|? ? k1 Px H1]; subst; [apply filtered_keep|apply filtered_drop]; auto. }
    intros d k. split; [apply Fwd|]. intro H.
    destruct (filtered_total _ (fun s : (Z * Z) * Sprite => depth_of (snd s) = d)
                (fun s => depth_dec (depth_of (snd s)) d) l) as [k' H'].
    pose proof (filtered_fun _ _ _ _ H _ (Fwd _ _ H')). subst. exact H'.
Qed.

(** a painting order is unique *)
Lemma painting_unique : forall l k, painting_order l k -> forall k', painting_order l k' -> k' = k.
Proof.
  intros l k [S1 F1] k' [S2 F2].
  assert (F : forall d m, filtered (fun s => depth_of (snd s) = d) k m <-> filtered (fun s => depth_of (snd s) = d) k' m).
  { intros d m. rewrite <- F1, <- F2. reflexivity. }
  clear F1 F2. revert k' S2 F. induction S1 as [|x k S1 IH Hx]; intros k' S2 F.
  - destruct k' as [|y k']; [reflexivity|].
    assert (H : filtered (fun s => depth_of (snd s) = depth_of (snd y)) (y :: k') []).
    { apply F. constructor. }
    inversion H; subst. congruence.
  - destruct (filtered_total _ (fun s : (Z * Z) * Sprite => depth_of (snd s) = depth_of (snd x))
                (fun s => depth_dec (depth_of (snd s)) (depth_of (snd x))) k) as [m Hm].
    assert (Hk' : filtered (fun s => depth_of (snd s) = depth_of (snd x)) k' (x :: m)).
    { apply F. apply filtered_keep; [reflexivity|exact Hm]. }
    destruct k' as [|y k']; [inversion Hk'|].
    assert (Hxy : below_or_level (depth_of (snd x)) (depth_of (snd y))).
    { destruct (filtered_total _ (fun s : (Z * Z) * Sprite => depth_of (snd s) = depth_of (snd y))
                (fun s => depth_dec (depth_of (snd s)) (depth_of (snd y))) k') as [m' Hm'].
      assert (H : filtered (fun s => depth_of (snd s) = depth_of (snd y)) (x :: k) (y :: m')).
      { apply F. apply filtered_keep; [reflexivity|exact Hm']. }
      assert (Hin : In y (x :: k)) by (apply (filtered_in _ _ _ _ H y); left; reflexivity).
      destruct Hin as [->|Hin].
      - destruct (depth_of (snd y)) as [[? ?] ?]. unfold below_or_level. lia.
      - rewrite Forall_forall in Hx. apply Hx. exact Hin. }
    inversion S2 as [|? ? S2' Hy]; subst.
    assert (E : x = y).
    { inversion Hk' as [|? ? k1 Px H1|? ? k1 Px H1]; subst; [reflexivity|].
      assert (Hin : In x k') by (apply (filtered_in _ _ _ _ H1 x); left; reflexivity).
      rewrite Forall_forall in Hy. specialize (Hy x Hin). exfalso. apply Px.
      destruct (depth_of (snd x)) as [[? ?] ?], (depth_of (snd y)) as [[? ?] ?]. unfold below_or_level in *. 
      f_equal; [f_equal|]; lia. }
    subst y. f_equal. apply IH; [exact S2'|].
    intros d n. destruct (depth_dec (depth_of (snd x)) d) as [Hd|Hd].
    + split; intro H.
      * assert (H' : filtered (fun s => depth_of (snd s) = d) (x :: k') (x :: n)) by (apply F; constructor; assumption).
        inversion H'; subst; [assumption|contradiction].
      * assert (H' : filtered (fun s => depth_of (snd s) = d) (x :: k) (x :: n)) by (apply F; constructor; assumption).
        inversion H'; subst; [assumption|contradiction].
    + split; intro H.
      * assert (H' : filtered (fun s => depth_of (snd s) = d) (x :: k') n) by (apply F; apply filtered_drop; assumption).
        inversion H'; subst; [contradiction|assumption].
      * assert (H' : filtered (fun s => depth_of (snd s) = d) (x :: k) n) by (apply F; apply filtered_drop; assumption).
        inversion H'; subst; [contradiction|assumption].
Qed.
