(** The sprites [generate] collects are the scene. *)
From Coq Require Import List NArith ZArith Bool Lia.
From Verif Require Import Common.Text Dmi.Model Dmi.Spec Minimap.Model Minimap.Spec Minimap.Draw.
Import ListNotations.
Open Scope Z_scope.

Lemma forallb_false : forall A (f : A -> bool) l, forallb f l = false -> exists x, In x l /\ f x = false.
Proof.
  intros A f l. induction l as [|x l IH]; cbn [forallb]; [discriminate|].
  destruct (f x) eqn:E; cbn [andb]; intro H.
  - destruct (IH H) as (y & Hy & Ey). exists y. split; [right; exact Hy|exact Ey].
  - exists x. split; [left; reflexivity|exact E].
Qed.

Lemma nth_in : forall A (l : list A) i, 0 <= i < Z.of_nat (length l) -> exists x, nth_error l (Z.to_nat i) = Some x.
Proof.
  intros A l i H. destruct (nth_error l (Z.to_nat i)) as [x|] eqn:E; [exists x; reflexivity|].
  apply nth_error_None in E. lia.
Qed.

Lemma skip_skip : forall A (l : list A) n m, skipn m (skipn n l) = skipn (n + m) l.
Proof.
  intros A l n. revert l. induction n as [|n IH]; intros [|x l] m; cbn [skipn Nat.add]; try reflexivity.
  - destruct m; reflexivity.
  - apply IH.
Qed.

Lemma nth_error_firstn_lt : forall A (l : list A) n j, (j < n)%nat -> nth_error (firstn n l) j = nth_error l j.
Proof. intros A l. induction l as [|x l IH]; intros [|n] [|j] H; cbn; try reflexivity; try lia. apply IH. lia. Qed.
Lemma nth_error_skipn_add : forall A (l : list A) n j, nth_error (skipn n l) j = nth_error l (n + j).
Proof. intros A l n. revert l. induction n as [|n IH]; intros [|x l] j; cbn; try reflexivity; [destruct j; reflexivity|apply IH]. Qed.

Section Scene.
  Context {F T V K : Type}.
  Local Notation Atom := (@Atom T V).
  Local Notation Prefab := (@Prefab V).
  Local Notation RenderPass := (@RenderPass T V).
  Local Notation Level := (@Level K).
  Context (find_type : text -> option T) (default_sprite : Sprite) (from_vars : Atom -> Sprite)
          (dictionary : K -> option (list Prefab)) (passes : list RenderPass).
  Local Notation objects := (objects find_type default_sprite passes).
  Local Notation objects_at := (objects_at find_type default_sprite dictionary passes).
  Local Notation surroundings := (surroundings find_type default_sprite dictionary passes).
  Local Notation sprites_of := (sprites_of find_type default_sprite from_vars dictionary passes).
  Local Notation tile_scene := (tile_scene find_type default_sprite from_vars dictionary passes).
  Local Notation scene := (scene find_type default_sprite from_vars dictionary passes).
  Local Notation level_ok := (level_ok dictionary).
  Local Notation atoms := (atoms find_type default_sprite dictionary passes).
  Local Notation get_atom_list := (get_atom_list find_type default_sprite passes).

  (** *** objects *)
  Lemma expand_spec : forall (atom : Atom) (ps : list RenderPass), exists l, becomes atom ps l /\
    forall res, expand_loop ps atom res = res ++ l.
  Proof using Type.
    intros atom ps. induction ps as [|p ps (l & H & E)].
    - exists [atom]. split; [constructor|]. reflexivity.
    - destruct (expand p atom) as [extra keep] eqn:Ex. destruct keep.
      + exists (extra ++ l). split; [eapply becomes_more; eassumption|]. intro res. cbn [expand_loop]. rewrite Ex.
        rewrite E, app_assoc. reflexivity.
      + exists extra. split; [apply becomes_other; exact Ex|]. intro res. cbn [expand_loop]. rewrite Ex. reflexivity.
  Qed.

  Lemma becomes_fun : forall (atom : Atom) (ps : list RenderPass) l, becomes atom ps l -> forall l', becomes atom ps l' -> l' = l.
  Proof using Type.
    intros atom ps l H. induction H; intros l' H'; inversion H'; subst; try congruence.
    - assert (extra0 = extra) by congruence. subst. f_equal. auto.
  Qed.

  Lemma objects_fun : forall fab l, objects fab l -> forall l', objects fab l' -> l' = l.
  Proof using Type.
    intros fab l H l' H'.
    destruct H as [fab p Hp Ep|fab Et|fab t p Et Hp Ep|fab t l Et Hall Hb];
      destruct H' as [fab p' Hp' Ep'|fab Et'|fab t' p' Et' Hp' Ep'|fab t' l' Et' Hall' Hb']; try reflexivity.
    - destruct (Hall' p Hp). congruence.
    - congruence.
    - assert (t' = t) by congruence. subst. destruct (Hall' p Hp). congruence.
    - destruct (Hall p' Hp'). congruence.
    - congruence.
    - assert (t' = t) by congruence. subst. destruct (Hall p' Hp'). congruence.
    - assert (t' = t) by congruence. subst. eapply becomes_fun; eassumption.
  Qed.

  Lemma objects_spec : forall fab, exists l, objects fab l /\
    forall rest res, get_atom_list (fab :: rest) res = get_atom_list rest (res ++ l).
  Proof using Type.
    intro fab. cbn [Model.get_atom_list].
    destruct (forallb (fun p => path_filter p (path fab)) passes) eqn:E1.
    - unfold from_prefab. destruct (find_type (path fab)) as [t|] eqn:Et.
      + set (a0 := {| type_ := t; prefab := Some (vars fab); sprite := default_sprite |}).
        destruct (forallb (fun p => early_filter p a0) passes) eqn:E2.
        * destruct (expand_spec a0 passes) as (l & Hl & El). exists l. split.
          -- eapply objects_there; [exact Et| |exact Hl]. intros p Hp.
             rewrite forallb_forall in E1, E2. split; [apply E1; exact Hp|apply (E2 p Hp)].
          -- intros rest res. rewrite El. reflexivity.
        * exists []. split; [|intros; rewrite app_nil_r; reflexivity].
          apply forallb_false in E2. destruct E2 as (p & Hp & Ep). eapply objects_early; eassumption.
      + exists []. split; [apply objects_unknown; exact Et|]. intros; rewrite app_nil_r; reflexivity.
    - exists []. split; [|intros; rewrite app_nil_r; reflexivity].
      apply forallb_false in E1. destruct E1 as (p & Hp & Ep). eapply objects_filtered; eassumption.
  Qed.

  Lemma atom_list_spec : forall fabs, exists ls, Forall2 objects fabs ls /\
    forall res, get_atom_list fabs res = res ++ concat ls.
  Proof using Type.
    induction fabs as [|fab fabs (ls & H & E)].
    - exists []. split; [constructor|]. intro res. cbn. rewrite app_nil_r. reflexivity.
    - destruct (objects_spec fab) as (l & Hl & El). exists (l :: ls). split; [constructor; assumption|].
      intro res. rewrite El, E. cbn [concat]. rewrite app_assoc. reflexivity.
  Qed.

  Lemma Forall2_fun : forall A B (R : A -> B -> Prop) l k, (forall a b, R a b -> forall b', R a b' -> b' = b) ->
    Forall2 R l k -> forall k', Forall2 R l k' -> k' = k.
  Proof using Type.
    intros A B R l k HR H. induction H; intros k' H'; inversion H'; subst; [reflexivity|].
    f_equal; eauto.
  Qed.

  Lemma key_fun : forall (lv : Level) t k, key_of lv t k -> forall k', key_of lv t k' -> k' = k.
  Proof using Type.
    intros lv t k (_ & row & E1 & E2) k' (_ & row' & E1' & E2'). assert (row' = row) by congruence. congruence.
  Qed.

  Lemma objects_at_fun : forall (lv : Level) t l, objects_at lv t l -> forall l', objects_at lv t l' -> l' = l.
  Proof using Type.
    intros lv t l (k & fabs & ls & Hk & Hd & Hf & E) l' (k' & fabs' & ls' & Hk' & Hd' & Hf' & E').
    pose proof (key_fun _ _ _ Hk _ Hk'). subst k'. assert (fabs' = fabs) by congruence. subst.
    f_equal. eapply Forall2_fun; [exact objects_fun|eassumption|eassumption].
  Qed.

  (** the cell of row [y], column [x] *)
  Lemma grid_at_spec : forall (lv : Level) x y, level_ok lv -> 0 <= x < dim_x lv -> 0 <= y < dim_y lv ->
    exists k l, grid_at lv y x = Some k /\ atoms k = Some l /\ objects_at lv (x, dim_y lv - 1 - y) l /\
                key_of lv (x, dim_y lv - 1 - y) k.
  Proof using Type.
    intros lv x y (Hx & Hy & Hr & Hrow & Hk) H1 H2. unfold grid_at.
    destruct (nth_in _ (rows lv) y) as [row Er]; [lia|]. rewrite Er.
    assert (Hin : In row (rows lv)) by (eapply nth_error_In; exact Er).
    destruct (nth_in _ row x) as [k Ek]; [rewrite (Hrow row Hin); lia|]. rewrite Ek.
    destruct (Hk row k Hin) as [fabs Ed]; [eapply nth_error_In; exact Ek|].
    destruct (atom_list_spec fabs) as (ls & Hls & El).
    assert (Hkey : key_of lv (x, dim_y lv - 1 - y) k).
    { split; [split; cbn [fst snd]; lia|]. exists row. cbn [fst snd].
      replace (dim_y lv - 1 - (dim_y lv - 1 - y)) with y by lia. auto. }
    exists k, (concat ls). split; [reflexivity|]. split.
    - unfold Model.atoms. rewrite Ed. cbn [option_map]. rewrite El. reflexivity.
    - split; [|exact Hkey]. exists k, fabs, ls. auto.
  Qed.

  (** *** surroundings *)
  Lemma neighbor_spec : forall (lv : Level) x y dx dy, level_ok lv -> 0 <= x < dim_x lv -> 0 <= y < dim_y lv ->
    -1 <= dx <= 1 -> -1 <= dy <= 1 ->
    exists l, neighbor find_type default_sprite dictionary passes lv x y (dx, dy) = Some l /\
      (on_map lv (x + dx, dim_y lv - 1 - y + dy) -> objects_at lv (x + dx, dim_y lv - 1 - y + dy) l) /\
      (~ on_map lv (x + dx, dim_y lv - 1 - y + dy) -> l = []).
  Proof using Type.
    intros lv x y dx dy Hok Hx Hy Hdx Hdy. pose proof Hok as (Bx & By & _).
    unfold neighbor. cbn [fst snd]. rewrite !as_i32_id by lia. rewrite !i32_in by lia.
    unfold on_map. cbn [fst snd].
    destruct (Z.ltb_spec (x + dx) 0); [exists []; cbn [orb]; split; [reflexivity|]; split; [lia|reflexivity]|].
    destruct (Z.ltb_spec (y - dy) 0); [exists []; cbn [orb]; split; [reflexivity|]; split; [lia|reflexivity]|].
    destruct (Z.geb_spec (x + dx) (dim_x lv)); [exists []; cbn [orb]; split; [reflexivity|]; split; [lia|reflexivity]|].
    destruct (Z.geb_spec (y - dy) (dim_y lv)); [exists []; cbn [orb]; split; [reflexivity|]; split; [lia|reflexivity]|].
    cbn [orb]. destruct (grid_at_spec lv (x + dx) (y - dy) Hok) as (k & l & E1 & E2 & E3 & _); [lia|lia|].
    rewrite E1, E2. exists l. split; [reflexivity|]. split; [|lia]. intros _.
    replace (dim_y lv - 1 - y + dy) with (dim_y lv - 1 - (y - dy)) by lia. exact E3.
  Qed.

  Lemma neighborhood_spec : forall (lv : Level) x y, level_ok lv -> 0 <= x < dim_x lv -> 0 <= y < dim_y lv ->
    exists n, all_some (map (neighbor find_type default_sprite dictionary passes lv x y) GRID) = Some n /\
      surroundings lv (x, dim_y lv - 1 - y) n.
  Proof using Type.
    intros lv x y Hok Hx Hy.
    assert (N : forall dx dy, -1 <= dx <= 1 -> -1 <= dy <= 1 ->
      exists l, neighbor find_type default_sprite dictionary passes lv x y (dx, dy) = Some l /\
      (on_map lv (x + dx, dim_y lv - 1 - y + dy) -> objects_at lv (x + dx, dim_y lv - 1 - y + dy) l) /\
      (~ on_map lv (x + dx, dim_y lv - 1 - y + dy) -> l = [])).
    { intros. apply neighbor_spec; assumption. }
    destruct (N (-1) 1) as (l0 & E0 & P0 & Q0); [lia|lia|].
    destruct (N 0 1) as (l1 & E1 & P1 & Q1); [lia|lia|].
    destruct (N 1 1) as (l2 & E2 & P2 & Q2); [lia|lia|].
    destruct (N (-1) 0) as (l3 & E3 & P3 & Q3); [lia|lia|].
    destruct (N 0 0) as (l4 & E4 & P4 & Q4); [lia|lia|].
    destruct (N 1 0) as (l5 & E5 & P5 & Q5); [lia|lia|].
    destruct (N (-1) (-1)) as (l6 & E6 & P6 & Q6); [lia|lia|].
    destruct (N 0 (-1)) as (l7 & E7 & P7 & Q7); [lia|lia|].
    destruct (N 1 (-1)) as (l8 & E8 & P8 & Q8); [lia|lia|].
    exists [l0; l1; l2; l3; l4; l5; l6; l7; l8]. split.
    - unfold GRID. cbn [map]. rewrite E0, E1, E2, E3, E4, E5, E6, E7, E8. reflexivity.
    - unfold Spec.surroundings, nb_center, nb_offset. cbn [fst snd].
      split; [|split; [|split; [|reflexivity]]].
      + intro H. cbn [nth]. rewrite !Z.add_0_r in P4. apply P4. exact H.
      + intros d H. destruct d; cbn [offset fst snd dir_index nth] in *; auto.
      + intros d H. destruct d; cbn [offset fst snd dir_index nth] in *; auto.
  Qed.

  Lemma surroundings_fun : forall (lv : Level) t n, on_map lv t -> surroundings lv t n ->
    forall n', surroundings lv t n' -> n' = n.
  Proof using Type.
    intros lv t n Ht (C & D & O & L) n' (C' & D' & O' & L').
    assert (Ec : nb_center n' = nb_center n) by (eapply objects_at_fun; eauto).
    assert (Ed : forall d, nb_offset n' d = nb_offset n d).
    { intro d. assert (Hd : on_map lv (fst t + fst (offset d), snd t + snd (offset d)) \/
                            ~ on_map lv (fst t + fst (offset d), snd t + snd (offset d))) by (unfold on_map; cbn; lia).
      destruct Hd as [Hd|Hd]; [eapply objects_at_fun; eauto|]. rewrite (O d Hd), (O' d Hd). reflexivity. }
    pose proof (Ed North) as E1. pose proof (Ed South) as E2. pose proof (Ed East) as E3. pose proof (Ed West) as E4.
    pose proof (Ed Northeast) as E5. pose proof (Ed Northwest) as E6. pose proof (Ed Southeast) as E7.
    pose proof (Ed Southwest) as E8. clear - Ec E1 E2 E3 E4 E5 E6 E7 E8 L L'.
    unfold nb_center, nb_offset, dir_index in *.
    do 10 (destruct n as [|? n]; cbn [length] in L; try discriminate).
    do 10 (destruct n' as [|? n']; cbn [length] in L'; try discriminate).
    cbn [nth] in *. congruence.
  Qed.

  (** *** sprites of an object *)
  Lemma flat_map_concat : forall A B (f : A -> list B) l, flat_map f l = concat (map f l).
  Proof using Type. intros. induction l as [|x l IH]; cbn; [reflexivity|]. rewrite IH. reflexivity. Qed.

  Lemma atom_spec : forall (lv : Level) x y atom, level_ok lv -> 0 <= x < dim_x lv -> 0 <= y < dim_y lv ->
    exists l, sprites_of lv (x, dim_y lv - 1 - y) atom l /\
      atom_sprites find_type default_sprite from_vars dictionary passes lv x y atom = Some (map (pair (x, y)) l).
  Proof using Type.
    intros lv x y atom Hok Hx Hy. unfold atom_sprites. pose proof Hok as (Bx & By & _).
    destruct (forallb (fun p => late_filter p atom) passes) eqn:E1.
    2:{ apply forallb_false in E1. destruct E1 as (p & Hp & Ep). exists []. split; [eapply hidden; eassumption|reflexivity]. }
    fold (own_sprite from_vars passes atom). 
    destruct (icon (own_sprite from_vars passes atom)) as [|ch ic] eqn:Ei.
    { exists []. split; [apply no_icon; exact Ei|reflexivity]. }
    destruct (neighborhood_spec lv x y Hok Hx Hy) as (n & En & Hn). rewrite En.
    set (atom' := {| type_ := type_ atom; prefab := prefab atom; sprite := own_sprite from_vars passes atom |}).
    change (with_sprite atom (own_sprite from_vars passes atom)) with atom'.
    rewrite (Z.mod_small x) by lia. rewrite (Z.mod_small y) by lia.
    exists (concat (map (fun p => fst (overlays p atom')) passes) ++
            concat (map (fun p => fst (neighborhood_appearance p atom' n)) passes) ++
            (if forallb snd (map (fun p => neighborhood_appearance p atom' n) passes)
             then [own_sprite from_vars passes atom] else []) ++
            concat (map (fun p => snd (overlays p atom')) passes)).
    split.
    - eapply drawn with (n := n); try reflexivity.
      + intros p Hp. rewrite forallb_forall in E1. apply E1. exact Hp.
      + congruence.
      + exact Hn.
      + fold atom'. destruct (forallb snd _) eqn:E2.
        * left. split; [|reflexivity]. intros p Hp. rewrite forallb_forall in E2. apply E2.
          apply (in_map (fun p => neighborhood_appearance p atom' n)). exact Hp.
        * right. split; [|reflexivity]. apply forallb_false in E2. destruct E2 as (q & Hq & Eq).
          apply in_map_iff in Hq. destruct Hq as (p & <- & Hp). exists p. auto.
    - f_equal. rewrite !flat_map_concat. rewrite map_map.
      destruct (forallb snd _); rewrite ?map_app, <- ?app_assoc; reflexivity.
  Qed.

  Lemma sprites_fun : forall (lv : Level) t atom l, on_map lv t -> sprites_of lv t atom l ->
    forall l', sprites_of lv t atom l' -> l' = l.
  Proof using Type.
    intros lv t atom l Ht H l' H'.
    destruct H as [p Hp Ep|Ei|n under beside own over Hall Hi Hn atom' Hu Hb Ho Hown];
      destruct H' as [p' Hp' Ep'|Ei'|n' under' beside' own' over' Hall' Hi' Hn' atom'' Hu' Hb' Ho' Hown']; try reflexivity;
      try contradiction.
    - specialize (Hall' p Hp). congruence.
    - specialize (Hall p' Hp'). congruence.
    - pose proof (surroundings_fun _ _ _ Ht Hn _ Hn'). subst n'. subst atom''. fold atom' in Hu', Hb', Ho', Hown'.
      assert (own' = own).
      { destruct Hown as [[A ->]|[(p & P1 & P2) ->]], Hown' as [[A' ->]|[(p' & P1' & P2') ->]]; try reflexivity.
        - specialize (A p' P1'). congruence.
        - specialize (A' p P1). congruence. }
      congruence.
  Qed.

  (** *** tiles *)
  Lemma concat_map_spec : forall A B C (f : A -> option (list C)) (R : A -> list B -> Prop) (g : B -> C) l,
    (forall x, In x l -> exists k, R x k /\ f x = Some (map g k)) ->
    exists ls, Forall2 R l ls /\ concat_some (map f l) = Some (map g (concat ls)).
  Proof using Type.
    intros A B C f R g l. induction l as [|x l IH]; intro H.
    - exists []. split; [constructor|reflexivity].
    - destruct (H x (or_introl eq_refl)) as (k & Hk & Ek).
      destruct IH as (ls & Hls & Els); [intros y Hy; apply H; right; exact Hy|].
      exists (k :: ls). split; [constructor; assumption|]. cbn [map concat_some concat]. rewrite Ek, Els.
      cbn [option_map]. rewrite map_app. reflexivity.
  Qed.

  (** the model stores rows from the top *)
  Definition flip (lv : Level) (ts : (Z * Z) * Sprite) : (Z * Z) * Sprite :=
    ((fst (fst ts), dim_y lv - 1 - snd (fst ts)), snd ts).

  Lemma tile_spec : forall (lv : Level) min max x y k, level_ok lv -> 0 <= x < dim_x lv -> 0 <= y < dim_y lv ->
    fst min <= x <= fst max -> grid_at lv y x = Some k ->
    exists l, tile_scene lv (x, dim_y lv - 1 - y) l /\
      cell_sprites find_type default_sprite from_vars dictionary passes lv min max y (x, k) = Some (map (flip lv) l).
  Proof using Type.
    intros lv min max x y k Hok Hx Hy Hin Hk. unfold cell_sprites.
    destruct (Z.ltb_spec x (fst min)); [lia|]. destruct (Z.gtb_spec x (fst max)); [lia|]. cbn [orb].
    destruct (grid_at_spec lv x y Hok Hx Hy) as (k' & objs & E1 & E2 & E3 & _).
    assert (k' = k) by congruence. subst k'. rewrite E2.
    destruct (concat_map_spec _ _ _ (atom_sprites find_type default_sprite from_vars dictionary passes lv x y)
                (sprites_of lv (x, dim_y lv - 1 - y)) (pair (x, y)) objs) as (ls & Hls & Els).
    { intros atom _. destruct (atom_spec lv x y atom Hok Hx Hy) as (l & Hl & El). exists l. auto. }
    exists (map (pair (x, dim_y lv - 1 - y)) (concat ls)). split.
    - exists objs, ls. auto.
    - rewrite Els, map_map. f_equal. apply map_ext. intro s. unfold flip. cbn [fst snd].
      replace (dim_y lv - 1 - (dim_y lv - 1 - y)) with y by lia. reflexivity.
  Qed.

  Lemma concat_some_app : forall A (a b : list (option (list A))) x y,
    concat_some a = Some x -> concat_some b = Some y -> concat_some (a ++ b) = Some (x ++ y).
  Proof using Type.
    intros A a. induction a as [|[o|] a IH]; intros b x y Hx Hy; cbn [app concat_some] in *.
    - assert (x = []) by congruence. subst. exact Hy.
    - destruct (concat_some a) as [x'|] eqn:E; [|discriminate]. cbn [option_map] in Hx.
      assert (x = o ++ x') by congruence. subst. rewrite (IH b x' y eq_refl Hy). cbn [option_map].
      rewrite app_assoc. reflexivity.
    - discriminate.
  Qed.

  Lemma concat_some_nil : forall A B (f : A -> option (list B)) l, (forall x, In x l -> f x = Some []) ->
    concat_some (map f l) = Some [].
  Proof using Type.
    intros A B f l H. induction l as [|x l IH]; [reflexivity|]. cbn [map concat_some].
    rewrite (H x (or_introl eq_refl)), IH; [reflexivity|]. intros y Hy. apply H. right. exact Hy.
  Qed.

  (** a loop over all indices that does nothing outside an interval *)
  Lemma enumerate_split : forall A (l : list A) lo hi, 0 <= lo -> lo <= hi + 1 -> hi < Z.of_nat (length l) ->
    enumerate l =
      combine (map Z.of_nat (seq 0 (Z.to_nat lo))) (firstn (Z.to_nat lo) l) ++
      combine (interval lo hi) (firstn (Z.to_nat (hi - lo + 1)) (skipn (Z.to_nat lo) l)) ++
      combine (map Z.of_nat (seq (Z.to_nat (hi + 1)) (length l - Z.to_nat (hi + 1)))) (skipn (Z.to_nat (hi + 1)) l).
  Proof using Type.
    intros A l lo hi Hlo Hlh Hhi. unfold enumerate.
    assert (Happ : forall (a b : list Z) (c d : list A), length a = length c -> combine (a ++ b) (c ++ d) = combine a c ++ combine b d).
    { clear. induction a as [|x a IH]; intros b [|y c] d H; cbn in *; try discriminate; [reflexivity|].
      rewrite IH by lia. reflexivity. }
    rewrite <- !Happ.
    - f_equal.
      + unfold interval.
        replace (map (fun i => lo + Z.of_nat i) (seq 0 (Z.to_nat (hi - lo + 1))))
          with (map Z.of_nat (seq (Z.to_nat lo) (Z.to_nat (hi - lo + 1)))).
        * rewrite <- !map_app. f_equal.
          replace (Z.to_nat (hi + 1)) with (Z.to_nat lo + Z.to_nat (hi - lo + 1))%nat by lia.
          rewrite <- seq_app. change (seq (Z.to_nat lo)) with (seq (0 + Z.to_nat lo)). rewrite <- seq_app.
          replace (Z.to_nat lo + (Z.to_nat (hi - lo + 1) + (length l - (Z.to_nat lo + Z.to_nat (hi - lo + 1)))))%nat
            with (length l) by lia. reflexivity.
        * rewrite <- (Nat.add_0_r (Z.to_nat lo)) at 1. generalize 0%nat. generalize (Z.to_nat (hi - lo + 1)).
          intro n. induction n as [|n IHn]; intro m; [reflexivity|]. cbn [seq map]. f_equal; [lia|].
          rewrite <- IHn. f_equal. f_equal. lia.
      + rewrite <- (firstn_skipn (Z.to_nat lo) l) at 1. f_equal.
        rewrite <- (firstn_skipn (Z.to_nat (hi - lo + 1)) (skipn (Z.to_nat lo) l)) at 1. f_equal.
        rewrite skip_skip. f_equal. lia.
    - unfold interval. rewrite ?map_length, ?seq_length, ?firstn_length, ?skipn_length. lia.
    - unfold interval. rewrite ?map_length, ?seq_length, ?firstn_length, ?skipn_length. lia.
  Qed.

  Lemma in_combine_seq : forall A (l : list A) n m p, In p (combine (map Z.of_nat (seq n m)) l) ->
    Z.of_nat n <= fst p < Z.of_nat (n + m).
  Proof using Type.
    intros A l n m [i x] H. apply in_combine_l in H. apply in_map_iff in H. destruct H as (j & <- & Hj).
    apply in_seq in Hj. cbn [fst]. lia.
  Qed.

  Lemma concat_enumerate : forall A B (f : Z * A -> option (list B)) l lo hi r,
    0 <= lo -> lo <= hi + 1 -> hi < Z.of_nat (length l) ->
    (forall i x, i < lo \/ hi < i -> f (i, x) = Some []) ->
    concat_some (map f (combine (interval lo hi) (firstn (Z.to_nat (hi - lo + 1)) (skipn (Z.to_nat lo) l)))) = Some r ->
    concat_some (map f (enumerate l)) = Some r.
  Proof using Type.
    intros A B f l lo hi r H1 H2 H3 Hf Hr. rewrite (enumerate_split _ l lo hi H1 H2 H3). rewrite !map_app.
    replace r with ([] ++ r ++ []) by (rewrite app_nil_r; reflexivity).
    apply concat_some_app; [|apply concat_some_app; [exact Hr|]].
    - apply concat_some_nil. intros [i x] Hi. apply in_combine_seq in Hi. cbn [fst] in Hi. apply Hf. lia.
    - apply concat_some_nil. intros [i x] Hi. apply in_combine_seq in Hi. cbn [fst] in Hi. apply Hf. lia.
  Qed.

  Lemma in_interval : forall lo hi i, In i (interval lo hi) <-> lo <= i <= hi.
  Proof using Type.
    intros lo hi i. unfold interval. rewrite in_map_iff. split.
    - intros (j & <- & Hj). apply in_seq in Hj. lia.
    - intro H. exists (Z.to_nat (i - lo)). split; [lia|]. apply in_seq. lia.
  Qed.

  (** the elements met by such a loop *)
  Lemma interval_nth : forall A (l : list A) lo hi i x, 0 <= lo -> hi < Z.of_nat (length l) ->
    In (i, x) (combine (interval lo hi) (firstn (Z.to_nat (hi - lo + 1)) (skipn (Z.to_nat lo) l))) ->
    lo <= i <= hi /\ nth_error l (Z.to_nat i) = Some x.
  Proof using Type.
    intros A l lo hi i x Hlo Hhi H. split; [apply in_combine_l in H; apply in_interval in H; exact H|].
    apply In_nth_error in H. destruct H as [j Hj].
    assert (Hc : forall (a : list Z) (b : list A) j, nth_error (combine a b) j = Some (i, x) ->
              nth_error a j = Some i /\ nth_error b j = Some x).
    { clear. induction a as [|u a IH]; intros b [|j] H; destruct b as [|v b]; cbn in *; try discriminate.
      - split; congruence.
      - apply IH. exact H. }
    apply Hc in Hj. destruct Hj as [Ha Hb]. unfold interval in Ha.
    assert (Hjn : (j < Z.to_nat (hi - lo + 1))%nat).
    { assert (Hl : nth_error (map (fun i => lo + Z.of_nat i) (seq 0 (Z.to_nat (hi - lo + 1)))) j <> None) by congruence.
      apply nth_error_Some in Hl. rewrite map_length, seq_length in Hl. exact Hl. }
    rewrite nth_error_map in Ha. rewrite (nth_error_nth' _ 0%nat) in Ha by (rewrite seq_length; exact Hjn).
    rewrite seq_nth in Ha by exact Hjn. cbn [option_map] in Ha.
    assert (Ei : i = lo + Z.of_nat j) by (cbn [Nat.add] in Ha; congruence).
    rewrite nth_error_firstn_lt in Hb by exact Hjn. rewrite nth_error_skipn_add in Hb.
    rewrite Ei. replace (Z.to_nat (lo + Z.of_nat j)) with (Z.to_nat lo + j)%nat by lia. exact Hb.
  Qed.

  Lemma Forall2_map_l : forall A B C (f : A -> B) (R : B -> C -> Prop) l k,
    Forall2 (fun a c => R (f a) c) l k -> Forall2 R (map f l) k.
  Proof using Type. intros A B C f R l k H. induction H; cbn [map]; constructor; assumption. Qed.

  Lemma combine_fst : forall A B (a : list A) (b : list B), length a = length b -> map fst (combine a b) = a.
  Proof using Type. induction a as [|x a IH]; intros [|y b] H; cbn in *; try discriminate; [reflexivity|]. rewrite IH by lia. reflexivity. Qed.

  Lemma loop_spec : forall A B C (f : Z * A -> option (list C)) (R : Z -> list B -> Prop) (g : B -> C) l lo hi,
    0 <= lo -> lo <= hi + 1 -> hi < Z.of_nat (length l) ->
    (forall i x, i < lo \/ hi < i -> f (i, x) = Some []) ->
    (forall i x, lo <= i <= hi -> nth_error l (Z.to_nat i) = Some x -> exists k, R i k /\ f (i, x) = Some (map g k)) ->
    exists ls, Forall2 R (interval lo hi) ls /\ concat_some (map f (enumerate l)) = Some (map g (concat ls)).
  Proof using Type.
    intros A B C f R g l lo hi H1 H2 H3 Hout Hin.
    destruct (concat_map_spec _ _ _ f (fun p => R (fst p)) g
                (combine (interval lo hi) (firstn (Z.to_nat (hi - lo + 1)) (skipn (Z.to_nat lo) l)))) as (ls & Hls & Els).
    { intros [i x] Hi. apply interval_nth in Hi; [|assumption|assumption]. destruct Hi as [Hi Hx].
      destruct (Hin i x Hi Hx) as (k & Hk & Ek). exists k. auto. }
    exists ls. split.
    - apply Forall2_map_l in Hls. rewrite combine_fst in Hls; [exact Hls|].
      unfold interval. rewrite map_length, seq_length, firstn_length, skipn_length. lia.
    - eapply concat_enumerate; eassumption.
  Qed.

  Lemma Forall2_concat : forall A B (R : A -> B -> Prop) (a : list (list A)) (b : list (list B)),
    Forall2 (Forall2 R) a b -> Forall2 R (concat a) (concat b).
  Proof using Type. intros A B R a b H. induction H; cbn [concat]; [constructor|]. apply Forall2_app; assumption. Qed.

  Lemma interval_flip : forall d lo hi, lo <= hi + 1 ->
    map (fun y => d - 1 - y) (interval (d - hi - 1) (d - lo - 1)) = rev (interval lo hi).
  Proof using Type.
    intros d lo hi H. unfold interval. rewrite map_map.
    replace (d - lo - 1 - (d - hi - 1) + 1) with (hi - lo + 1) by lia.
    remember (Z.to_nat (hi - lo + 1)) as n eqn:En. assert (Hh : hi = lo + Z.of_nat n - 1) by lia. clear En H. subst hi.
    revert lo. induction n as [|n IH]; intro lo; [reflexivity|].
    rewrite seq_S at 2. rewrite map_app, rev_app_distr. cbn [map rev app seq]. f_equal; [lia|].
    rewrite <- (IH lo). rewrite <- seq_shift, map_map. apply map_ext. intro i. lia.
  Qed.

  Lemma Forall2_map_r : forall A B C (f : B -> C) (R : A -> C -> Prop) l k,
    Forall2 (fun a b => R a (f b)) l k -> Forall2 R l (map f k).
  Proof using Type. intros A B C f R l k H. induction H; cbn [map]; constructor; assumption. Qed.

  Lemma concat_concat : forall A (l : list (list (list A))), concat (map (@concat A) l) = concat (concat l).
  Proof using Type.
    intros A l. induction l as [|x l IH]; [reflexivity|]. cbn [map concat]. rewrite IH, concat_app. reflexivity.
  Qed.

  (** *** all rows *)
  Lemma rows_spec : forall (lv : Level) min max, level_ok lv -> on_map lv min -> on_map lv max ->
    fst min <= fst max -> snd min <= snd max ->
    exists all, Forall2 (tile_scene lv) (tiles min max) all /\
      concat_some (map (row_sprites find_type default_sprite from_vars dictionary passes lv min max
                          (dim_y lv - snd max - 1) (dim_y lv - snd min - 1)) (enumerate (rows lv))) =
        Some (map (flip lv) (concat all)).
  Proof using Type.
    intros lv min max Hok Hmin Hmax Hx Hy. pose proof Hok as (Bx & By & Hr & Hrow & _).
    unfold on_map in Hmin, Hmax.
    set (R := fun (y : Z) (l : list ((Z * Z) * Sprite)) => exists ls,
                Forall2 (tile_scene lv) (map (fun x => (x, dim_y lv - 1 - y)) (interval (fst min) (fst max))) ls /\ l = concat ls).
    destruct (loop_spec _ _ _ (row_sprites find_type default_sprite from_vars dictionary passes lv min max
                          (dim_y lv - snd max - 1) (dim_y lv - snd min - 1)) R (flip lv) (rows lv)
                (dim_y lv - snd max - 1) (dim_y lv - snd min - 1)) as (ls & Hls & Els); try lia.
    { intros i row Hi. unfold row_sprites.
      destruct (Z.ltb_spec i (dim_y lv - snd max - 1)); [reflexivity|].
      destruct (Z.gtb_spec i (dim_y lv - snd min - 1)); [reflexivity|]. lia. }
    { intros y row Hyy Erow. unfold row_sprites.
      destruct (Z.ltb_spec y (dim_y lv - snd max - 1)); [lia|].
      destruct (Z.gtb_spec y (dim_y lv - snd min - 1)); [lia|]. cbn [orb].
      assert (Hl : Z.of_nat (length row) = dim_x lv) by (apply Hrow; eapply nth_error_In; exact Erow).
      destruct (loop_spec _ _ _ (cell_sprites find_type default_sprite from_vars dictionary passes lv min max y)
                  (fun x l => tile_scene lv (x, dim_y lv - 1 - y) l) (flip lv) row (fst min) (fst max))
        as (cs & Hcs & Ecs); try lia.
      { intros i k Hi. unfold cell_sprites.
        destruct (Z.ltb_spec i (fst min)); [reflexivity|]. destruct (Z.gtb_spec i (fst max)); [reflexivity|]. lia. }
      { intros x k Hxx Ek. apply tile_spec; try assumption; try lia.
        unfold grid_at. rewrite Erow. exact Ek. }
      exists (concat cs). split; [|exact Ecs]. exists cs. split; [|reflexivity].
      apply Forall2_map_l. exact Hcs. }
    (* put the rows together *)
    assert (Hall : exists alls,
              Forall2 (fun y l => Forall2 (tile_scene lv) (map (fun x => (x, dim_y lv - 1 - y)) (interval (fst min) (fst max))) l)
                (interval (dim_y lv - snd max - 1) (dim_y lv - snd min - 1)) alls /\ ls = map (@concat _) alls).
    { clear - Hls. induction Hls as [|y l ys ls (a & Ha & E) _ (alls & IH & E')].
      - exists []. split; [constructor|reflexivity].
      - exists (a :: alls). split; [constructor; assumption|]. cbn [map]. congruence. }
    destruct Hall as (alls & Halls & Els').
    exists (concat alls). split.
    - unfold tiles. apply Forall2_concat. rewrite <- (interval_flip (dim_y lv)) by lia. rewrite map_map.
      apply Forall2_map_l. exact Halls.
    - rewrite Els, Els', concat_concat. reflexivity.
  Qed.

  Lemma scene_spec : forall (lv : Level) min max, level_ok lv -> on_map lv min -> on_map lv max ->
    fst min <= fst max -> snd min <= snd max ->
    exists l, scene lv min max l /\
      exists all, concat_some (map (row_sprites find_type default_sprite from_vars dictionary passes lv min max
                          (dim_y lv - snd max - 1) (dim_y lv - snd min - 1)) (enumerate (rows lv))) = Some all /\
        filter (fun ls => forallb (fun p => sprite_filter p (snd ls)) passes) all = map (flip lv) l.
  Proof using Type.
    intros lv min max Hok Hmin Hmax Hx Hy. destruct (rows_spec lv min max Hok Hmin Hmax Hx Hy) as (all & Hall & Eall).
    exists (filter (fun ls => forallb (fun p => sprite_filter p (snd ls)) passes) (concat all)). split.
    - exists all. split; [exact Hall|]. apply filtered_filter. intro ts. unfold kept. rewrite forallb_forall. reflexivity.
    - exists (map (flip lv) (concat all)). split; [exact Eall|].
      generalize (concat all) as l. induction l as [|ts l IH]; [reflexivity|]. cbn [map filter].
      cbn [flip snd]. destruct (forallb _ passes); cbn [map]; rewrite IH; reflexivity.
  Qed.

  Lemma tiles_on_map : forall (lv : Level) min max t, on_map lv min -> on_map lv max -> In t (tiles min max) ->
    on_map lv t /\ fst min <= fst t <= fst max /\ snd min <= snd t <= snd max.
  Proof using Type.
    intros lv min max t Hmin Hmax H. unfold tiles in H. apply in_concat in H. destruct H as (row & Hrow & Ht).
    apply in_map_iff in Hrow. destruct Hrow as (y & <- & Hyy). apply in_map_iff in Ht. destruct Ht as (x & <- & Hxx).
    apply in_rev in Hyy. apply in_interval in Hyy, Hxx. unfold on_map in *. cbn [fst snd] in *. lia.
  Qed.

  Lemma tile_fun : forall (lv : Level) t l, on_map lv t -> tile_scene lv t l -> forall l', tile_scene lv t l' -> l' = l.
  Proof using Type.
    intros lv t l Ht (objs & ls & H1 & H2 & ->) l' (objs' & ls' & H1' & H2' & ->).
    pose proof (objects_at_fun _ _ _ H1 _ H1'). subst objs'. f_equal. f_equal.
    eapply Forall2_fun; [|exact H2|exact H2']. intros. eapply sprites_fun; eassumption.
  Qed.

  Lemma scene_fun : forall (lv : Level) min max l, on_map lv min -> on_map lv max ->
    scene lv min max l -> forall l', scene lv min max l' -> l' = l.
  Proof using Type.
    intros lv min max l Hmin Hmax (all & H1 & H2) l' (all' & H1' & H2').
    assert (E : all' = all).
    { clear H2 H2'. assert (Ht : forall t, In t (tiles min max) -> on_map lv t) by (intros t Hin; exact (proj1 (tiles_on_map lv min max t Hmin Hmax Hin))).
      revert all' H1'. induction H1 as [|t k ts ks Hk H IH]; intros all' H'; inversion H'; subst; [reflexivity|].
      f_equal; [|apply IH; [intros; apply Ht; right; assumption|assumption]].
      eapply tile_fun; [apply Ht; left; reflexivity|eassumption|eassumption]. }
    subst all'. eapply filtered_fun; eassumption.
  Qed.

  (** a sprite of the scene stands on a tile of the rectangle *)
  Lemma scene_in : forall (lv : Level) min max l, on_map lv min -> on_map lv max -> scene lv min max l ->
    forall t s, In (t, s) l -> fst min <= fst t <= fst max /\ snd min <= snd t <= snd max.
  Proof using Type.
    intros lv min max l Hmin Hmax (all & H1 & H2) t s Hin.
    apply (filtered_in _ _ _ _ H2) in Hin. destruct Hin as [Hin _]. apply in_concat in Hin. destruct Hin as (k & Hk & Hin).
    assert (Hex : exists t', In t' (tiles min max) /\ tile_scene lv t' k).
    { clear - H1 Hk. induction H1 as [|t' k' ts ks Hk' H IH]; [destruct Hk|].
      destruct Hk as [->|Hk]; [exists t'; split; [left; reflexivity|exact Hk']|].
      destruct (IH Hk) as (u & Hu & Eu). exists u. split; [right; exact Hu|exact Eu]. }
    destruct Hex as (t' & Ht' & (objs & ls & _ & _ & ->)). apply in_map_iff in Hin. destruct Hin as (s' & E & _).
    assert (t' = t) by congruence. subst. eapply tiles_on_map in Ht'; [|eassumption|eassumption]. apply Ht'.
  Qed.
End Scene.
