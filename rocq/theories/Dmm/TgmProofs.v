(** Saving and reading again. *)
From Coq Require Import List ZArith NArith Lia Bool Ascii String Sorted.
From Verif Require Import Common.Text Common.Decimal Common.Utf8 Dmm.Model Dmm.Spec Dmm.KeyProofs Dmm.TgmModel Dmm.TgmSpec Dmm.TgmDict Dmm.TgmGrid.
Import ListNotations.
Open Scope N_scope.

(** ** lists *)
Lemma flat_seq : forall (w n : nat), flat_map (fun y => map (fun x => (y * w + x)%nat) (seq 0 w)) (seq 0 n) = seq 0 (n * w).
Proof.
  intros w n. induction n as [|n IH]; [reflexivity|]. rewrite seq_S, flat_map_app, IH. cbn [flat_map Nat.add]. rewrite app_nil_r.
  rewrite Nat.mul_succ_l, seq_app, Nat.add_0_l. f_equal.
  assert (G : forall k a, map (fun x => (a + x)%nat) (seq 0 k) = seq a k).
  { clear. intros k a. assert (G0 : forall b, map (fun x => (a + x)%nat) (seq b k) = seq (a + b) k).
    { induction k as [|k IH]; intro b; [reflexivity|]. cbn [seq map]. f_equal. rewrite IH. f_equal. lia. }
    rewrite G0, Nat.add_0_r. reflexivity. }
  apply G.
Qed.
Lemma map_nth_seq : forall (l : list Z) d, map (fun i => nth i l d) (seq 0 (List.length l)) = l.
Proof.
  induction l as [|a l IH]; intro d; [reflexivity|]. cbn [List.length seq map nth]. f_equal.
  rewrite <- seq_shift, map_map. apply IH.
Qed.
Lemma all_some_map : forall l, all_some (map Some l) = Some l.
Proof. induction l as [|a l IH]; [reflexivity|]. cbn [map all_some]. rewrite IH. reflexivity. Qed.
Lemma flat_map_ext_in {A B} : forall (f g : A -> list B) l, (forall a, In a l -> f a = g a) -> flat_map f l = flat_map g l.
Proof. induction l as [|a l IH]; intro H; [reflexivity|]. cbn [flat_map]. rewrite (H a), IH; [reflexivity | intros b Hb; apply H; right; exact Hb | left; reflexivity]. Qed.
Lemma map_flat_map {A B D} : forall (f : B -> D) (g : A -> list B) l, map f (flat_map g l) = flat_map (fun a => map f (g a)) l.
Proof. induction l as [|a l IH]; [reflexivity|]. cbn [flat_map]. rewrite map_app, IH. reflexivity. Qed.

Lemma concat_opt_app : forall a b r, concat_opt (a ++ b) = Some r ->
  exists ra rb, concat_opt a = Some ra /\ concat_opt b = Some rb /\ r = ra ++ rb.
Proof.
  induction a as [|[x|] a IH]; intros b r H; cbn [app concat_opt] in *.
  - exists [], r. auto.
  - destruct (concat_opt (a ++ b)) as [t|] eqn:E; [|discriminate]. cbn in H. injection H as <-.
    destruct (IH b t E) as (ra & rb & H1 & H2 & ->). exists (x ++ ra), rb. rewrite H1. cbn. rewrite app_assoc. auto.
  - discriminate.
Qed.

(** ** the tracker *)
Lemma tracker_short : forall bs col, (forall l b, bs = l ++ b -> ~ In 10 l -> col + N.of_nat (List.length l) <= 65534) ->
  (forall a l b, bs = a ++ l ++ b -> ~ In 10 l -> N.of_nat (List.length l) <= 65534) -> tracker_ok col bs = true.
Proof.
  induction bs as [|c bs IH]; intros col H1 H2; [reflexivity|]. cbn [tracker_ok].
  pose proof (H1 [] (c :: bs) eq_refl (fun x => x)) as H0. cbn [List.length N.of_nat] in H0.
  destruct (N.leb_spec (col + 1) 65535); [|lia]. apply IH.
  - intros l b E Hl. destruct (N.eqb_spec c 10) as [->|Hc].
    + pose proof (H2 [10] l b) as G. cbn [app] in G. rewrite E in G. specialize (G eq_refl Hl). lia.
    + pose proof (H1 (c :: l) b) as G. cbn [app] in G. rewrite E in G. specialize (G eq_refl). cbn [List.length] in G. rewrite Nat2N.inj_succ in G.
      assert (~ In 10 (c :: l)) as Hn by (intros [Hx|Hx]; [exact (Hc Hx) | exact (Hl Hx)]). specialize (G Hn). lia.
  - intros a l b E Hl. apply (H2 (c :: a) l b); [cbn [app]; rewrite E; reflexivity | exact Hl].
Qed.
Lemma short_tracker : forall bs, short_lines bs -> tracker_ok 0 bs = true.
Proof. intros bs H. apply tracker_short; [|exact H]. intros l b E Hl. rewrite N.add_0_l. apply (H [] l b); [exact E | exact Hl]. Qed.

Section Grid.
  Variables (len : Z) (g : grid3 Z) (dz dy dx : nat).
  Hypothesis Hlen : (1 <= len <= 3)%Z.
  Hypothesis Hdim : g3_dim g = (dz, dy, dx).
  Hypothesis Hdy : (1 <= dy)%nat.
  Hypothesis Hkeys : Forall (fun k => 0 <= k <= KEY_MAX)%Z (g3_data g).

  Definition val (z y x : nat) : Z := nth ((z * dy + y) * dx + x) (g3_data g) 0%Z.

  Lemma val_range : forall z y x, (0 <= val z y x <= KEY_MAX)%Z.
  Proof using Hkeys.
    clear Hlen Hdim Hdy. intros z y x. unfold val. destruct (nth_in_or_default ((z * dy + y) * dx + x) (g3_data g) 0%Z) as [H|H].
    - rewrite Forall_forall in Hkeys. apply Hkeys, H.
    - rewrite H. split; [lia | unfold KEY_MAX; lia].
  Qed.

  Lemma column_rows : forall z x, map (fun k => [k]) (column g z x) = map (fun y => [val z y x]) (seq 0 dy).
  Proof using Hdim. intros z x. unfold column. rewrite Hdim, map_map. reflexivity. Qed.

  Lemma save_column_rows : forall col bs, Forall (fun k => 0 <= k <= KEY_MAX)%Z col -> save_column len col = Some bs ->
    rows_text len (map (fun k => [k]) col) bs.
  Proof using Type.
    induction col as [|k col IH]; intros bs Hc H; cbn [save_column] in H.
    - injection H as <-. exists []. split; [constructor | reflexivity].
    - inversion Hc as [|? ? Hk Hc']; subst. destruct (key_bytes (format_key len k)) as [kb|] eqn:Ek; [|discriminate].
      destruct (save_column len col) as [rest|] eqn:Er; [|discriminate].
      assert (E : bs = kb ++ [10] ++ rest) by congruence. clear H.
      destruct (IH rest Hc' eq_refl) as (ls & Hls & ->). exists (kb :: ls). split.
      + cbn [map]. constructor; [|exact Hls]. exists [kb]. split; [constructor; [split; assumption | constructor] | cbn [List.concat]; rewrite app_nil_r; reflexivity].
      + rewrite E. cbn [map List.concat]. rewrite <- app_assoc. reflexivity.
  Qed.

  Lemma save_block_text : forall z x bs, save_block len g z x = Some bs ->
    exists body, rows_text len (map (fun y => [val z y x]) (seq 0 dy)) body /\ bs = block_text (N.of_nat x + 1) 1 (N.of_nat z + 1) body.
  Proof using Hdim Hkeys.
    intros z x bs H. unfold save_block in H. destruct (save_column len (column g z x)) as [keys|] eqn:E; [|discriminate].
    assert (Eb : bs = lit "(" ++ print_N (N.of_nat x + 1) ++ lit ",1," ++ print_N (N.of_nat z + 1) ++ lit ") = {""" ++ [10] ++ keys ++ lit """}" ++ [10]) by congruence. clear H.
    exists keys. split.
    - rewrite <- column_rows. apply save_column_rows; [|exact E]. unfold column. rewrite Hdim.
      apply Forall_forall. intros k Hk. apply in_map_iff in Hk. destruct Hk as (y & <- & _). apply val_range.
    - rewrite Eb. unfold block_text, head_text. rewrite <- !app_assoc. reflexivity.
  Qed.

  (** the cells read so far: [zc] whole levels and [xc] columns of the next *)
  Definition done (zc xc : nat) (c : N * N * N) : bool :=
    let '(j, i, z) := c in
    (1 <=? j) && (j <=? N.of_nat dx) && (1 <=? i) && (i <=? N.of_nat dy) && (1 <=? z) &&
    ((z <=? N.of_nat zc) || ((z =? N.of_nat zc + 1) && (j <=? N.of_nat xc))).
  Definition inv (zc xc : nat) (cs : list ((N * N * N) * Z)) : Prop :=
    forall j i z, find_cell (j, i, z) cs =
      if done zc xc (j, i, z) then Some (val (N.to_nat (z - 1)) (N.to_nat (i - 1)) (N.to_nat (j - 1))) else None.

  Lemma inv_step : forall zc xc cs cs', (xc < dx)%nat -> inv zc xc cs ->
    extends (N.of_nat xc + 1) 1 (N.of_nat zc + 1) (map (fun y => [val zc y xc]) (seq 0 dy)) cs cs' -> inv zc (S xc) cs'.
  Proof using Type.
    clear Hlen Hdim Hdy Hkeys. intros zc xc cs cs' Hx Hi He j i z. rewrite (He (j, i, z)), (Hi j i z). unfold lookup, done.
    destruct (N.eqb_spec z (N.of_nat zc + 1)) as [->|Hz]; cbn [andb].
    2: { rewrite !orb_false_r. reflexivity. }
    assert (Ez : (N.of_nat zc + 1 <=? N.of_nat zc) = false) by (apply N.leb_gt; lia). rewrite Ez. cbn [orb].
    assert (Ez1 : (1 <=? N.of_nat zc + 1) = true) by (apply N.leb_le; lia). rewrite Ez1.
    destruct (N.leb_spec (N.of_nat xc + 1) j) as [Hj|Hj]; cbn [andb].
    2: { replace (j <=? N.of_nat (S xc)) with (j <=? N.of_nat xc); [reflexivity|]. destruct (N.leb_spec j (N.of_nat xc)), (N.leb_spec j (N.of_nat (S xc))); lia || reflexivity. }
    assert (E1 : (j <=? N.of_nat xc) = false) by (apply N.leb_gt; lia). rewrite E1, !andb_false_r.
    destruct (N.leb_spec 1 i) as [Hi1|Hi1]; [|rewrite !andb_false_r; reflexivity].
    destruct (N.leb_spec i (N.of_nat dy)) as [Hi2|Hi2].
    - rewrite (nth_error_nth' _ [0%Z]) by (rewrite map_length, seq_length; lia).
      rewrite (nth_indep _ [0%Z] [val zc 0 xc]) by (rewrite map_length, seq_length; lia).
      rewrite (map_nth (fun y => [val zc y xc]) (seq 0 dy) 0%nat). rewrite seq_nth by lia. cbn [Nat.add].
      destruct (N.to_nat (j - (N.of_nat xc + 1))) as [|n] eqn:En.
      + assert (j = N.of_nat xc + 1) by lia. subst j. cbn [nth_error].
        assert (A1 : (1 <=? N.of_nat xc + 1) = true) by (apply N.leb_le; lia). assert (A2 : (N.of_nat xc + 1 <=? N.of_nat dx) = true) by (apply N.leb_le; lia).
        assert (A3 : (N.of_nat xc + 1 <=? N.of_nat (S xc)) = true) by (apply N.leb_le; lia). rewrite A1, A2, A3. cbn [andb].
        f_equal. f_equal; lia.
      + cbn [nth_error]. assert (A3 : (j <=? N.of_nat (S xc)) = false) by (apply N.leb_gt; lia). rewrite A3, !andb_false_r. destruct n; reflexivity.
    - rewrite (proj2 (nth_error_None _ _)) by (rewrite map_length, seq_length; lia). rewrite !andb_false_r. reflexivity.
  Qed.

  Lemma inv_level : forall zc cs, inv zc dx cs -> inv (S zc) 0 cs.
  Proof using Type.
    clear Hlen Hdim Hdy Hkeys. intros zc cs H j i z. rewrite (H j i z). unfold done.
    destruct (N.leb_spec 1 j) as [Hj1|]; [|reflexivity]. destruct (N.leb_spec j (N.of_nat dx)) as [Hj|Hj]; [|reflexivity]. cbn [andb].
    replace (j <=? N.of_nat 0) with false by (symmetry; apply N.leb_gt; cbn; lia). rewrite andb_true_r, andb_false_r, orb_false_r.
    replace ((z <=? N.of_nat zc) || (z =? N.of_nat zc + 1)) with (z <=? N.of_nat (S zc)); [reflexivity|].
    destruct (N.leb_spec z (N.of_nat zc)), (N.eqb_spec z (N.of_nat zc + 1)), (N.leb_spec z (N.of_nat (S zc))); lia || reflexivity.
  Qed.

  Lemma cols_run : forall n x0 zc bs r cs cx cy cz mx my mz bx, (x0 + n = dx)%nat -> concat_opt (map (save_block len g zc) (seq x0 n)) = Some bs ->
    inv zc x0 cs ->
    exists cs' cx' cz' bx', inv zc dx cs' /\
      grun len (bs ++ r) (gi cs cx cy cz mx my mz bx)
      = grun len r (gi cs' cx' (match n with O => cy | _ => N.of_nat dy end) cz' (match n with O => mx | _ => N.max mx (N.of_nat dx) end)
          (match n with O => my | _ => N.max my 1 end) (match n with O => mz | _ => N.max mz (N.of_nat zc + 1) end) bx').
  Proof using Hlen Hdim Hdy Hkeys.
    induction n as [|n IH]; intros x0 zc bs r cs cx cy cz mx my mz bx Hn Hbs Hi.
    - cbn in Hbs. injection Hbs as <-. exists cs, cx, cz, bx. split; [replace dx with x0 by lia; exact Hi | reflexivity].
    - cbn [seq map concat_opt] in Hbs. destruct (save_block len g zc x0) as [b1|] eqn:Eb; [|discriminate].
      destruct (concat_opt (map (save_block len g zc) (seq (S x0) n))) as [rest|] eqn:Er; [|discriminate].
      assert (Ebs : bs = b1 ++ rest) by (cbn in Hbs; congruence). clear Hbs.
      destruct (save_block_text zc x0 b1 Eb) as (body & Hb & ->).
      destruct (block_run len Hlen 1 _ body (rest ++ r) cs cx cy cz mx my mz bx (N.of_nat x0 + 1) 1 (N.of_nat zc + 1) Hb) as (cs1 & He & Hr).
      { apply Forall_forall. intros l Hl. apply in_map_iff in Hl. destruct Hl as (y & <- & _). reflexivity. }
      { destruct dy as [|d]; [lia|]. discriminate. }
      { intros j i Hj Hii. rewrite (Hi j i (N.of_nat zc + 1)). unfold done. replace (N.of_nat zc + 1 <=? N.of_nat zc) with false by (symmetry; apply N.leb_gt; lia).
        replace (j <=? N.of_nat x0) with false by (symmetry; apply N.leb_gt; lia). rewrite !andb_false_r. reflexivity. }
      { lia. } { lia. }
      pose proof (inv_step zc x0 cs cs1 ltac:(lia) Hi He) as Hi1.
      rewrite map_length, seq_length in Hr.
      destruct (IH (S x0) zc rest r cs1 (N.of_nat x0 + 1) (1 + N.of_nat dy - 1) (N.of_nat zc + 1) (N.max (N.max mx (N.of_nat x0 + 1)) (N.of_nat x0 + 1 + 1 - 1)) (N.max my 1) (N.max mz (N.of_nat zc + 1)) (N.of_nat x0 + 1)) as (cs' & cx' & cz' & bx' & Hi' & Hr'); [lia | exact Er | exact Hi1|].
      exists cs', cx', cz', bx'. split; [exact Hi'|]. rewrite Ebs, <- app_assoc. etransitivity; [exact Hr|]. etransitivity; [exact Hr'|]. f_equal. unfold gi. f_equal; destruct n; lia.
  Qed.

  Lemma levels_run : forall n z0 bs cs cx cy cz mx my mz bx, (1 <= dx)%nat -> (z0 + n = dz)%nat ->
    concat_opt (flat_map (fun z => Some [10] :: map (save_block len g z) (seq 0 dx)) (seq z0 n)) = Some bs -> inv z0 0 cs ->
    exists cs' cx' cz' bx', inv dz 0 cs' /\
      grun len bs (gi cs cx cy cz mx my mz bx)
      = ROk (gi cs' cx' (match n with O => cy | _ => N.of_nat dy end) cz' (match n with O => mx | _ => N.max mx (N.of_nat dx) end)
          (match n with O => my | _ => N.max my 1 end) (match n with O => mz | _ => N.max mz (N.of_nat dz) end) bx').
  Proof using Hlen Hdim Hdy Hkeys.
    induction n as [|n IH]; intros z0 bs cs cx cy cz mx my mz bx Hdx Hn Hbs Hi.
    - cbn in Hbs. injection Hbs as <-. exists cs, cx, cz, bx. split; [replace dz with z0 by lia; exact Hi | reflexivity].
    - change (flat_map (fun z => Some [10] :: map (save_block len g z) (seq 0 dx)) (seq z0 (S n))) with ((Some [10] :: map (save_block len g z0) (seq 0 dx)) ++ flat_map (fun z => Some [10] :: map (save_block len g z) (seq 0 dx)) (seq (S z0) n)) in Hbs.
      destruct (concat_opt_app _ _ _ Hbs) as (ra & rest & Ha & Hrest & ->).
      cbn [concat_opt] in Ha. destruct (concat_opt (map (save_block len g z0) (seq 0 dx))) as [cols|] eqn:Ec; [|discriminate].
      injection Ha as Ea. subst ra.
      destruct (cols_run dx 0 z0 cols rest cs cx cy cz mx my mz bx eq_refl Ec Hi) as (cs1 & cx1 & cz1 & bx1 & Hi1 & Hr1).
      destruct (IH (S z0) rest cs1 cx1 (match dx with O => cy | _ => N.of_nat dy end) cz1 (match dx with O => mx | _ => N.max mx (N.of_nat dx) end)
          (match dx with O => my | _ => N.max my 1 end) (match dx with O => mz | _ => N.max mz (N.of_nat z0 + 1) end) bx1 Hdx) as (cs2 & cx2 & cz2 & bx2 & Hi2 & Hr2);
        [lia | exact Hrest | apply inv_level, Hi1|].
      exists cs2, cx2, cz2, bx2. split; [exact Hi2|].
      transitivity (grun len (cols ++ rest) (gi cs cx cy cz mx my mz bx)); [reflexivity|].
      etransitivity; [exact Hr1|]. etransitivity; [exact Hr2|]. f_equal. unfold gi. destruct dx as [|d]; [lia|]. f_equal; destruct n; lia.
  Qed.

  Lemma inv_empty : inv 0 0 [].
  Proof using Type.
    clear Hlen Hdim Hdy Hkeys. intros j i z. unfold done. cbn [find_cell]. destruct (_ && _) eqn:E; [|reflexivity]. exfalso.
    rewrite !andb_true_iff in E. destruct E as (((((E1 & E2) & E3) & E4) & E5) & E6). apply orb_true_iff in E6.
    rewrite andb_true_iff in E6. cbn [N.of_nat] in *. rewrite ?N.leb_le, ?N.eqb_eq in *. lia.
  Qed.

  Lemma build_ok : forall cs cx cz mx my mz bx, grid3_ok g -> inv dz 0 cs -> mx = N.of_nat dx -> my <= N.of_nat dy -> mz = N.of_nat dz ->
    build_grid (gi cs cx (N.of_nat dy) cz mx my mz bx) = Some g.
  Proof using Hdim.
    clear Hlen Hdy Hkeys. intros cs cx cz mx my mz bx Hok Hi -> Hmy ->. unfold build_grid, shape, gi. cbn [max_z max_y max_x curr_y cells].
    rewrite !Nat2N.id. replace (N.max my (N.of_nat dy)) with (N.of_nat dy) by lia. rewrite Nat2N.id.
    assert (E : flat_map (fun z => flat_map (fun y => map (fun x => find_cell (N.of_nat x + 1, N.of_nat y + 1, N.of_nat z + 1) cs) (seq 0 dx)) (seq 0 dy)) (seq 0 dz)
              = map Some (g3_data g)).
    { transitivity (map (fun i => Some (nth i (g3_data g) 0%Z)) (seq 0 (dz * (dy * dx)))).
      - rewrite <- (flat_seq (dy * dx) dz), map_flat_map. apply flat_map_ext_in. intros z Hz. apply in_seq in Hz.
        rewrite <- (flat_seq dx dy), map_map, map_flat_map. apply flat_map_ext_in. intros y Hy. apply in_seq in Hy.
        rewrite map_map. apply map_ext_in. intros x Hx. apply in_seq in Hx.
        rewrite (Hi (N.of_nat x + 1) (N.of_nat y + 1) (N.of_nat z + 1)). unfold done.
        repeat match goal with |- context [?a <=? ?b] => replace (a <=? b) with true by (symmetry; apply N.leb_le; lia) end. cbn [andb orb].
        f_equal. unfold val. f_equal. replace (N.to_nat (N.of_nat z + 1 - 1)) with z by lia. replace (N.to_nat (N.of_nat y + 1 - 1)) with y by lia. replace (N.to_nat (N.of_nat x + 1 - 1)) with x by lia. lia.
      - rewrite <- (map_map (fun i => nth i (g3_data g) 0%Z) Some). f_equal.
        unfold grid3_ok in Hok. rewrite Hdim in Hok. replace (dz * (dy * dx))%nat with (List.length (g3_data g)) by lia. apply map_nth_seq. }
    rewrite E, all_some_map. cbn [option_map]. f_equal. destruct g as [dim data]. cbn in *. subst dim. reflexivity.
  Qed.
End Grid.

Section Final.
  Context {C : Type} (show : C -> list N) (ev : list N -> option C).

  Lemma save_grid_head : forall len g gb dz dy dx, g3_dim g = (dz, dy, dx) -> (1 <= dz)%nat -> (1 <= dx)%nat -> save_grid len g = Some gb ->
    exists rest, gb = 10 :: 40 :: rest.
  Proof using Type.
    clear. intros len g gb dz dy dx Hd Hz Hx H. unfold save_grid in H. rewrite Hd in H. destruct dz as [|dz]; [lia|]. destruct dx as [|dx]; [lia|].
    cbn [seq flat_map map] in H. cbn [app] in H. cbn [concat_opt] in H. unfold save_block at 1 in H. destruct (save_column len (column g 0 0)) as [kb|]; [|discriminate].
    destruct (concat_opt _) as [t|]; [|discriminate]. cbn [option_map] in H. cbn [lit app] in H. injection H as <-. eexists. reflexivity.
  Qed.

  Lemma roundtrip_lemma : forall m bs, map_ok show ev m -> save show m = Some bs -> short_lines bs -> parse_map ev bs = ROk m.
  Proof using Type.
    intros [len d g] bs (Hlen & Hd & Hsort & Hent & Hgok & Hdims & Hkeys) Hs Hl. cbn [key_length dictionary grid] in *.
    unfold save in Hs. cbn [key_length dictionary grid] in Hs.
    destruct (save_dict show len d) as [db|] eqn:Ed; [|discriminate]. destruct (save_grid len g) as [gb|] eqn:Eg; [|discriminate].
    assert (Eb : bs = TGM_HEADER ++ [10] ++ db ++ gb) by congruence. clear Hs.
    destruct (g3_dim g) as [[dz dy] dx] eqn:Hdim. destruct Hdims as (Hz & Hy & Hx).
    unfold parse_map. rewrite (short_tracker _ Hl). rewrite Eb, app_assoc.
    rewrite (goes_run ev _ _ _ _ (header_goes ev)).
    rewrite (goes_run ev db gb _ (so len true ([] ++ d))).
    2: { apply (dict_goes show ev d len 0 false []); [exact Hlen | left; reflexivity | exact Hent | exact Hsort | exact Ed | exact Hd]. }
    destruct (save_grid_head len g gb dz dy dx Hdim Hz Hx Eg) as [rest Erest].
    rewrite Erest at 1. cbn [app].
    assert (Erun : run ev (10 :: 40 :: rest) (so len true d) = ROk (so len true d, rest)) by reflexivity.
    rewrite Erun. cbn [d_key_length so d_dictionary].
    assert (Egrun : grun len rest gst0 = grun len gb (gi [] 0 0 0 0 0 0 0)) by (rewrite Erest; reflexivity).
    unfold so. cbn [d_key_length d_dictionary]. rewrite Egrun.
    unfold save_grid in Eg. rewrite Hdim in Eg.
    destruct (levels_run len g dz dy dx Hlen Hdim Hy Hkeys dz 0 gb [] 0 0 0 0 0 0 0 Hx eq_refl Eg (inv_empty g dy dx)) as (cs' & cx' & cz' & bx' & Hi & Hr).
    rewrite Hr. destruct dz as [|dz']; [lia|].
    rewrite (build_ok g (S dz') dy dx Hdim cs' cx' cz' _ _ _ bx' Hgok Hi); [reflexivity | lia | lia | lia].
  Qed.

  Lemma format_key_some : forall len k, (1 <= len <= 3)%Z -> (0 <= k <= KEY_MAX)%Z -> (key_bytes (format_key len k) <> None <-> (k < 52 ^ len)%Z).
  Proof using Type. clear.
    intros len k Hl Hk. destruct (format_key_lemma len k) as [G _]; [lia | exact Hk|]. unfold fits in G. unfold key_bytes.
    destruct (format_key len k); cbn [option_map]; split; intro H.
    - apply G; discriminate.
    - discriminate.
    - exfalso; apply H; reflexivity.
    - exfalso. apply (proj2 G); [split; [apply Hk | exact H] | reflexivity].
  Qed.

  Lemma save_dict_some : forall len d, (1 <= len <= 3)%Z -> Forall (fun e : Z * list (prefab C) => 0 <= fst e <= KEY_MAX)%Z d ->
    (save_dict show len d <> None <-> Forall (fun k => k < 52 ^ len)%Z (map fst d)).
  Proof using Type.
    intros len d Hl. induction d as [|[k f] d IH]; intro H; cbn [save_dict map].
    - split; [constructor | discriminate].
    - inversion H as [|? ? Hk Hd]; subst. cbn [fst] in *. pose proof (format_key_some len k Hl Hk) as G. specialize (IH Hd).
      destruct (key_bytes (format_key len k)) as [kb|]; destruct (save_dict show len d); split; intro F; try discriminate; try (exfalso; apply F; reflexivity).
      + constructor; [apply G; discriminate | apply IH; discriminate].
      + inversion F as [|? ? _ F2]; subst. apply IH in F2. exfalso; apply F2; reflexivity.
      + inversion F as [|? ? F1 _]; subst. apply G in F1. exfalso; apply F1; reflexivity.
      + inversion F as [|? ? F1 _]; subst. apply G in F1. exfalso; apply F1; reflexivity.
  Qed.

  Lemma save_column_some : forall len col, (1 <= len <= 3)%Z -> Forall (fun k => 0 <= k <= KEY_MAX)%Z col ->
    (save_column len col <> None <-> Forall (fun k => k < 52 ^ len)%Z col).
  Proof using Type. clear C show ev.
    intros len col Hl. induction col as [|k d IH]; intro H; cbn [save_column].
    - split; [constructor | discriminate].
    - inversion H as [|? ? Hk Hd]; subst. pose proof (format_key_some len k Hl Hk) as G. specialize (IH Hd).
      destruct (key_bytes (format_key len k)) as [kb|]; destruct (save_column len d); split; intro F; try discriminate; try (exfalso; apply F; reflexivity).
      + constructor; [apply G; discriminate | apply IH; discriminate].
      + inversion F as [|? ? _ F2]; subst. apply IH in F2. exfalso; apply F2; reflexivity.
      + inversion F as [|? ? F1 _]; subst. apply G in F1. exfalso; apply F1; reflexivity.
      + inversion F as [|? ? F1 _]; subst. apply G in F1. exfalso; apply F1; reflexivity.
  Qed.

  Lemma concat_opt_some : forall l, concat_opt l <> None <-> forall o, In o l -> o <> None.
  Proof using Type. clear.
    induction l as [|[a|] l IH]; cbn [concat_opt].
    - split; [intros _ o [] | discriminate].
    - split.
      + intros H o [<-|Ho]; [discriminate|]. apply IH; [|exact Ho]. destruct (concat_opt l); [discriminate | exact H].
      + intro H. assert (G : concat_opt l <> None) by (apply IH; intros o Ho; apply H; right; exact Ho). destruct (concat_opt l); [discriminate | congruence].
    - split; [congruence|]. intro H. exfalso. exact (H None (or_introl eq_refl) eq_refl).
  Qed.

  Lemma save_some_lemma : forall m, map_ok show ev m -> (save show m <> None <-> keys_fit m).
  Proof using Type.
    intros [len d g] (Hlen & Hd & Hsort & Hent & Hgok & Hdims & Hkeys). cbn [key_length dictionary grid] in *.
    unfold keys_fit, save. cbn [key_length dictionary grid]. rewrite Forall_app.
    assert (H1 : save_dict show len d <> None <-> Forall (fun k => k < 52 ^ len)%Z (map fst d)).
    { apply save_dict_some; [exact Hlen|]. eapply Forall_impl; [|exact Hent]. intros e He. apply He. }
    assert (H2 : save_grid len g <> None <-> Forall (fun k => k < 52 ^ len)%Z (g3_data g)).
    { unfold save_grid. destruct (g3_dim g) as [[dz dy] dx] eqn:Hdim. rewrite concat_opt_some.
      unfold grid3_ok in Hgok. rewrite Hdim in Hgok.
      assert (Hcol : forall z x, Forall (fun k => 0 <= k <= KEY_MAX)%Z (column g z x)).
      { intros z x. unfold column. rewrite Hdim. apply Forall_forall. intros k Hk. apply in_map_iff in Hk. destruct Hk as (y & <- & _). exact (val_range g dy dx Hkeys z y x). }
      split.
      - intro H. apply Forall_forall. intros k Hk. apply (In_nth _ _ 0%Z) in Hk. destruct Hk as (i & Hi & <-).
        assert (Hdx : dx <> 0%nat) by lia. assert (Hdy : dy <> 0%nat) by lia.
        set (x := (i mod dx)%nat). set (q := (i / dx)%nat). set (y := (q mod dy)%nat). set (z := (q / dy)%nat).
        assert (Ei : i = ((z * dy + y) * dx + x)%nat).
        { pose proof (Nat.div_mod i dx Hdx). pose proof (Nat.div_mod q dy Hdy). fold q x in H0. fold z y in H1. rewrite H0, (Nat.mul_comm dx q). f_equal. f_equal. rewrite H2 at 1. lia. }
        assert (Hx : (x < dx)%nat) by (apply Nat.mod_upper_bound; exact Hdx). assert (Hy : (y < dy)%nat) by (apply Nat.mod_upper_bound; exact Hdy).
        assert (Hz : (z < dz)%nat). { apply Nat.div_lt_upper_bound; [exact Hdy|]. apply Nat.div_lt_upper_bound; [exact Hdx|]. lia. }
        assert (Hb : save_block len g z x <> None).
        { apply H. apply in_flat_map. exists z. split; [apply in_seq; lia|]. right. apply List.in_map. apply in_seq. lia. }
        assert (Hc : save_column len (column g z x) <> None) by (unfold save_block in Hb; destruct (save_column len (column g z x)); [discriminate | congruence]).
        apply save_column_some in Hc; [|exact Hlen | apply Hcol]. rewrite Forall_forall in Hc. apply Hc. unfold column. rewrite Hdim, Ei.
        apply (List.in_map (fun y => nth ((z * dy + y) * dx + x) (g3_data g) 0%Z)). apply in_seq. lia.
      - intros H o Ho. apply in_flat_map in Ho. destruct Ho as (z & _ & [<-|Ho]); [discriminate|]. apply in_map_iff in Ho. destruct Ho as (x & <- & _).
        assert (G : save_column len (column g z x) <> None).
        { apply save_column_some; [exact Hlen | apply Hcol|]. unfold column. rewrite Hdim. apply Forall_forall. intros k Hk. apply in_map_iff in Hk. destruct Hk as (y & <- & _).
          destruct (nth_in_or_default ((z * dy + y) * dx + x) (g3_data g) 0%Z) as [Hin| ->]; [rewrite Forall_forall in H; apply H, Hin|]. apply Z.pow_pos_nonneg; lia. }
        unfold save_block. destruct (save_column len (column g z x)); [discriminate | congruence]. }
    rewrite <- H1, <- H2. destruct (save_dict show len d), (save_grid len g); split; intro F; try congruence; try (split; discriminate); destruct F; congruence.
  Qed.
End Final.
