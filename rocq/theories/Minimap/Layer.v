(** C61: the sortable form of a [layer] (minimap.rs:436-471) keeps the order of layers. *)
From Coq Require Import ZArith Lia Bool.
From Verif Require Import Minimap.Model.
Open Scope Z_scope.

(** ** Model *)

(** f32: [Fin m] is m * 2^-149, the spacing of the smallest floats (-0.0 is not told from 0.0) *)
Inductive f32 := NaN | Inf (negative : bool) | Fin (m : Z).

Definition ONE : Z := 2 ^ 149.

(** IEEE rounding of a non-negative result to 24 bits, ties to even (results here are below 2^24, so
    there is no overflow) *)
Definition round_pos (n : Z) : Z :=
  if n <? 2 ^ 24 then n
  else
    let unit := 2 ^ (Z.log2 n - 23) in
    let q := n / unit in
    let r := n mod unit in
    if 2 * r <? unit then q * unit
    else if 2 * r >? unit then (q + 1) * unit
    else if Z.even q then q * unit else (q + 1) * unit.
Definition round (m : Z) : Z := if m <? 0 then - round_pos (- m) else round_pos m.

(** [f32::fract]: self - self.trunc(); the fractional part of an f32 is an f32, so exact *)
Definition fract (m : Z) : Z := m - ONE * Z.quot m ONE.

(** [as i16], [as u16] of an integral value *)
Definition as_i16 (z : Z) : Z := if z <? -32768 then -32768 else if z >? 32767 then 32767 else z.
Definition as_u16 (z : Z) : Z := if z <? 0 then 0 else if z >? 65535 then 65535 else z.

(** minimap.rs:462-469 [From<f32> for Layer].  [f.floor()] is exact; so is multiplying by 65536, a
    power of two; [as u16] truncates *)
Definition layer_from_f32 (f : f32) : Layer :=
  match f with
  | NaN => {| whole := 0; frac := 0 |}
  | Inf true => {| whole := -32768; frac := 0 |}     (* inf.fract() is NaN *)
  | Inf false => {| whole := 32767; frac := 0 |}
  | Fin m =>
      {| whole := as_i16 (m / ONE);
         frac := as_u16 (Z.quot (fract (round (fract m + ONE)) * 65536) ONE) |}
  end.

(** minimap.rs:444-448 [From<i16>] *)
Definition layer_from_i16 (n : Z) : Layer := {| whole := n; frac := 0 |}.
(** minimap.rs:450-460 [From<i32>]; [None] = "layer out of range" *)
Definition layer_from_i32 (n : Z) : option Layer :=
  if (-32768 <=? n) && (n <=? 32767) then Some {| whole := n; frac := 0 |} else None.

(** ** Specification *)

(** m * 2^-149 is a float: at most 24 significant bits *)
Definition is_f32 (m : Z) : Prop := exists s e, 0 <= e /\ - 2 ^ 24 < s < 2 ^ 24 /\ m = s * 2 ^ e.
(** the derived order *)
Definition layer_lt (x y : Layer) : Prop := whole x < whole y \/ whole x = whole y /\ frac x < frac y.
Definition layer_le (x y : Layer) : Prop := layer_lt x y \/ x = y.

(** ** Proofs *)
Lemma round_unit : forall n, 2 ^ 24 <= n ->
  2 ^ (Z.log2 n - 23) * 2 ^ 23 <= n < 2 ^ (Z.log2 n - 23) * 2 ^ 24 /\ 2 <= 2 ^ (Z.log2 n - 23).
Proof.
  intros n H. assert (Hl : 24 <= Z.log2 n) by (apply Z.log2_le_pow2; lia).
  destruct (Z.log2_spec n) as [L1 L2]; [lia|].
  rewrite <- !Z.pow_add_r by lia. replace (Z.log2 n - 23 + 23) with (Z.log2 n) by lia.
  replace (Z.log2 n - 23 + 24) with (Z.succ (Z.log2 n)) by lia.
  split; [lia|]. change 2 with (2 ^ 1) at 1. apply Z.pow_le_mono_r; lia.
Qed.

(** rounding to a multiple of [u] *)
Definition nearest (u n : Z) : Z :=
  let q := n / u in
  let r := n mod u in
  if 2 * r <? u then q * u else if 2 * r >? u then (q + 1) * u else if Z.even q then q * u else (q + 1) * u.

Lemma nearest_spec : forall u n, 0 < u -> 2 * Z.abs (nearest u n - n) <= u /\ exists k, nearest u n = k * u.
Proof.
  intros u n Hu. unfold nearest. pose proof (Z.div_mod n u ltac:(lia)) as E. pose proof (Z.mod_pos_bound n u Hu) as B.
  set (q := n / u) in *. set (r := n mod u) in *.
  destruct (Z.ltb_spec (2 * r) u); [split; [nia|exists q; reflexivity]|].
  destruct (Z.gtb_spec (2 * r) u); [split; [nia|exists (q + 1); reflexivity]|].
  destruct (Z.even q); [split; [nia|exists q; reflexivity]|split; [nia|exists (q + 1); reflexivity]].
Qed.

Lemma nearest_mono : forall u n m, 0 < u -> n <= m -> nearest u n <= nearest u m.
Proof.
  intros u n m Hu Hnm. unfold nearest.
  pose proof (Z.div_mod n u ltac:(lia)) as E. pose proof (Z.mod_pos_bound n u Hu) as B.
  pose proof (Z.div_mod m u ltac:(lia)) as E'. pose proof (Z.mod_pos_bound m u Hu) as B'.
  pose proof (Z.div_le_mono n m u Hu Hnm) as Hq.
  set (q := n / u) in *. set (r := n mod u) in *. set (q' := m / u) in *. set (r' := m mod u) in *.
  destruct (Z.eq_dec q q') as [Eq|Nq].
  - rewrite <- Eq in *. assert (r <= r') by nia.
    destruct (Z.ltb_spec (2 * r) u), (Z.ltb_spec (2 * r') u), (Z.gtb_spec (2 * r) u), (Z.gtb_spec (2 * r') u), (Z.even q); nia.
  - assert (q + 1 <= q') by lia.
    destruct (Z.ltb_spec (2 * r) u), (Z.ltb_spec (2 * r') u), (Z.gtb_spec (2 * r) u), (Z.gtb_spec (2 * r') u), (Z.even q), (Z.even q'); nia.
Qed.

Lemma nearest_exact : forall u k, 0 < u -> nearest u (k * u) = k * u.
Proof.
  intros u k Hu. unfold nearest. rewrite Z.div_mul, Z.mod_mul by lia. destruct (Z.ltb_spec (2 * 0) u); lia.
Qed.

Lemma round_big : forall n, 2 ^ 24 <= n -> round_pos n = nearest (2 ^ (Z.log2 n - 23)) n.
Proof. intros n H. unfold round_pos. destruct (Z.ltb_spec n (2 ^ 24)); [lia|]. reflexivity. Qed.
Lemma round_small : forall n, n < 2 ^ 24 -> round_pos n = n.
Proof. intros n H. unfold round_pos. destruct (Z.ltb_spec n (2 ^ 24)); [reflexivity|lia]. Qed.

(** a power of two in or above the range is not passed *)
Lemma round_below : forall n k, 0 <= n -> 24 <= k -> n <= 2 ^ k -> round_pos n <= 2 ^ k.
Proof.
  intros n k H0 Hk H. assert (2 ^ 24 <= 2 ^ k) by (apply Z.pow_le_mono_r; lia).
  destruct (Z_lt_dec n (2 ^ 24)); [rewrite round_small by lia; lia|]. rewrite round_big by lia.
  destruct (round_unit n ltac:(lia)) as [_ U]. set (e := Z.log2 n - 23) in *.
  assert (Z.log2 n <= k) by (rewrite <- (Z.log2_pow2 k) by lia; apply Z.log2_le_mono; lia).
  assert (He : 0 <= e) by (unfold e; pose proof (proj1 (Z.log2_le_pow2 n 24 ltac:(lia)) ltac:(lia)); lia).
  replace (2 ^ k) with (2 ^ (k - e) * 2 ^ e) by (rewrite <- Z.pow_add_r by (unfold e in *; lia); f_equal; lia).
  rewrite <- (nearest_exact (2 ^ e) (2 ^ (k - e))) by lia. apply nearest_mono; [lia|].
  rewrite <- Z.pow_add_r by (unfold e in *; lia). replace (k - e + e) with k by lia. exact H.
Qed.

Lemma round_above : forall n k, 24 <= k -> 2 ^ k <= n -> 2 ^ k <= round_pos n.
Proof.
  intros n k Hk H. assert (2 ^ 24 <= 2 ^ k) by (apply Z.pow_le_mono_r; lia).
  rewrite round_big by lia. destruct (round_unit n ltac:(lia)) as [U1 U].
  assert (Hl : k <= Z.log2 n) by (apply Z.log2_le_pow2; lia). set (e := Z.log2 n - 23) in *.
  assert (He : 0 <= e) by (unfold e; lia).
  assert (Hp : 2 ^ k <= 2 ^ 23 * 2 ^ e) by (rewrite <- Z.pow_add_r by lia; apply Z.pow_le_mono_r; unfold e; lia).
  etransitivity; [exact Hp|]. rewrite <- (nearest_exact (2 ^ e) (2 ^ 23)) by lia. apply nearest_mono; lia.
Qed.

Lemma round_mono : forall n m, 0 <= n -> n <= m -> round_pos n <= round_pos m.
Proof.
  intros n m H0 H. destruct (Z_lt_dec m (2 ^ 24)); [rewrite !round_small by lia; lia|].
  destruct (Z_lt_dec n (2 ^ 24)).
  - rewrite (round_small n) by lia. etransitivity; [|apply (round_above m 24); lia]. lia.
  - assert (Hl : Z.log2 n <= Z.log2 m) by (apply Z.log2_le_mono; exact H).
    assert (H24 : 24 <= Z.log2 n) by (apply Z.log2_le_pow2; lia).
    destruct (Z.eq_dec (Z.log2 n) (Z.log2 m)) as [E|N].
    + rewrite !round_big by lia. rewrite <- E. apply nearest_mono; [|exact H].
      destruct (round_unit n ltac:(lia)); lia.
    + destruct (Z.log2_spec n ltac:(lia)) as [_ N2]. destruct (Z.log2_spec m ltac:(lia)) as [M1 _].
      etransitivity; [apply (round_below n (Z.log2 m)); try lia|apply round_above; lia].
      etransitivity; [apply Z.lt_le_incl; exact N2|]. apply Z.pow_le_mono_r; lia.
Qed.

Lemma round_f32 : forall n, 0 <= n -> is_f32 n -> round_pos n = n.
Proof.
  intros n H0 (s & e & He & Hs & E). destruct (Z_lt_dec n (2 ^ 24)); [apply round_small; lia|].
  rewrite round_big by lia. set (d := Z.log2 n - 23).
  assert (H24 : 24 <= Z.log2 n) by (apply Z.log2_le_pow2; lia).
  assert (Hn : n < 2 ^ (24 + e)) by (rewrite Z.pow_add_r by lia; pose proof (Z.pow_pos_nonneg 2 e); nia).
  assert (Hl : Z.log2 n < 24 + e) by (apply Z.log2_lt_pow2; lia).
  assert (En : n = s * 2 ^ (e - d) * 2 ^ d).
  { rewrite <- Z.mul_assoc, <- Z.pow_add_r by (unfold d; lia). rewrite E. f_equal. f_equal. lia. }
  rewrite En. apply nearest_exact. apply Z.pow_pos_nonneg; unfold d; lia.
Qed.

(** the error of rounding below 2 *)
Lemma round_error : forall n, 0 <= n < 2 ^ 150 -> Z.abs (round_pos n - n) <= 2 ^ 125.
Proof.
  intros n H. destruct (Z_lt_dec n (2 ^ 24)); [rewrite round_small by lia; lia|].
  rewrite round_big by lia. destruct (round_unit n ltac:(lia)) as [_ U].
  assert (Hl : Z.log2 n < 150) by (apply Z.log2_lt_pow2; lia).
  assert (2 ^ (Z.log2 n - 23) <= 2 ^ 126) by (apply Z.pow_le_mono_r; lia).
  destruct (nearest_spec (2 ^ (Z.log2 n - 23)) n) as [B _]; [lia|]. lia.
Qed.

(** the part of a layer above its floor, as the code sees it *)
Definition seen (w f : Z) : Z :=
  if w =? 0 then round_pos (f + ONE) - ONE else if w =? -1 then round_pos f else f.

(** 0.99999994 and the negative numbers from -2^-25 on *)
Definition rounds_up (m : Z) : Prop := m = ONE - 2 ^ 125 \/ - 2 ^ 124 <= m < 0.

Lemma f32_multiple : forall m, is_f32 m -> ONE <= Z.abs m -> exists k, m = k * 2 ^ 126.
Proof.
  intros m (s & e & He & Hs & E) H. unfold ONE in H.
  destruct (Z_lt_dec e 126).
  - exfalso. assert (2 ^ e <= 2 ^ 125) by (apply Z.pow_le_mono_r; lia).
    assert (0 < 2 ^ e) by (apply Z.pow_pos_nonneg; lia). nia.
  - exists (s * 2 ^ (e - 126)). rewrite <- Z.mul_assoc, <- Z.pow_add_r by lia. rewrite E. f_equal. f_equal. lia.
Qed.

(** floats just below 1 and just below 0 *)
Lemma below_one : forall f, is_f32 f -> ONE - 2 ^ 125 <= f < ONE -> f = ONE - 2 ^ 125.
Proof.
  intros f (s & e & He & Hs & E) H. unfold ONE in *.
  destruct (Z_lt_dec e 125).
  - exfalso. assert (2 ^ e <= 2 ^ 124) by (apply Z.pow_le_mono_r; lia).
    assert (0 < 2 ^ e) by (apply Z.pow_pos_nonneg; lia). nia.
  - assert (Ef : f = s * 2 ^ (e - 125) * 2 ^ 125).
    { rewrite <- Z.mul_assoc, <- Z.pow_add_r by lia. rewrite E. f_equal. f_equal. lia. }
    set (k := s * 2 ^ (e - 125)) in *. nia.
Qed.

Lemma quot_neg : forall m w f, m = ONE * w + f -> 0 < f < ONE -> w < 0 -> Z.quot m ONE = w + 1.
Proof.
  intros m w f E Hf Hw. assert (H1 : 0 < ONE) by reflexivity.
  replace m with (- (- m)) by lia. rewrite Z.quot_opp_l by lia.
  rewrite <- (Z.quot_unique (- m) ONE (- w - 1) (ONE - f)); [lia|nia|lia|lia].
Qed.

Lemma seen_spec : forall m, is_f32 m -> ~ rounds_up m ->
  fract (round (fract m + ONE)) = seen (m / ONE) (m mod ONE) /\ 0 <= seen (m / ONE) (m mod ONE) < ONE.
Proof.
  intros m Hf Hne. assert (H1 : 0 < ONE) by reflexivity.
  pose proof (Z.div_mod m ONE ltac:(lia)) as E. pose proof (Z.mod_pos_bound m ONE H1) as B.
  set (w := m / ONE) in *. set (f := m mod ONE) in *.
  unfold seen. destruct (Z.eqb_spec w 0) as [W|W]; [|destruct (Z.eqb_spec w (-1)) as [W'|W']].
  - (* 0 <= m < 1 *)
    assert (Em : m = f) by (rewrite E, W; lia). unfold fract at 2. rewrite Z.quot_small by lia.
    replace (m - ONE * 0 + ONE) with (f + ONE) by lia. unfold round. destruct (Z.ltb_spec (f + ONE) 0); [lia|].
    assert (L : ONE <= round_pos (f + ONE)) by (apply (round_above (f + ONE) 149); unfold ONE in *; lia).
    assert (U : round_pos (f + ONE) < 2 * ONE).
    { destruct (Z_lt_dec f (ONE - 2 ^ 125)).
      - assert (Hb : round_pos (f + ONE) <= round_pos (2 * ONE - 2 ^ 125 - 1)) by (apply round_mono; lia).
        assert (Er : round_pos (2 * ONE - 2 ^ 125 - 1) = 2 * ONE - 2 ^ 126) by (vm_compute; reflexivity).
        rewrite Er in Hb. lia.
      - exfalso. apply Hne. left. rewrite Em. rewrite Em in Hf. apply below_one; [exact Hf|lia]. }
    split; [|lia]. unfold fract. rewrite <- (Z.quot_unique _ ONE 1 (round_pos (f + ONE) - ONE)); lia.
  - (* -1 <= m < 0 *)
    assert (Em : m = f - ONE) by (rewrite E, W'; lia).
    destruct (Z.eq_dec f 0) as [F0|F0].
    + assert (Ef : fract m = 0) by (replace m with (- ONE) by lia; reflexivity). rewrite Ef, F0.
      split; [vm_compute; reflexivity|]. rewrite round_small by lia. lia.
    + assert (Eq : Z.quot m ONE = 0) by (rewrite (quot_neg m (-1) f); lia).
      unfold fract at 2. rewrite Eq. replace (m - ONE * 0 + ONE) with f by lia.
      unfold round. destruct (Z.ltb_spec f 0); [lia|].
      assert (U : round_pos f < ONE).
      { assert (Hb : round_pos f <= round_pos (ONE - 2 ^ 124 - 1)).
        { apply round_mono; [lia|]. assert (~ - 2 ^ 124 <= m < 0) by (intro; apply Hne; right; assumption). lia. }
        assert (Er : round_pos (ONE - 2 ^ 124 - 1) = ONE - 2 ^ 125) by (vm_compute; reflexivity).
        rewrite Er in Hb. lia. }
      assert (L : 0 <= round_pos f) by (rewrite <- (round_small 0) by lia; apply round_mono; lia).
      split; [|lia]. unfold fract. rewrite Z.quot_small by lia. lia.
  - (* |m| >= 1 *)
    assert (Ha : ONE <= Z.abs m) by nia. destruct (f32_multiple m Hf Ha) as [k Ek].
    assert (Hk : exists j, f = j * 2 ^ 126).
    { exists (k - w * 2 ^ 23). replace f with (m - ONE * w) by lia. rewrite Ek. unfold ONE.
      replace (2 ^ 149) with (2 ^ 23 * 2 ^ 126) by reflexivity. ring. }
    destruct Hk as [j Ej]. split; [|lia].
    destruct (Z_lt_dec m 0) as [Hneg|Hpos].
    + destruct (Z.eq_dec f 0) as [F0|F0].
      * assert (Em : m = w * ONE) by lia. unfold fract at 2. rewrite Em, Z.quot_mul by lia.
        replace (w * ONE - ONE * w + ONE) with ONE by lia. rewrite F0. vm_compute. reflexivity.
      * assert (Eq : Z.quot m ONE = w + 1) by (apply (quot_neg m w f); nia).
        unfold fract at 2. rewrite Eq. replace (m - ONE * (w + 1) + ONE) with f by lia.
        unfold round. destruct (Z.ltb_spec f 0); [lia|]. rewrite round_f32; [|lia|].
        { unfold fract. rewrite Z.quot_small by lia. lia. }
        exists j, 126. split; [lia|]. split; [|exact Ej]. unfold ONE in B. nia.
    + assert (Eq : Z.quot m ONE = w) by (symmetry; apply (Z.quot_unique m ONE w f); lia).
      unfold fract at 2. rewrite Eq. replace (m - ONE * w + ONE) with (f + ONE) by lia.
      unfold round. destruct (Z.ltb_spec (f + ONE) 0); [lia|]. rewrite round_f32; [|lia|].
      { unfold fract. rewrite <- (Z.quot_unique (f + ONE) ONE 1 f) by lia. lia. }
      exists (j + 2 ^ 23), 126. split; [lia|]. unfold ONE in B |- *. split; [nia|].
      rewrite Ej. replace (2 ^ 149) with (2 ^ 23 * 2 ^ 126) by reflexivity. ring.
Qed.

Lemma seen_mono : forall w f g, 0 <= f <= g -> seen w f <= seen w g.
Proof.
  intros w f g H. unfold seen. destruct (w =? 0).
  - assert (round_pos (f + ONE) <= round_pos (g + ONE)) by (apply round_mono; unfold ONE; lia). lia.
  - destruct (w =? -1); [|lia]. apply round_mono; lia.
Qed.
Lemma seen_error : forall w f, 0 <= f < ONE -> Z.abs (seen w f - f) <= 2 ^ 125.
Proof.
  intros w f H. unfold seen, ONE in *. destruct (w =? 0).
  - pose proof (round_error (f + 2 ^ 149)). lia.
  - destruct (w =? -1); [apply round_error; lia|lia].
Qed.

Definition in_range (m : Z) : Prop := - 32768 * ONE <= m < 32768 * ONE.

Lemma layer_of_f32 : forall m, is_f32 m -> in_range m -> ~ rounds_up m ->
  layer_from_f32 (Fin m) = {| whole := m / ONE; frac := seen (m / ONE) (m mod ONE) * 65536 / ONE |}.
Proof.
  intros m Hf Hr Hne. destruct (seen_spec m Hf Hne) as [Es Bs]. cbn [layer_from_f32]. rewrite Es.
  assert (Hw : -32768 <= m / ONE < 32768).
  { unfold in_range in Hr. split; [apply Z.div_le_lower_bound; [reflexivity|lia]|apply Z.div_lt_upper_bound; [reflexivity|lia]]. }
  assert (Hs : 0 <= seen (m / ONE) (m mod ONE) * 65536 / ONE < 65536).
  { split; [apply Z.div_le_lower_bound; [reflexivity|lia]|apply Z.div_lt_upper_bound; [reflexivity|lia]]. }
  rewrite Z.quot_div_nonneg by (try reflexivity; lia). f_equal.
  - unfold as_i16. destruct (Z.ltb_spec (m / ONE) (-32768)); [lia|]. destruct (Z.gtb_spec (m / ONE) 32767); [lia|]. reflexivity.
  - unfold as_u16. destruct (Z.ltb_spec (seen (m / ONE) (m mod ONE) * 65536 / ONE) 0); [lia|].
    destruct (Z.gtb_spec (seen (m / ONE) (m mod ONE) * 65536 / ONE) 65535); [lia|]. reflexivity.
Qed.

(** C61: layers from -32768 up to 32768, except 0.99999994 and the negative ones from -2^-25 on, keep
    their order; layers at least 2^-15 apart stay apart; a whole layer is the one made from the same
    integer. *)
Theorem C61_order_partial : forall x y, is_f32 x -> is_f32 y -> in_range x -> in_range y ->
  ~ rounds_up x -> ~ rounds_up y ->
  (x <= y -> layer_le (layer_from_f32 (Fin x)) (layer_from_f32 (Fin y))) /\
  (x + 2 ^ 134 <= y -> layer_lt (layer_from_f32 (Fin x)) (layer_from_f32 (Fin y))) /\
  (forall n, x = n * ONE -> layer_from_f32 (Fin x) = layer_from_i16 n /\ layer_from_i32 n = Some (layer_from_i16 n)).
Proof.
  intros x y Hx Hy Rx Ry Nx Ny. rewrite !layer_of_f32 by assumption. assert (H1 : 0 < ONE) by reflexivity.
  pose proof (Z.div_mod x ONE ltac:(lia)) as Ex. pose proof (Z.mod_pos_bound x ONE H1) as Bx.
  pose proof (Z.div_mod y ONE ltac:(lia)) as Ey. pose proof (Z.mod_pos_bound y ONE H1) as By.
  unfold layer_le, layer_lt. cbn [whole frac]. split; [|split].
  - intro H. pose proof (Z.div_le_mono x y ONE H1 H) as Hw.
    destruct (Z.eq_dec (x / ONE) (y / ONE)) as [W|W]; [|left; left; lia].
    assert (Hm : seen (x / ONE) (x mod ONE) <= seen (x / ONE) (y mod ONE)) by (apply seen_mono; rewrite W in Ex; lia).
    rewrite <- W. set (a := seen (x / ONE) (x mod ONE)) in *. set (b := seen (x / ONE) (y mod ONE)) in *.
    assert (Hd : a * 65536 / ONE <= b * 65536 / ONE) by (apply Z.div_le_mono; lia).
    destruct (Z.eq_dec (a * 65536 / ONE) (b * 65536 / ONE)) as [D|D]; [right; rewrite D; reflexivity|left; right; lia].
  - intro H. assert (Hxy : x <= y) by lia. pose proof (Z.div_le_mono x y ONE H1 Hxy) as Hw.
    destruct (Z.eq_dec (x / ONE) (y / ONE)) as [W|W]; [|left; lia]. right. split; [exact W|].
    pose proof (seen_error (x / ONE) (x mod ONE) Bx) as E1. pose proof (seen_error (y / ONE) (y mod ONE) By) as E2.
    set (a := seen (x / ONE) (x mod ONE)) in *. set (b := seen (y / ONE) (y mod ONE)) in *.
    assert (Hab : a + 2 ^ 133 <= b) by (rewrite W in Ex; lia).
    assert (Hs : a * 65536 / ONE + 1 <= b * 65536 / ONE).
    { rewrite <- Z.div_add by lia. apply Z.div_le_mono; [exact H1|]. unfold ONE.
      replace (2 ^ 149) with (2 ^ 133 * 65536) by reflexivity. lia. }
    lia.
  - intros n En. assert (Ed : x / ONE = n) by (rewrite En; apply Z.div_mul; lia).
    assert (Em : x mod ONE = 0) by (rewrite En; apply Z.mod_mul; lia).
    rewrite Ed, Em. split.
    + unfold layer_from_i16. f_equal. unfold seen. destruct (n =? 0); [vm_compute; reflexivity|].
      destruct (n =? -1); [vm_compute; reflexivity|reflexivity].
    + unfold layer_from_i32, layer_from_i16. unfold in_range in Rx.
      assert (-32768 <= n <= 32767) by nia.
      destruct (Z.leb_spec (-32768) n); [|lia]. destruct (Z.leb_spec n 32767); [|lia]. reflexivity.
Qed.
Print Assumptions C61_order_partial.

(** C61, refuted outside: 0.5 is put above 0.99999994, -0.5 above -1e-10, 32767.5 above 40000.25. *)
Theorem C61_order_refuted :
  (exists x y, is_f32 x /\ is_f32 y /\ in_range x /\ in_range y /\ 0 <= x < y /\
     layer_lt (layer_from_f32 (Fin y)) (layer_from_f32 (Fin x))) /\
  (exists x y, is_f32 x /\ is_f32 y /\ in_range x /\ in_range y /\ x < y < 0 /\
     layer_lt (layer_from_f32 (Fin y)) (layer_from_f32 (Fin x))) /\
  (exists x y, is_f32 x /\ is_f32 y /\ x < y /\ y < 40001 * ONE /\
     layer_lt (layer_from_f32 (Fin y)) (layer_from_f32 (Fin x))).
Proof.
  unfold layer_lt, in_range. split; [|split].
  - exists (2 ^ 148), (ONE - 2 ^ 125).
    split; [exists 1, 148; vm_compute; intuition congruence|].
    split; [exists (2 ^ 24 - 1), 125; vm_compute; intuition congruence|].
    repeat (split; [vm_compute; intuition congruence|]). right. vm_compute. split; reflexivity.
  - exists (- 2 ^ 148), (- 2 ^ 115).
    split; [exists (-1), 148; vm_compute; intuition congruence|].
    split; [exists (-1), 115; vm_compute; intuition congruence|].
    repeat (split; [vm_compute; intuition congruence|]). right. vm_compute. split; reflexivity.
  - exists (65535 * 2 ^ 148), (160001 * 2 ^ 147).
    split; [exists 65535, 148; vm_compute; intuition congruence|].
    split; [exists 160001, 147; vm_compute; intuition congruence|].
    repeat (split; [vm_compute; intuition congruence|]). right. vm_compute. split; reflexivity.
Qed.
Print Assumptions C61_order_refuted.

(** 2.5 and 2.75 *)
Example C61_demo : is_f32 (5 * 2 ^ 148) /\ is_f32 (11 * 2 ^ 147) /\ ~ rounds_up (5 * 2 ^ 148) /\ ~ rounds_up (11 * 2 ^ 147) /\
  layer_from_f32 (Fin (5 * 2 ^ 148)) = {| whole := 2; frac := 32768 |} /\
  layer_from_f32 (Fin (11 * 2 ^ 147)) = {| whole := 2; frac := 49152 |} /\
  layer_from_f32 (Fin (- 7 * 2 ^ 148)) = {| whole := -4; frac := 32768 |}.
Proof.
  split; [exists 5, 148; vm_compute; intuition congruence|].
  split; [exists 11, 147; vm_compute; intuition congruence|].
  unfold rounds_up, ONE. split; [lia|]. split; [lia|]. vm_compute. auto.
Qed.
