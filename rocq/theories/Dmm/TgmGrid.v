(** The grid part of the reader on blocks of rows. *)
From Coq Require Import List ZArith NArith Lia Bool Ascii String Sorted.
From Verif Require Import Common.Text Common.Decimal Common.Utf8 Dmm.Model Dmm.Spec Dmm.KeyProofs Dmm.TgmModel Dmm.TgmSpec Dmm.TgmDict.
Import ListNotations.
Open Scope N_scope.

Lemma digits_run : forall klen ds r cs rc cx cy cz mx my mz num bx ms ay gk gl n, digits_value num ds = Some n ->
  grun klen (ds ++ r) (Gst cs rc cx cy cz mx my mz num bx true ms ay gk gl)
  = grun klen r (Gst cs rc cx cy cz mx my mz n bx true ms ay gk gl).
Proof.
  induction ds as [|d ds IH]; intros r cs rc cx cy cz mx my mz num bx ms ay gk gl n H; cbn [digits_value] in H.
  - injection H as ->. reflexivity.
  - destruct (is_digit d) eqn:Ed; [|discriminate]. unfold is_digit in Ed. pose proof Ed as Ed'. apply andb_true_iff in Ed'. rewrite !N.leb_le in Ed'.
    cbn [app grun]. unfold gstep. cbn [in_coord_block].
    destruct (N.eqb_spec d 44); [lia|]. destruct (N.eqb_spec d 41); [lia|]. rewrite Ed. cbn [cells reading_coord curr_x curr_y curr_z max_x max_y max_z curr_num base_x in_coord_block in_map_string adjust_y g_key g_key_len].
    apply IH, H.
Qed.

(** the coordinates of a block, after the parenthesis *)
Definition head_text (x y z : N) : list N := print_N x ++ lit "," ++ print_N y ++ lit "," ++ print_N z ++ lit ") = {""" ++ [10].
Lemma head_run : forall klen r cs cx cy cz mx my mz bx gk gl x y z,
  grun klen (head_text x y z ++ r) (Gst cs CX cx cy cz mx my mz 0 bx true false true gk gl)
  = grun klen r (Gst cs CX x y z (N.max mx x) (N.max my y) (N.max mz z) 0 x false true false gk gl).
Proof.
  intros. unfold head_text. rewrite <- !app_assoc.
  rewrite (digits_run klen (print_N x) _ _ _ _ _ _ _ _ _ _ _ _ _ _ _ x) by apply print_N_value.
  change (lit ",") with [44]. cbn [app]. cbn [grun gstep in_coord_block reading_coord cells curr_x curr_y curr_z max_x max_y max_z curr_num base_x in_map_string adjust_y g_key g_key_len N.eqb Pos.eqb].
  rewrite (digits_run klen (print_N y) _ _ _ _ _ _ _ _ _ _ _ _ _ _ _ y) by apply print_N_value.
  cbn [grun gstep in_coord_block reading_coord cells curr_x curr_y curr_z max_x max_y max_z curr_num base_x in_map_string adjust_y g_key g_key_len N.eqb Pos.eqb].
  rewrite (digits_run klen (print_N z) _ _ _ _ _ _ _ _ _ _ _ _ _ _ _ z) by apply print_N_value.
  change (lit ") = {""") with [41; 32; 61; 32; 123; 34]. reflexivity.
Qed.

(** a key *)
Lemma key_run : forall s klen r cs cx cy cz mx my mz bx gk gl k, s <> [] -> read_key_from gk s = Some k ->
  (gl + Z.of_nat (List.length s) = klen)%Z -> (klen <= 255)%Z -> find_cell (cx, cy, cz) cs = None ->
  grun klen (map N_of_ascii s ++ r) (Gst cs CX cx cy cz mx my mz 0 bx false true false gk gl)
  = grun klen r (Gst (((cx, cy, cz), k) :: cs) CX (cx + 1) cy cz (N.max mx cx) my mz 0 bx false true false 0 0).
Proof.
  induction s as [|c s IH]; intros klen r cs cx cy cz mx my mz bx gk gl k Hne H Hl Hmax Hf; [congruence|]. cbn [read_key_from] in H.
  destruct (base_52_reverse c) as [d|] eqn:Ed; [|discriminate]. destruct (advance_key gk d) as [k'|] eqn:Ek; [|discriminate].
  apply base_52_some in Ed as Hlet. destruct Hlet as [Hlet _]. pose proof (letter_byte c Hlet) as Hr.
  cbn [List.length] in Hl. rewrite Nat2Z.inj_succ in Hl.
  cbn [map app grun]. unfold gstep. cbn [in_coord_block in_map_string].
  destruct (N.eqb_spec (N_of_ascii c) 34); [lia|]. destruct (N.eqb_spec (N_of_ascii c) 13); [lia|]. destruct (N.eqb_spec (N_of_ascii c) 10); [lia|].
  cbn [g_key g_key_len]. rewrite (push_key_letter c gk gl d k') by (assumption || lia).
  destruct s as [|c' s].
  - cbn [List.length] in Hl. destruct (Z.eqb_spec (gl + 1) klen); [|lia]. cbn [read_key_from] in H. injection H as ->.
    cbn [curr_x curr_y curr_z cells]. rewrite Hf. reflexivity.
  - destruct (Z.eqb_spec (gl + 1) klen) as [E|E]; [cbn [List.length] in Hl; rewrite Nat2Z.inj_succ in Hl; lia|].
    cbn [cells reading_coord curr_x curr_y curr_z max_x max_y max_z curr_num base_x in_coord_block in_map_string adjust_y].
    apply IH; [discriminate | exact H | lia | exact Hmax | exact Hf].
Qed.

Section Rows.
  Variable len : Z.
  Hypothesis Hlen : (1 <= len <= 3)%Z.

  Definition key_text (k : Z) (kb : list N) : Prop := (0 <= k <= KEY_MAX)%Z /\ key_bytes (format_key len k) = Some kb.
  Definition row_text (ks : list Z) (bs : list N) : Prop := exists kbs, Forall2 key_text ks kbs /\ bs = List.concat kbs.
  Definition rows_text (rows : list (list Z)) (bs : list N) : Prop :=
    exists ls, Forall2 row_text rows ls /\ bs = List.concat (map (fun l => l ++ [10]) ls).

  (** the value a block gives to a coordinate *)
  Definition lookup (x y z : N) (rows : list (list Z)) (c : N * N * N) : option Z :=
    let '(j, i, z') := c in
    if (z' =? z) && (x <=? j) && (y <=? i) then
      match nth_error rows (N.to_nat (i - y)) with
      | Some row => nth_error row (N.to_nat (j - x))
      | None => None
      end
    else None.

  Definition extends (x y z : N) (rows : list (list Z)) (cs cs' : list ((N * N * N) * Z)) : Prop :=
    forall c, find_cell c cs' = match lookup x y z rows c with Some k => Some k | None => find_cell c cs end.

  Lemma cell_eqb_spec : forall a b, reflect (a = b) (cell_eqb a b).
  Proof using Type.
    intros [[x y] z] [[x' y'] z']. unfold cell_eqb.
    destruct (N.eqb_spec x x'), (N.eqb_spec y y'), (N.eqb_spec z z'); cbn [andb]; constructor; congruence.
  Qed.

  Lemma one_row_run : forall ks kbs r cs cx cy cz mx my mz bx, Forall2 key_text ks kbs ->
    (forall j, cx <= j -> find_cell (j, cy, cz) cs = None) -> 1 <= cx -> cx - 1 <= mx ->
    exists cs', extends cx cy cz [ks] cs cs' /\
    grun len (List.concat kbs ++ r) (Gst cs CX cx cy cz mx my mz 0 bx false true false 0 0)
    = grun len r (Gst cs' CX (cx + N.of_nat (List.length ks)) cy cz (N.max mx (cx + N.of_nat (List.length ks) - 1)) my mz 0 bx false true false 0 0).
  Proof using Hlen.
    induction ks as [|k ks IH]; intros kbs r cs cx cy cz mx my mz bx H Hf Hx Hm.
    - inversion H; subst. exists cs. split.
      + intros [[j i] z']. unfold lookup. destruct ((z' =? cz) && (cx <=? j) && (cy <=? i)); [|reflexivity].
        destruct (N.to_nat (i - cy)) as [|n]; cbn [nth_error]; [|destruct n; reflexivity]. destruct (N.to_nat (j - cx)); reflexivity.
      + cbn [List.concat app List.length N.of_nat]. rewrite N.add_0_r. f_equal. f_equal. lia.
    - inversion H as [|? kb ? kbs' [Hk Hkb] Hks]; subst. destruct (format_key_bytes len k kb Hlen Hk Hkb) as (s & -> & Hs & _ & Hread).
      destruct (IH kbs' r (((cx, cy, cz), k) :: cs) (cx + 1) cy cz (N.max mx cx) my mz bx Hks) as (cs' & He & Hrun).
      { intros j Hj. cbn [find_cell]. destruct (cell_eqb_spec (j, cy, cz) (cx, cy, cz)) as [E|_]; [injection E as ->; lia|]. apply Hf. lia. }
      { lia. } { lia. }
      exists cs'. split.
      + intros c. rewrite (He c). destruct c as [[j i] z']. unfold lookup. cbn [find_cell].
        destruct (cell_eqb_spec (j, i, z') (cx, cy, cz)) as [E|Hne].
        * injection E as -> -> ->. rewrite !N.eqb_refl. destruct (N.leb_spec (cx + 1) cx); [lia|]. destruct (N.leb_spec cx cx); [|lia]. destruct (N.leb_spec cy cy); [|lia].
          rewrite !N.sub_diag. reflexivity.
        * destruct (N.eqb_spec z' cz) as [->|]; [|reflexivity]. cbn [andb].
          destruct (N.leb_spec cy i) as [Hy|Hy]; [|rewrite !andb_false_r; reflexivity]. rewrite !andb_true_r.
          destruct (N.to_nat (i - cy)) as [|n] eqn:En; cbn [nth_error]; [|destruct n; destruct (cx + 1 <=? j), (cx <=? j); reflexivity].
          assert (i = cy) by lia. subst i.
          destruct (N.leb_spec (cx + 1) j) as [H1|H1], (N.leb_spec cx j) as [H2|H2]; try lia; try reflexivity.
          -- replace (N.to_nat (j - cx)) with (S (N.to_nat (j - (cx + 1)))) by lia. reflexivity.
          -- exfalso. apply Hne. f_equal. f_equal. lia.
      + cbn [List.concat]. rewrite <- app_assoc. rewrite (key_run s len _ cs cx cy cz mx my mz bx 0 0 k).
        * rewrite Hrun. f_equal. cbn [List.length]. rewrite Nat2N.inj_succ. f_equal; lia.
        * intros ->. cbn [List.length] in Hs. lia.
        * exact Hread.
        * lia.
        * lia.
        * apply Hf. lia.
  Qed.

  Lemma rows_run : forall w rows ls r cs cy cz mx my mz bx, Forall2 row_text rows ls -> Forall (fun row => N.of_nat (List.length row) = w) rows ->
    (forall j i, bx <= j -> cy <= i -> find_cell (j, i, cz) cs = None) -> 1 <= bx -> bx <= mx ->
    exists cs', extends bx cy cz rows cs cs' /\
    grun len (List.concat (map (fun l => l ++ [10]) ls) ++ r) (Gst cs CX bx cy cz mx my mz 0 bx false true false 0 0)
    = grun len r (Gst cs' CX bx (cy + N.of_nat (List.length rows)) cz (match rows with [] => mx | _ => N.max mx (bx + w - 1) end) my mz 0 bx false true false 0 0).
  Proof using Hlen.
    induction rows as [|row rows IH]; intros ls r cs cy cz mx my mz bx H Hw Hf Hx Hm.
    - inversion H; subst. exists cs. split.
      + intros [[j i] z']. unfold lookup. destruct (_ && _ && _); [|reflexivity]. destruct (N.to_nat (i - cy)); reflexivity.
      + cbn [List.concat map app List.length N.of_nat]. rewrite N.add_0_r. reflexivity.
    - inversion H as [|? l ? ls' (kbs & Hkbs & ->) Hls]; subst. inversion Hw as [|? ? Hw1 Hw2]; subst.
      destruct (one_row_run row kbs ([10] ++ List.concat (map (fun l => l ++ [10]) ls') ++ r) cs bx cy cz mx my mz bx Hkbs) as (cs1 & He1 & Hr1).
      { intros j Hj. apply Hf; lia. } { exact Hx. } { lia. }
      destruct (IH ls' r cs1 (cy + 1) cz (N.max mx (bx + N.of_nat (List.length row) - 1)) my mz bx Hls Hw2) as (cs2 & He2 & Hr2).
      { intros j i Hj Hi. rewrite (He1 (j, i, cz)). unfold lookup. rewrite N.eqb_refl. destruct (N.leb_spec bx j); [|lia]. destruct (N.leb_spec cy i); [|lia]. cbn [andb].
        destruct (N.to_nat (i - cy)) as [|n] eqn:En; [lia|]. cbn [nth_error]. destruct n; apply Hf; lia. }
      { exact Hx. } { lia. }
      exists cs2. split.
      + intros [[j i] z']. rewrite (He2 (j, i, z')), (He1 (j, i, z')). unfold lookup.
        destruct (N.eqb_spec z' cz) as [->|]; [|reflexivity]. cbn [andb]. destruct (N.leb_spec bx j) as [Hj|Hj]; [|reflexivity]. cbn [andb].
        destruct (N.leb_spec cy i) as [Hy|Hy].
        * destruct (N.leb_spec (cy + 1) i) as [Hy2|Hy2].
          -- replace (N.to_nat (i - cy)) with (S (N.to_nat (i - (cy + 1)))) by lia. cbn [nth_error].
             destruct (nth_error rows (N.to_nat (i - (cy + 1)))) as [rw|]; [|destruct (N.to_nat (i - (cy + 1))); reflexivity].
             destruct (nth_error rw (N.to_nat (j - bx))); [reflexivity|]. destruct (N.to_nat (i - (cy + 1))); reflexivity.
          -- assert (i = cy) by lia. subst i. rewrite N.sub_diag. reflexivity.
        * destruct (N.leb_spec (cy + 1) i); [lia | reflexivity].
      + cbn [map List.concat]. rewrite <- !app_assoc. rewrite Hr1. cbn [app grun].
        transitivity (grun len (List.concat (map (fun l => l ++ [10]) ls') ++ r)
          (Gst cs1 CX bx (cy + 1) cz (N.max mx (bx + N.of_nat (List.length row) - 1)) my mz 0 bx false true false 0 0)); [reflexivity|].
        rewrite Hr2. f_equal. cbn [List.length]. rewrite Nat2N.inj_succ. f_equal; [lia|]. destruct rows; lia.
  Qed.

  (** a block from the parenthesis to the newline after it *)
  Definition block_text (x y z : N) (body : list N) : list N := lit "(" ++ head_text x y z ++ body ++ lit """}" ++ [10].

  (** the state between blocks *)
  Definition gi (cs : list ((N * N * N) * Z)) (cx cy cz mx my mz bx : N) : gst := Gst cs CX cx cy cz mx my mz 0 bx false false true 0 0.

  Lemma block_tail_run : forall w rows body r cs cx cy cz mx my mz bx x y z, rows_text rows body ->
    Forall (fun row => N.of_nat (List.length row) = w) rows -> rows <> [] ->
    (forall j i, x <= j -> y <= i -> find_cell (j, i, z) cs = None) -> 1 <= x -> 1 <= y ->
    exists cs', extends x y z rows cs cs' /\
    grun len ((head_text x y z ++ body ++ lit """}" ++ [10]) ++ r) (Gst cs CX cx cy cz mx my mz 0 bx true false true 0 0)
    = grun len r (gi cs' x (y + N.of_nat (List.length rows) - 1) z (N.max (N.max mx x) (x + w - 1)) (N.max my y) (N.max mz z) x).
  Proof using Hlen.
    intros w rows body r cs cx cy cz mx my mz bx x y z (ls & Hls & ->) Hw Hne Hf Hx Hy.
    destruct (rows_run w rows ls ((lit """}" ++ [10]) ++ r) cs y z (N.max mx x) (N.max my y) (N.max mz z) x Hls Hw Hf Hx) as (cs' & He & Hr); [lia|].
    exists cs'. split; [exact He|]. rewrite <- !app_assoc. rewrite head_run. rewrite <- app_assoc in Hr. rewrite Hr.
    destruct rows as [|row rows]; [congruence|].
    change (lit """}" ++ [10] ++ r) with (34 :: 125 :: 10 :: r). cbn [grun].
    unfold gstep at 1. cbn [in_coord_block in_map_string curr_y]. change (34 =? 34) with true. cbv iota.
    destruct (N.eqb_spec (y + N.of_nat (List.length (row :: rows))) 0) as [E|_]; [lia|]. reflexivity.
  Qed.

  Lemma block_run : forall w rows body r cs cx cy cz mx my mz bx x y z, rows_text rows body ->
    Forall (fun row => N.of_nat (List.length row) = w) rows -> rows <> [] ->
    (forall j i, x <= j -> y <= i -> find_cell (j, i, z) cs = None) -> 1 <= x -> 1 <= y ->
    exists cs', extends x y z rows cs cs' /\
    grun len (block_text x y z body ++ r) (gi cs cx cy cz mx my mz bx)
    = grun len r (gi cs' x (y + N.of_nat (List.length rows) - 1) z (N.max (N.max mx x) (x + w - 1)) (N.max my y) (N.max mz z) x).
  Proof using Hlen.
    intros w rows body r cs cx cy cz mx my mz bx x y z Hb Hw Hne Hf Hx Hy.
    destruct (block_tail_run w rows body r cs cx cy cz mx my mz bx x y z Hb Hw Hne Hf Hx Hy) as (cs' & He & Hr).
    exists cs'. split; [exact He|]. unfold block_text. rewrite <- app_assoc. change (lit "(") with [40]. cbn [app grun].
    exact Hr.
  Qed.
End Rows.
