(** Reading the standard layout; lines that are too long. *)
From Coq Require Import List ZArith NArith Lia Bool Ascii String Sorted.
From Verif Require Import Common.Text Common.Decimal Common.Utf8 Dmm.Model Dmm.Spec Dmm.KeyProofs Dmm.TgmModel Dmm.TgmSpec Dmm.TgmDict Dmm.TgmGrid Dmm.TgmProofs.
Import ListNotations.
Open Scope N_scope.

Section Dmm.
  Context {C : Type} (show : C -> list N) (ev : list N -> option C).
  Notation goes := (goes ev).

  Lemma goes_inv : forall b r s s1 s2, goes (b :: r) s s2 -> step ev b s = Go s1 -> goes r s1 s2.
  Proof using Type. intros b r s s1 s2 H E. inversion H as [|? ? ? s1' ? E1 H1]; subst. rewrite E in E1. injection E1 as <-. exact H1. Qed.
  Lemma strip : forall r trig data fab var datum k len q v e skip kl D s2,
    goes (10 :: 9 :: r) (sd trig data fab var datum k len q v e skip kl D) s2 -> goes r (sd false data fab var datum k len q v e skip kl D) s2.
  Proof using Type.
    intros r trig data fab var datum k len q v e skip kl D s2 H. eapply goes_inv in H; [|reflexivity]. eapply goes_inv in H; [|reflexivity]. exact H.
  Qed.

  Definition dvar (kv : text * C) : list N := encode (fst kv) ++ lit " = " ++ show (snd kv).
  Lemma dvar_goes : forall kv trig data fab k len skip kl D, name_ok (fst kv) -> constant_ok show ev (snd kv) -> trig = false ->
    exists trig', goes (dvar kv) (sd trig data fab [] [] k len false true false skip kl D)
                    (sd trig' data fab (encode (fst kv)) (show (snd kv)) k len false true false false kl D).
  Proof using Type.
    intros kv trig data fab k len skip kl D Hn Hc ->.
    destruct (var_goes show ev kv false data fab k len skip kl D Hn Hc) as [t H]. exists t.
    unfold var_text in H. cbn [app] in H. apply strip in H. exact H.
  Qed.

  Lemma brace_goes : forall kv trig data fab k len kl D, Forall scalar (fst kv) -> encode (fst kv) <> [] -> ev (show (snd kv)) = Some (snd kv) ->
    ~ In (fst kv) (map fst (vars fab)) ->
    goes (lit "}") (sd trig data fab (encode (fst kv)) (show (snd kv)) k len false true false false kl D)
      (sd false data (Prefab (path fab) (vars fab ++ [kv])) [] [] k len false false false false kl D).
  Proof using Type.
    intros kv trig data fab k len kl D H1 H2 H3 H4.
    pose proof (close_goes show ev kv false data fab k len kl D H1 H2 H3 H4) as H. cbn [app] in H. apply strip in H.
    change (lit "}") with [125] in *. inversion H as [|? ? ? s3 ? E3 G3]; subst. inversion G3; subst. apply goes_one. rewrite <- E3. reflexivity.
  Qed.

  Lemma dvars_goes : forall l trig data fab k len skip kl D, l <> [] -> trig = false ->
    Forall (fun kv => name_ok (fst kv) /\ constant_ok show ev (snd kv)) l ->
    NoDup (map fst (vars fab) ++ map fst l) ->
    goes (join (lit "; ") (map dvar l) ++ lit "}") (sd trig data fab [] [] k len false true false skip kl D)
      (sd false data (Prefab (path fab) (vars fab ++ l)) [] [] k len false false false false kl D).
  Proof using Type.
    induction l as [|kv l IH]; intros trig data fab k len skip kl D Hne Htr Hok Hnd; [congruence|]. subst trig.
    inversion Hok as [|? ? [Hn Hc] Hok']; subst.
    assert (Hfresh : ~ In (fst kv) (map fst (vars fab))).
    { intro Hin. cbn [map] in Hnd. apply NoDup_remove_2 in Hnd. apply Hnd, in_or_app. left; exact Hin. }
    destruct (dvar_goes kv false data fab k len skip kl D Hn Hc eq_refl) as [t1 H1].
    assert (Hne' : encode (fst kv) <> []). { destruct Hn as (_ & _ & _ & _ & a & b & E & _). rewrite E. destruct a; discriminate. }
    destruct l as [|kv2 l].
    - cbn [map join]. eapply goes_app; [exact H1|]. apply brace_goes; [apply Hn | exact Hne' | apply Hc | exact Hfresh].
    - change (join (lit "; ") (map dvar (kv :: kv2 :: l))) with (dvar kv ++ lit "; " ++ join (lit "; ") (map dvar (kv2 :: l))).
      rewrite <- !app_assoc. eapply goes_app; [exact H1|].
      change (lit "; ") with (lit ";" ++ [32]). rewrite <- app_assoc. eapply goes_app; [apply semi_goes; [apply Hn | apply Hc | exact Hfresh]|].
      eapply goes_app; [apply goes_one; reflexivity|].
      replace (vars fab ++ kv :: kv2 :: l) with ((vars fab ++ [kv]) ++ kv2 :: l) by (rewrite <- app_assoc; reflexivity).
      apply (IH false data (Prefab (path fab) (vars fab ++ [kv])) k len false kl D); [discriminate | reflexivity | exact Hok'|].
      cbn [vars]. rewrite map_app, <- app_assoc. exact Hnd.
  Qed.

  Lemma dprefab_goes : forall f data k len kl D, prefab_ok show ev f ->
    exists trig', goes (dmm_prefab show f) (sd false data prefab0 [] [] k len false false false false kl D)
                    (after_prefab trig' data f k len kl D).
  Proof using Type.
    intros [p vs] data k len kl D ((Hsc & Hno & Hnc) & Hnd & Hok). cbn [path vars] in *. unfold dmm_prefab, after_prefab. cbn [path vars].
    destruct (path_goes ev (encode p) false data prefab0 [] k len kl D) as [t1 H1].
    { apply none_encode; [cbn; repeat constructor | exact Hno]. } { apply nc_encode, nc_of, Hnc. }
    destruct vs as [|kv vs].
    - exists t1. rewrite app_nil_r. exact H1.
    - exists false. eapply goes_app; [exact H1|]. eapply goes_app.
      + change (lit "{") with [123]. apply goes_one.
        transitivity (Go (set_varedit true (take_path (sd false data prefab0 [] (encode p) k len false false false false kl D)))); [reflexivity|].
        unfold take_path, sd, set_varedit. cbn [curr_datum]. rewrite encode_back by exact Hsc. reflexivity.
      + apply (dvars_goes (kv :: vs) false data (Prefab p []) k len false kl D); [discriminate | reflexivity | exact Hok | exact Hnd].
  Qed.

  Lemma comma_goes : forall trig data f k len kl D, prefab_ok show ev f ->
    goes (lit ",") (after_prefab trig data f k len kl D) (sd false (data ++ [f]) prefab0 [] [] k len false false false false kl D).
  Proof using Type.
    intros trig data f k len kl D Hf. pose proof (sd_comma show ev trig data f k len kl D Hf) as H. cbn [app] in H.
    clear H. change (lit ",") with [44]. apply goes_one.
    assert (E : TgmModel.step ev 44 (after_prefab trig data f k len kl D) = Go (finish_prefab (after_prefab false data f k len kl D))) by (unfold after_prefab; destruct (vars f); reflexivity).
    rewrite E, (finish_after show ev) by exact Hf. reflexivity.
  Qed.

  Lemma dprefabs_goes : forall l data k len kl D, l <> [] -> Forall (prefab_ok show ev) l ->
    goes (join (lit ",") (map (dmm_prefab show) l) ++ lit ")" ++ [10]) (sd false data prefab0 [] [] k len false false false false kl D)
      (so kl true (dict_insert k (data ++ l) D)).
  Proof using Type.
    induction l as [|f l IH]; intros data k len kl D Hne Hok; [congruence|]. inversion Hok as [|? ? Hf Hl]; subst.
    destruct (dprefab_goes f data k len kl D Hf) as [t1 H1]. destruct l as [|f2 l].
    - cbn [map join]. eapply goes_app; [exact H1|]. apply (sd_close show ev), Hf.
    - change (join (lit ",") (map (dmm_prefab show) (f :: f2 :: l))) with (dmm_prefab show f ++ lit "," ++ join (lit ",") (map (dmm_prefab show) (f2 :: l))).
      rewrite <- !app_assoc. eapply goes_app; [exact H1|]. eapply goes_app; [apply comma_goes, Hf|].
      replace (data ++ f :: f2 :: l) with ((data ++ [f]) ++ f2 :: l) by (rewrite <- app_assoc; reflexivity).
      apply IH; [discriminate | exact Hl].
  Qed.

  Lemma key_letters_bytes : forall len k, (1 <= len <= 3)%Z -> (0 <= k <= KEY_MAX)%Z -> (k < 52 ^ len)%Z -> key_bytes (format_key len k) = Some (key_letters len k).
  Proof using Type. clear.
    intros len k Hl Hk Hf. pose proof (proj2 (format_key_some len k Hl Hk) Hf) as G. unfold key_letters, key_bytes in *.
    destruct (format_key len k); [reflexivity | exfalso; apply G; reflexivity].
  Qed.

  Lemma dentry_goes : forall k fabs len kl after D, (1 <= len <= 3)%Z -> (kl = 0 \/ kl = len)%Z -> (0 <= k <= KEY_MAX)%Z -> (k < 52 ^ len)%Z ->
    fabs <> [] -> Forall (prefab_ok show ev) fabs ->
    goes (dmm_entry show len (k, fabs)) (so kl after D) (so len true (dict_insert k fabs D)).
  Proof using Type.
    intros k fabs len kl after D Hlen Hkl Hk Hfit Hne Hok. unfold dmm_entry. cbn [fst snd].
    destruct (format_key_bytes len k _ Hlen Hk (key_letters_bytes len k Hlen Hk Hfit)) as (s & -> & Hs & Hlet & Hread).
    destruct (key_goes ev s false 0 0 kl D k Hread) as [t' Ht']; [lia|]. rewrite Z.add_0_l, Hs in Ht'.
    eapply goes_app; [change (lit """") with [34]; apply goes_one; reflexivity|].
    eapply goes_app; [exact Ht'|].
    eapply goes_app; [|apply (dprefabs_goes fabs [] k len len D); assumption].
    change (lit """ = (") with [34; 32; 61; 32; 40].
    econstructor.
    { unfold TgmModel.step, sk. cbn. unfold step_outer. cbn. 
      replace ((kl =? 0) || (kl =? len))%Z with true by (destruct Hkl as [->| ->]; [reflexivity | rewrite Z.eqb_refl, orb_true_r; reflexivity]). reflexivity. }
    do 3 (econstructor; [reflexivity|]). apply goes_one. reflexivity.
  Qed.

  Lemma ddict_goes : forall d len kl after D, (1 <= len <= 3)%Z -> (kl = 0 \/ kl = len)%Z -> Forall (entry_ok show ev) d ->
    Forall (fun k => k < 52 ^ len)%Z (map fst d) ->
    StronglySorted Z.lt (map fst (D ++ d)) -> d <> [] ->
    goes (List.concat (map (dmm_entry show len) d)) (so kl after D) (so len true (D ++ d)).
  Proof using Type.
    induction d as [|[k fabs] d IH]; intros len kl after D Hlen Hkl Hok Hfit Hs Hne; [congruence|].
    inversion Hok as [|? ? (Hk & Hf & Hp) Hd]; subst. inversion Hfit as [|? ? Hfit1 Hfit2]; subst. cbn [fst snd] in *.
    assert (Hlast : dict_insert k fabs D = D ++ [(k, fabs)]).
    { apply dict_insert_last. rewrite map_app in Hs. cbn [map fst] in Hs. clear - Hs. induction (map fst D) as [|x l IHl]; [constructor|].
      cbn [app] in Hs. inversion Hs as [|? ? Hs' Hx]; subst. constructor; [|apply IHl, Hs'].
      rewrite Forall_forall in Hx. apply Hx, in_or_app. right. left. reflexivity. }
    pose proof (dentry_goes k fabs len kl after D Hlen Hkl Hk Hfit1 Hf Hp) as H1. rewrite Hlast in H1.
    cbn [map List.concat]. eapply goes_app; [exact H1|]. destruct d as [|e d].
    - constructor.
    - replace (D ++ (k, fabs) :: e :: d) with ((D ++ [(k, fabs)]) ++ e :: d) by (rewrite <- app_assoc; reflexivity).
      apply IH; [exact Hlen | right; reflexivity | exact Hd | exact Hfit2 | rewrite <- app_assoc; exact Hs | discriminate].
  Qed.
End Dmm.

Section DmmGrid.
  Variables (len : Z) (g : grid3 Z) (dz dy dx : nat).
  Hypothesis Hlen : (1 <= len <= 3)%Z.
  Hypothesis Hdim : g3_dim g = (dz, dy, dx).
  Hypothesis Hdx : (1 <= dx)%nat.
  Hypothesis Hdy : (1 <= dy)%nat.
  Hypothesis Hok : grid3_ok g.
  Hypothesis Hkeys : Forall (fun k => 0 <= k <= KEY_MAX)%Z (g3_data g).
  Hypothesis Hfit : Forall (fun k => k < 52 ^ len)%Z (g3_data g).

  Lemma row_in : forall z y k, In k (row g z y) -> In k (g3_data g).
  Proof using Hdim.
    clear - Hdim. intros z y k H. unfold row in H. rewrite Hdim in H.
    rewrite <- (firstn_skipn ((z * dy + y) * dx) (g3_data g)). apply in_or_app. right.
    rewrite <- (firstn_skipn dx (skipn ((z * dy + y) * dx) (g3_data g))). apply in_or_app. left. exact H.
  Qed.
  Lemma row_length : forall z y, (z < dz)%nat -> (y < dy)%nat -> List.length (row g z y) = dx.
  Proof using Hdim Hok.
    clear Hlen Hkeys Hfit Hdx Hdy. intros z y Hz Hy. unfold row, grid3_ok in *. rewrite Hdim in *. rewrite firstn_length, skipn_length, Hok.
    assert ((z * dy + y) * dx + dx <= dz * dy * dx)%nat; [|lia]. assert ((z * dy + y) + 1 <= dz * dy)%nat by nia. nia.
  Qed.
  Lemma nth_firstn_lt : forall {A} n (l : list A) i d, (i < n)%nat -> nth i (firstn n l) d = nth i l d.
  Proof using Type. clear. intros A n. induction n as [|n IH]; intros l i d H; [lia|]. destruct l as [|a l]; [destruct i; reflexivity|]. destruct i as [|i]; [reflexivity|]. cbn [firstn nth]. apply IH. lia. Qed.
  Lemma nth_skipn' : forall {A} n (l : list A) i d, nth i (skipn n l) d = nth (n + i) l d.
  Proof using Type. clear. intros A n. induction n as [|n IH]; intros l i d; [reflexivity|]. destruct l as [|a l]; [destruct i; reflexivity|]. cbn [skipn Nat.add nth]. apply IH. Qed.
  Lemma row_nth : forall z y x, (z < dz)%nat -> (y < dy)%nat -> (x < dx)%nat -> nth_error (row g z y) x = Some (val g dy dx z y x).
  Proof using Hdim Hok.
    intros z y x Hz Hy Hx. rewrite (nth_error_nth' _ 0%Z) by (rewrite row_length; assumption). f_equal.
    unfold row, val. rewrite Hdim. rewrite nth_firstn_lt by exact Hx. apply nth_skipn'.
  Qed.

  Definition level_rows (z : nat) : list (list Z) := map (row g z) (seq 0 dy).
  Lemma level_rows_text : forall z, rows_text len (level_rows z)
    (List.concat (map (fun y => List.concat (map (key_letters len) (row g z y)) ++ [10]) (seq 0 dy))).
  Proof using Hlen Hdim Hkeys Hfit.
    intro z. exists (map (fun y => List.concat (map (key_letters len) (row g z y))) (seq 0 dy)). split.
    - unfold level_rows. induction (seq 0 dy) as [|y l IH]; [constructor|]. cbn [map]. constructor; [|exact IH].
      exists (map (key_letters len) (row g z y)). split; [|reflexivity].
      pose proof (row_in z y) as Hin. induction (row g z y) as [|k ks IHk]; [constructor|]. cbn [map]. constructor.
      + specialize (Hin k (or_introl eq_refl)). rewrite Forall_forall in Hkeys, Hfit. specialize (Hkeys _ Hin). specialize (Hfit _ Hin).
        split; [exact Hkeys | apply key_letters_bytes; assumption].
      + apply IHk. intros k' Hk'. apply Hin. right; exact Hk'.
    - rewrite map_map. reflexivity.
  Qed.

  Lemma dlevels_run : forall n z0 cs cx cy cz mx my mz bx, (z0 + n = dz)%nat -> inv g dy dx z0 0 cs ->
    exists cs' cx' cz' bx', inv g dy dx dz 0 cs' /\
      grun len (List.concat (map (dmm_level len g) (seq z0 n))) (gi cs cx cy cz mx my mz bx)
      = ROk (gi cs' cx' (match n with O => cy | _ => N.of_nat dy end) cz' (match n with O => mx | _ => N.max mx (N.of_nat dx) end)
          (match n with O => my | _ => N.max my 1 end) (match n with O => mz | _ => N.max mz (N.of_nat dz) end) bx').
  Proof using Hlen Hdim Hdx Hdy Hok Hkeys Hfit.
    induction n as [|n IH]; intros z0 cs cx cy cz mx my mz bx Hn Hi.
    - exists cs, cx, cz, bx. split; [replace dz with z0 by lia; exact Hi | reflexivity].
    - set (rest := List.concat (map (dmm_level len g) (seq (S z0) n))).
      destruct (block_run len Hlen (N.of_nat dx) (level_rows z0) _ rest cs cx cy cz mx my mz bx 1 1 (N.of_nat z0 + 1) (level_rows_text z0)) as (cs1 & He & Hr).
      { apply Forall_forall. intros l Hl. apply in_map_iff in Hl. destruct Hl as (y & <- & Hy). apply in_seq in Hy. rewrite row_length by lia. reflexivity. }
      { unfold level_rows. destruct dy as [|d]; [lia|]. discriminate. }
      { intros j i Hj Hii. rewrite (Hi j i (N.of_nat z0 + 1)). unfold done. replace (N.of_nat z0 + 1 <=? N.of_nat z0) with false by (symmetry; apply N.leb_gt; lia).
        replace (j <=? N.of_nat 0) with false by (symmetry; apply N.leb_gt; cbn; lia). rewrite !andb_false_r. reflexivity. }
      { lia. } { lia. }
      assert (Hi1 : inv g dy dx (S z0) 0 cs1).
      { intros j i z. rewrite (He (j, i, z)), (Hi j i z). unfold lookup, done.
        replace (j <=? N.of_nat 0) with (j <=? 0) by reflexivity.
        destruct (N.eqb_spec z (N.of_nat z0 + 1)) as [->|Hz]; cbn [andb].
        - replace (N.of_nat z0 + 1 <=? N.of_nat z0) with false by (symmetry; apply N.leb_gt; lia). cbn [orb].
          replace (1 <=? N.of_nat z0 + 1) with true by (symmetry; apply N.leb_le; lia).
          replace (N.of_nat z0 + 1 <=? N.of_nat (S z0)) with true by (symmetry; apply N.leb_le; lia). cbn [orb andb]. rewrite !andb_true_r.
          destruct (N.leb_spec 1 j) as [Hj|Hj]; cbn [andb]; [|reflexivity].
          replace (j <=? 0) with false by (symmetry; apply N.leb_gt; lia). rewrite !andb_false_r.
          destruct (N.leb_spec 1 i) as [Hi1|Hi1]; [|rewrite !andb_false_r; reflexivity]. rewrite andb_true_r.
          unfold level_rows. destruct (N.leb_spec i (N.of_nat dy)) as [Hi2|Hi2].
          + rewrite (nth_error_nth' _ []) by (rewrite map_length, seq_length; lia).
            rewrite (nth_indep _ [] (row g z0 0)) by (rewrite map_length, seq_length; lia). rewrite map_nth, seq_nth by lia. cbn [Nat.add].
            destruct (N.leb_spec j (N.of_nat dx)) as [Hj2|Hj2]; cbn [andb].
            * rewrite row_nth by lia. f_equal. f_equal. lia.
            * rewrite (proj2 (nth_error_None _ _)) by (rewrite row_length by lia; lia). reflexivity.
          + rewrite (proj2 (nth_error_None _ _)) by (rewrite map_length, seq_length; lia). rewrite andb_false_r. reflexivity.
        - rewrite !orb_false_r. replace (z <=? N.of_nat (S z0)) with (z <=? N.of_nat z0); [|destruct (N.leb_spec z (N.of_nat z0)), (N.leb_spec z (N.of_nat (S z0))); lia || reflexivity].
          destruct (N.leb_spec 1 j) as [Hj|Hj]; [|reflexivity]. replace (j <=? 0) with false by (symmetry; apply N.leb_gt; lia). rewrite (andb_false_r (z =? N.of_nat (S z0) + 1)), orb_false_r. reflexivity. }
      destruct (IH (S z0) cs1 1 (1 + N.of_nat dy - 1) (N.of_nat z0 + 1) (N.max (N.max mx 1) (1 + N.of_nat dx - 1)) (N.max my 1) (N.max mz (N.of_nat z0 + 1)) 1) as (cs' & cx' & cz' & bx' & Hi' & Hr'); [lia | exact Hi1|].
      exists cs', cx', cz', bx'. split; [exact Hi'|]. cbn [seq map List.concat]. fold rest.
      transitivity (grun len (block_text 1 1 (N.of_nat z0 + 1) (List.concat (map (fun y => List.concat (map (key_letters len) (row g z0 y)) ++ [10]) (seq 0 dy))) ++ rest) (gi cs cx cy cz mx my mz bx)).
      { unfold dmm_level. rewrite Hdim. unfold block_text, head_text. rewrite <- !app_assoc. reflexivity. }
      etransitivity; [exact Hr|]. unfold level_rows. rewrite map_length, seq_length. etransitivity; [exact Hr'|]. f_equal. unfold gi. f_equal; destruct n; lia.
  Qed.
End DmmGrid.

Section Final.
  Context {C : Type} (show : C -> list N) (ev : list N -> option C).

  Lemma dmm_lemma : forall m, map_ok show ev m -> keys_fit m -> short_lines (dmm_text show m) -> parse_map ev (dmm_text show m) = ROk m.
  Proof using Type.
    intros [len d g] (Hlen & Hd & Hsort & Hent & Hgok & Hdims & Hkeys) Hfit Hl. unfold keys_fit in Hfit. cbn [key_length dictionary grid] in *.
    apply Forall_app in Hfit. destruct Hfit as [Hfit1 Hfit2].
    destruct (g3_dim g) as [[dz dy] dx] eqn:Hdim. destruct Hdims as (Hz & Hy & Hx).
    unfold parse_map. rewrite (short_tracker _ Hl). unfold dmm_text. cbn [key_length dictionary grid]. rewrite Hdim. cbn [fst].
    change (@dst0 C) with (so 0 false ([] : list (Z * list (prefab C)))).
    rewrite (goes_run ev _ _ _ (so len true ([] ++ d))).
    2: { apply (ddict_goes show ev d len 0 false []); [exact Hlen | left; reflexivity | exact Hent | exact Hfit1 | exact Hsort | exact Hd]. }
    destruct (dlevels_run len g dz dy dx Hlen Hdim Hx Hy Hgok Hkeys Hfit2 dz 0 [] 0 0 0 0 0 0 0 eq_refl (inv_empty g dy dx)) as (cs' & cx' & cz' & bx' & Hi & Hr).
    assert (Eg : exists rest, List.concat (map (dmm_level len g) (seq 0 dz)) = 10 :: 40 :: rest).
    { destruct dz as [|dz']; [lia|]. cbn [seq map List.concat]. unfold dmm_level at 1. rewrite Hdim. eexists. reflexivity. }
    destruct Eg as [rest Eg]. rewrite Eg in *. cbn [app].
    assert (Erun : run ev (10 :: 40 :: rest) (so len true d) = ROk (so len true d, rest)) by reflexivity.
    rewrite Erun. unfold so. cbn [d_key_length d_dictionary].
    assert (Egrun : grun len rest gst0 = grun len (10 :: 40 :: rest) (gi [] 0 0 0 0 0 0 0)) by reflexivity.
    rewrite Egrun, Hr. destruct dz as [|dz']; [lia|].
    rewrite (build_ok g (S dz') dy dx Hdim cs' cx' cz' _ _ _ bx' Hgok Hi); [reflexivity | lia | lia | lia].
  Qed.

  (** ** lines that are too long *)
  Lemma tracker_first : forall bs col l c b, tracker_ok col bs = true -> bs = l ++ c :: b -> ~ In 10 l -> col + N.of_nat (List.length l) <= 65534.
  Proof using Type. clear.
    induction bs as [|x bs IH]; intros col l c b H E Hl; [destruct l; discriminate|]. cbn [tracker_ok] in H.
    destruct (N.leb_spec (col + 1) 65535) as [Hc|]; [|discriminate]. destruct l as [|y l]; [cbn [List.length N.of_nat]; lia|].
    cbn [app] in E. injection E as -> E. destruct (N.eqb_spec y 10) as [->|Hy]; [exfalso; apply Hl; left; reflexivity|].
    pose proof (IH (col + 1) l c b H E (fun F => Hl (or_intror F))) as G. cbn [List.length]. rewrite Nat2N.inj_succ. lia.
  Qed.
  Lemma tracker_any : forall bs col a l c b, tracker_ok col bs = true -> bs = a ++ l ++ c :: b -> ~ In 10 l -> N.of_nat (List.length l) <= 65534.
  Proof using Type. clear.
    induction bs as [|x bs IH]; intros col a l c b H E Hl; [destruct a, l; discriminate|]. destruct a as [|y a].
    - pose proof (tracker_first _ _ l c b H E Hl). lia.
    - cbn [tracker_ok] in H. destruct (col + 1 <=? 65535); [|discriminate]. cbn [app] in E. injection E as _ E. exact (IH _ a l c b H E Hl).
  Qed.
  Lemma tracker_lines : forall bs, tracker_ok 0 (bs ++ [10]) = true -> short_lines (bs ++ [10]).
  Proof using Type. clear.
    intros bs H a l b E Hl. destruct b as [|c b].
    - rewrite app_nil_r in E. destruct l as [|x l _] using rev_ind; [cbn; lia|]. rewrite app_assoc in E. apply app_inj_tail in E. destruct E as [_ <-]. exfalso. apply Hl, in_or_app. right. left. reflexivity.
    - exact (tracker_any _ 0 a l c b H E Hl).
  Qed.

  Lemma concat_opt_last : forall l r, concat_opt l = Some r -> (forall o b, In o l -> o = Some b -> exists a, b = a ++ [10]) -> r = [] \/ exists a, r = a ++ [10].
  Proof using Type. clear.
    induction l as [|[x|] l IH]; intros r H Hall; cbn [concat_opt] in H; [injection H as <-; left; reflexivity| |discriminate].
    destruct (concat_opt l) as [t|] eqn:E; [|discriminate]. cbn in H. injection H as <-. right.
    destruct (IH t eq_refl) as [->|[a ->]]; [intros o b Ho; apply Hall; right; exact Ho| |].
    - destruct (Hall (Some x) x (or_introl eq_refl) eq_refl) as [a ->]. exists a. rewrite app_nil_r. reflexivity.
    - exists (x ++ a). rewrite app_assoc. reflexivity.
  Qed.
  Lemma save_newline : forall m bs, map_ok show ev m -> save show m = Some bs -> exists a, bs = a ++ [10].
  Proof using Type.
    intros m bs (Hlen & Hd & Hsort & Hent & Hgok & Hdims & Hkeys) Hs. unfold save in Hs.
    destruct (save_dict show (key_length m) (dictionary m)) as [db|]; [|discriminate]. destruct (save_grid (key_length m) (grid m)) as [gb|] eqn:Eg; [|discriminate].
    assert (Eb : bs = (TGM_HEADER ++ [10] ++ db) ++ gb) by (injection Hs as <-; rewrite <- !app_assoc; reflexivity). clear Hs.
    destruct (g3_dim (grid m)) as [[dz dy] dx] eqn:Hdim. destruct Hdims as (Hz & Hy & Hx).
    destruct (save_grid_head _ _ gb dz dy dx Hdim Hz Hx Eg) as [rest Er].
    unfold save_grid in Eg. rewrite Hdim in Eg. destruct (concat_opt_last _ _ Eg) as [->|[a Ea]]; [|discriminate Er|].
    - intros o b Ho Hb. apply in_flat_map in Ho. destruct Ho as (z & _ & [<-|Ho]); [injection Hb as <-; exists []; reflexivity|].
      apply in_map_iff in Ho. destruct Ho as (x & <- & _). unfold save_block in Hb. destruct (save_column _ _) as [kb|]; [|discriminate].
      match type of Hb with Some ?t = _ => assert (E : b = t) by (injection Hb as <-; reflexivity) end. rewrite E. clear. rewrite !app_assoc. eexists. reflexivity.
    - exists ((TGM_HEADER ++ [10] ++ db) ++ a). rewrite Eb, Ea, app_assoc. reflexivity.
  Qed.

  Lemma roundtrip_iff : forall m bs, map_ok show ev m -> save show m = Some bs ->
    (short_lines bs -> parse_map ev bs = ROk m) /\ (~ short_lines bs -> parse_map ev bs = RPanic).
  Proof using Type.
    intros m bs Hm Hs. split; [apply (roundtrip_lemma show ev); assumption|]. intro Hn. unfold parse_map.
    destruct (tracker_ok 0 bs) eqn:E; [|reflexivity]. exfalso. apply Hn. destruct (save_newline m bs Hm Hs) as [a ->]. apply tracker_lines, E.
  Qed.
End Final.
