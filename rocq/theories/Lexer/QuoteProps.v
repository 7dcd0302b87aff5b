(** Quoted strings (C12).  Models crates/dreammaker/src/lexer.rs:357-374 (Quote). *)
From Coq Require Import List NArith ZArith Lia Bool String.
From Verif Require Import Common.Text Common.TextFacts Common.Utf8 Lexer.Tracker Lexer.Punct Lexer.Model Lexer.Spec Lexer.Facts Lexer.PunctProps Lexer.CommentProps Lexer.LexProps.
Import ListNotations.
Open Scope N_scope.

(** str::contains for the two patterns used *)
Fixpoint contains (pat s : text) : bool :=
  starts_with pat s || match s with [] => false | _ :: s' => contains pat s' end.
(** lexer.rs:362-374 Quote::fmt *)
Definition quote (s : text) : text :=
  if contains [34; 125] s then [64; 64] ++ s ++ [64]
  else if contains [34] s || contains [10] s then [123; 34] ++ s ++ [34; 125]
  else [34] ++ s ++ [34].

(** ** Specification *)
(** String contents as they stand in a literal: every backslash escapes the character after it, which does not end a line, and no
    interpolation begins. *)
Inductive escaped : text -> Prop :=
  | es_nil : escaped []
  | es_plain c s : c <> 92 -> c <> 91 -> escaped s -> escaped (c :: s)
  | es_esc c s : c <> 13 -> c <> 10 -> escaped s -> escaped (92 :: c :: s).
(** somewhere in [s], [pat] *)
Definition occurs (pat s : text) : Prop := exists a b, s = a ++ pat ++ b.

Lemma starts_with_iff : forall p s, starts_with p s = true <-> exists b, s = p ++ b.
Proof.
  induction p as [|x p IH]; intro s; cbn [starts_with app]; [split; eauto|]. destruct s as [|y s]; [split; [discriminate | intros (b & E); discriminate]|].
  rewrite andb_true_iff, N.eqb_eq, IH. split; [intros (-> & b & ->); eauto | intros (b & E); injection E as -> ->; eauto].
Qed.
Lemma contains_iff : forall p s, contains p s = true <-> occurs p s.
Proof.
  intros p. induction s as [|c s IH]; cbn [contains]; rewrite orb_true_iff, starts_with_iff.
  - split; [intros [(b & E)|]; [exists [], b; exact E | discriminate]|]. intros (a & b & E). left. destruct a; [|discriminate]. exists b. exact E.
  - rewrite IH. split; [intros [(b & E)|(a & b & E)]; [exists [], b; exact E | exists (c :: a), b; cbn; rewrite E; reflexivity]|].
    intros ([|x a] & b & E); [left; exists b; exact E|]. right. injection E as -> ->. exists a, b. reflexivity.
Qed.

(** ** Reading the contents back *)
Section READ.
Variable content : list byte.
Notation len := (List.length content).
Notation spot := (spot content).

Lemma lnext_cons : forall k L b r, spot k L -> skipn k content = b :: r ->
  exists L1, lnext L = (Some b, L1) /\ at_ content (S k) L1 /\ skipn (S k) content = r /\ nth_error content k = Some b /\ location L1 = place (firstn k content) /\ same L L1.
Proof using Type.
  intros k L b r H E. destruct (lnext_spot _ _ _ H) as [(b' & L1 & E1 & Hn & Hat & Hl & Hs)|(Hk & L1 & E1 & _)].
  - rewrite (skipn_nth _ _ _ Hn) in E. injection E as -> Er. exists L1. auto 8.
  - rewrite Hk, skipn_all in E. discriminate.
Qed.

Lemma string_double : forall bs, escaped bs -> ~ In 34 bs -> forall fuel st buf k L r, spot k L -> skipn k content = bs ++ 34 :: r -> (List.length bs < fuel)%nat ->
  exists L', string_loop fuel st [34] false 0 buf L = Ok (buf ++ bs, false, L') /\ spot (k + List.length bs + 1) L' /\ same L L'.
Proof using Type.
  induction 1 as [|c s N1 N2 Hs IH|c s N1 N2 Hs IH]; intros Hno fuel st buf k L r H E Hf.
  - cbn [app] in E. destruct fuel as [|fuel]; [cbn in Hf; lia|]. destruct (lnext_cons _ _ _ _ H E) as (L1 & E1 & Hat & _ & _ & _ & Hs).
    cbn [string_loop]. rewrite E1. exists L1. cbn [List.length]. replace (k + 0 + 1)%nat with (S k) by lia. split; [rewrite (app_nil_r buf); reflexivity|]. split; [apply at_spot; exact Hat | exact Hs].
  - cbn [app List.length] in E, Hf |- *. destruct fuel as [|fuel]; [lia|]. destruct (lnext_cons _ _ _ _ H E) as (L1 & E1 & Hat & Er & _ & _ & Hs1).
    cbn [string_loop]. rewrite E1. assert (N3 : c <> 34) by (intro; subst; apply Hno; left; reflexivity).
    change (nth 0 [34] 256) with 34. rewrite (proj2 (N.eqb_neq _ _) N3). cbn [andb Nat.ltb Nat.leb firstn]. rewrite app_nil_r, (proj2 (N.eqb_neq _ _) N2), (proj2 (N.eqb_neq _ _) N1).
    destruct (IH (fun Hi => Hno (or_intror Hi)) fuel st (buf ++ [c]) (S k) L1 r (at_spot _ _ _ Hat) Er ltac:(lia)) as (L' & E' & H' & Hs').
    exists L'. rewrite E', <- app_assoc. split; [reflexivity|]. replace (k + S (List.length s) + 1)%nat with (S k + List.length s + 1)%nat by lia. split; [exact H' | eapply same_trans; eauto].
  - cbn [app List.length] in E, Hf |- *. destruct fuel as [|[|fuel]]; [lia | lia|]. destruct (lnext_cons _ _ _ _ H E) as (L1 & E1 & Hat & Er & _ & _ & Hs1).
    destruct (lnext_cons _ _ _ _ (at_spot _ _ _ Hat) Er) as (L2 & E2 & Hat2 & Er2 & _ & _ & Hs2).
    remember (S fuel) as f1. cbn [string_loop]. rewrite E1. change (92 =? nth 0 [34] 256) with false. change (92 =? 91) with false. change (92 =? 92) with true. cbn [andb Nat.ltb Nat.leb firstn]. rewrite app_nil_r.
    subst f1. cbn [string_loop]. rewrite E2. cbn [negb]. rewrite !andb_false_r. cbn [andb Nat.ltb Nat.leb firstn]. rewrite (proj2 (N.eqb_neq _ _) N1), (proj2 (N.eqb_neq _ _) N2), app_nil_r. cbn [orb].
    destruct (IH (fun Hi => Hno (or_intror (or_intror Hi))) fuel st (buf ++ [92; c]) (S (S k)) L2 r (at_spot _ _ _ Hat2) Er2 ltac:(lia)) as (L' & E' & H' & Hs').
    exists L'. rewrite E', <- app_assoc. split; [reflexivity|]. replace (k + S (S (List.length s)) + 1)%nat with (S (S k) + List.length s + 1)%nat by lia. split; [exact H' | eapply same_trans; [eapply same_trans|]; eauto].
Qed.

Lemma string_block : forall bs, escaped bs -> ~ occurs [34; 125] bs -> forall fuel st (pend : bool) buf k L r, spot k L -> skipn k content = bs ++ 34 :: 125 :: r ->
  (S (List.length bs) < fuel)%nat -> (pend = true -> hd 0 bs <> 125) ->
  exists L', string_loop fuel st [34; 125] false (if pend then 1 else 0) buf L = Ok (buf ++ (if pend then [34] else []) ++ bs, false, L') /\ spot (k + List.length bs + 2) L' /\ same L L'.
Proof using Type.
  induction 1 as [|c s N1 N2 Hs IH|c s N1 N2 Hs IH]; intros Hno fuel st pend buf k L r H E Hf Hp.
  - cbn [app] in E. destruct fuel as [|[|fuel]]; [cbn in Hf; lia | cbn in Hf; lia|]. destruct (lnext_cons _ _ _ _ H E) as (L1 & E1 & Hat & Er & _ & _ & Hs).
    destruct (lnext_cons _ _ _ _ (at_spot _ _ _ Hat) Er) as (L2 & E2 & Hat2 & _ & _ & _ & Hs2).
    exists L2. cbn [List.length]. replace (k + 0 + 2)%nat with (S (S k)) by lia.
    split; [|split; [apply at_spot; exact Hat2 | eapply same_trans; eauto]].
    remember (S fuel) as f1. cbn [string_loop]. rewrite E1. destruct pend.
    + change (34 =? nth 1 [34; 125] 256) with false. change ((0 <? 1)%nat && (34 =? nth (1 - 1) [34; 125] 256) && text_eqb (firstn (1 - 1) [34; 125]) (firstn (1 - 1) (skipn 1 [34; 125])) && negb false) with true. cbn [andb].
      subst f1. cbn [string_loop]. rewrite E2. reflexivity.
    + change ((34 =? nth 0 [34; 125] 256) && negb false) with true. cbn iota. change (0 + 1 =? List.length [34; 125])%nat with false. cbn iota.
      subst f1. cbn [string_loop]. rewrite E2. cbn. rewrite app_nil_r. reflexivity.
  - cbn [app List.length] in E, Hf |- *. destruct fuel as [|fuel]; [lia|]. destruct (lnext_cons _ _ _ _ H E) as (L1 & E1 & Hat & Er & _ & _ & Hs1).
    assert (Hno' : ~ occurs [34; 125] s) by (intros (a & b & Eo); apply Hno; exists (c :: a), b; rewrite Eo; reflexivity).
    assert (R : forall pend' buf', (pend' = true -> hd 0 s <> 125) -> buf' ++ (if pend' then [34] else []) ++ s = buf ++ (if pend then [34] else []) ++ c :: s ->
      exists L', string_loop fuel st [34; 125] false (if pend' : bool then 1 else 0) buf' L1 = Ok (buf ++ (if pend then [34] else []) ++ c :: s, false, L') /\ spot (k + S (List.length s) + 2) L' /\ same L L').
    { intros pend' buf' Hp' <-. destruct (IH Hno' fuel st pend' buf' (S k) L1 r (at_spot _ _ _ Hat) Er ltac:(lia) Hp') as (L' & E' & H' & Hs').
      exists L'. split; [exact E'|]. replace (k + S (List.length s) + 2)%nat with (S k + List.length s + 2)%nat by lia. split; [exact H' | eapply same_trans; eauto]. }
    assert (Hq : c = 34 -> hd 0 s <> 125).
    { intros -> E0. destruct s as [|x s']; [cbn in E0; lia|]. cbn in E0. subst x. apply Hno. exists [], s'. reflexivity. }
    cbn [string_loop]. rewrite E1. destruct pend.
    + cbn [hd] in Hp. change (nth 1 [34; 125] 256) with 125. rewrite (proj2 (N.eqb_neq _ _) (Hp eq_refl)). cbn [andb].
      change ((0 <? 1)%nat) with true. change (nth (1 - 1) [34; 125] 256) with 34. change (text_eqb (firstn (1 - 1) [34; 125]) (firstn (1 - 1) (skipn 1 [34; 125]))) with true. cbn [andb negb]. rewrite !andb_true_r.
      destruct (N.eqb_spec c 34) as [->|N3].
      * apply (R true (buf ++ firstn 1 [34; 125])); [intros _; apply Hq; reflexivity|]. cbn [firstn app]. rewrite <- app_assoc. reflexivity.
      * cbv zeta. rewrite (proj2 (N.eqb_neq _ _) N2), (proj2 (N.eqb_neq _ _) N1). apply (R false ((buf ++ firstn 1 [34; 125]) ++ [c])); [discriminate|]. cbn [firstn app]. rewrite <- !app_assoc. reflexivity.
    + change (nth 0 [34; 125] 256) with 34. cbn [negb]. rewrite andb_true_r. destruct (N.eqb_spec c 34) as [->|N3].
      * change (0 + 1 =? List.length [34; 125])%nat with false. cbn iota. apply (R true buf); [intros _; apply Hq; reflexivity|]. reflexivity.
      * cbn [Nat.ltb Nat.leb andb firstn]. rewrite app_nil_r, (proj2 (N.eqb_neq _ _) N2), (proj2 (N.eqb_neq _ _) N1). apply (R false (buf ++ [c])); [discriminate|]. rewrite <- app_assoc. reflexivity.
  - cbn [app List.length] in E, Hf |- *. destruct fuel as [|[|fuel]]; [lia | lia|]. destruct (lnext_cons _ _ _ _ H E) as (L1 & E1 & Hat & Er & _ & _ & Hs1).
    destruct (lnext_cons _ _ _ _ (at_spot _ _ _ Hat) Er) as (L2 & E2 & Hat2 & Er2 & _ & _ & Hs2).
    assert (Hno' : ~ occurs [34; 125] s) by (intros (a & b & Eo); apply Hno; exists (92 :: c :: a), b; rewrite Eo; reflexivity).
    destruct (IH Hno' fuel st false ((buf ++ (if pend then [34] else [])) ++ [92; c]) (S (S k)) L2 r (at_spot _ _ _ Hat2) Er2 ltac:(lia) ltac:(discriminate)) as (L' & E' & H' & Hs').
    exists L'. split; [|replace (k + S (S (List.length s)) + 2)%nat with (S (S k) + List.length s + 2)%nat by lia; split; [exact H' | eapply same_trans; [eapply same_trans|]; eauto]].
    assert (T : string_loop (S (S fuel)) st [34; 125] false (if pend then 1 else 0) buf L = string_loop (S fuel) st [34; 125] true 0 (buf ++ (if pend then [34] else [])) L1).
    { remember (S fuel) as f1. cbn [string_loop]. rewrite E1. destruct pend; reflexivity. }
    rewrite T. cbn [string_loop]. rewrite E2. cbn [negb]. rewrite !andb_false_r. cbn [andb Nat.ltb Nat.leb firstn]. rewrite (proj2 (N.eqb_neq _ _) N1), (proj2 (N.eqb_neq _ _) N2), app_nil_r. cbn [orb].
    rewrite E'. cbn [app]. rewrite <- !app_assoc. reflexivity.
Qed.

Lemma raw_at : forall bs, ~ In 64 bs -> forall fuel st buf k L r, spot k L -> skipn k content = bs ++ 64 :: r -> (List.length bs < fuel)%nat ->
  exists L', raw_loop fuel st [64] buf L = Ok (buf ++ bs, L') /\ spot (k + List.length bs + 1) L' /\ same L L'.
Proof using Type.
  induction bs as [|c s IH]; intros Hno fuel st buf k L r H E Hf.
  - cbn [app] in E. destruct fuel as [|fuel]; [cbn in Hf; lia|]. destruct (lnext_cons _ _ _ _ H E) as (L1 & E1 & Hat & _ & _ & _ & Hs).
    cbn [raw_loop]. rewrite E1. cbv zeta. assert (T : ends_with [64] (buf ++ [64]) = true) by (unfold ends_with; rewrite rev_app_distr; reflexivity). rewrite T.
    exists L1. split; [|cbn [List.length]; rewrite Nat.add_0_r, Nat.add_1_r; split; [apply at_spot; exact Hat | exact Hs]].
    rewrite app_nil_r, app_length. cbn [List.length]. replace (List.length buf + 1 - 1)%nat with (List.length buf + 0)%nat by lia. rewrite firstn_app_2. cbn [firstn]. rewrite app_nil_r. reflexivity.
  - cbn [app List.length] in E, Hf |- *. destruct fuel as [|fuel]; [lia|]. destruct (lnext_cons _ _ _ _ H E) as (L1 & E1 & Hat & Er & _ & _ & Hs1).
    cbn [raw_loop]. rewrite E1. cbv zeta. assert (T : ends_with [64] (buf ++ [c]) = false).
    { unfold ends_with. rewrite rev_app_distr. cbn [rev app starts_with]. assert ((64 =? c) = false) as -> by (apply N.eqb_neq; intro; subst; apply Hno; left; reflexivity). reflexivity. }
    rewrite T. destruct (IH (fun Hi => Hno (or_intror Hi)) fuel st (buf ++ [c]) (S k) L1 r (at_spot _ _ _ Hat) Er ltac:(lia)) as (L' & E' & H' & Hs').
    exists L'. rewrite E', <- app_assoc. split; [reflexivity|]. replace (k + S (List.length s) + 1)%nat with (S k + List.length s + 1)%nat by lia. split; [exact H' | eapply same_trans; eauto].
Qed.
End READ.

(** ** Characters and bytes *)
Lemma encode_high : forall c, 128 <= c -> Forall (fun b => 128 <= b) (encode_char c).
Proof.
  intros c H. unfold encode_char. destruct (N.ltb_spec c 0x80) as [Hc|Hc]; [lia|].
  repeat (destruct (_ <? _)); repeat constructor; match goal with |- 128 <= ?a + ?b => generalize b; intro; lia end.
Qed.
Lemma encode_cons : forall c s, encode (c :: s) = encode_char c ++ encode s.
Proof. reflexivity. Qed.
Lemma encode_low : forall c, c < 128 -> encode_char c = [c].
Proof. intros c H. unfold encode_char. destruct (N.ltb_spec c 0x80); [reflexivity | lia]. Qed.
Lemma escaped_high : forall q l, Forall (fun b => 128 <= b) q -> escaped l -> escaped (q ++ l).
Proof. induction q as [|b q IH]; intros l H Hl; [exact Hl|]. inversion H; subst. cbn [app]. apply es_plain; [lia | lia | auto]. Qed.
Lemma escaped_encode : forall s, escaped s -> escaped (encode s).
Proof.
  induction 1 as [|c s N1 N2 Hs IH|c s N1 N2 Hs IH]; [constructor| |].
  - rewrite encode_cons. destruct (N.lt_ge_cases c 128) as [Hc|Hc]; [rewrite (encode_low _ Hc); cbn [app]; apply es_plain; assumption | apply escaped_high; [apply encode_high; exact Hc | exact IH]].
  - rewrite encode_cons, (encode_low 92) by lia. cbn [app]. rewrite encode_cons. destruct (N.lt_ge_cases c 128) as [Hc|Hc]; [rewrite (encode_low _ Hc); cbn [app]; apply es_esc; assumption|].
    pose proof (encode_high _ Hc) as HF. destruct (encode_char_nonempty c) as (b & q & Eq). rewrite Eq in *. inversion HF; subst. cbn [app]. apply es_esc; [lia | lia|]. apply escaped_high; assumption.
Qed.
Lemma in_encode : forall b s, b < 128 -> In b (encode s) -> In b s.
Proof.
  intros b s Hb. induction s as [|c s IH]; [auto|]. rewrite encode_cons, in_app_iff. intros [H|H]; [|right; auto].
  destruct (N.lt_ge_cases c 128) as [Hc|Hc]; [rewrite (encode_low _ Hc) in H; destruct H as [->|[]]; left; reflexivity|].
  pose proof (encode_high _ Hc) as HF. rewrite Forall_forall in HF. specialize (HF _ H). lia.
Qed.
Lemma contains_high : forall x p q l, x < 128 -> Forall (fun b => 128 <= b) q -> contains (x :: p) (q ++ l) = contains (x :: p) l.
Proof.
  intros x p q l Hx. induction q as [|b q IH]; intro H; [reflexivity|]. inversion H as [|? ? Hb Hq]; subst. cbn [app contains starts_with].
  assert ((x =? b) = false) as -> by (apply N.eqb_neq; lia). cbn [andb orb]. apply IH. exact Hq.
Qed.
Lemma starts_encode : forall x s, x < 128 -> starts_with [x] (encode s) = starts_with [x] s.
Proof.
  intros x [|c s] Hx; [reflexivity|]. rewrite encode_cons. destruct (N.lt_ge_cases c 128) as [Hc|Hc]; [rewrite (encode_low _ Hc); reflexivity|].
  pose proof (encode_high _ Hc) as HF. destruct (encode_char_nonempty c) as (b & q & Eq). rewrite Eq in *. inversion HF; subst. cbn [app starts_with].
  assert ((x =? b) = false) as -> by (apply N.eqb_neq; lia). assert ((x =? c) = false) as -> by (apply N.eqb_neq; lia). reflexivity.
Qed.
Lemma contains_encode2 : forall x y s, x < 128 -> y < 128 -> contains [x; y] (encode s) = contains [x; y] s.
Proof.
  intros x y s Hx Hy. induction s as [|c s IH]; [reflexivity|]. rewrite encode_cons. destruct (N.lt_ge_cases c 128) as [Hc|Hc].
  - rewrite (encode_low _ Hc). cbn [app contains starts_with]. rewrite IH. f_equal. f_equal.
    pose proof (starts_encode y s Hy) as E. exact E.
  - rewrite contains_high by (try exact Hx; apply encode_high; exact Hc). rewrite IH. cbn [contains starts_with]. assert ((x =? c) = false) as -> by (apply N.eqb_neq; lia). reflexivity.
Qed.

(** ** C12 *)
Lemma lnext_dir : forall L, dir L <> DStringy -> dir (snd (lnext L)) <> DStringy.
Proof.
  intros L H. unfold lnext. destruct (pending L); [exact H|]. destruct (step (inp L)) as [r t]. cbn [snd dir]. destruct (_ <? _); [discriminate | exact H].
Qed.
Lemma close_stage_other : forall p L, close p = p -> close_stage (Some p) L = Ok (Some p, L).
Proof.
  intros p L E. unfold close_stage. destruct (close_allowed L); [|reflexivity]. unfold check_close. rewrite E. destruct (punct_eq_dec p p) as [_|Hne]; [reflexivity | congruence].
Qed.
Lemma first_symbols : forall b w p, spells (b :: w) p -> In (b :: w, p) (items_of [b]).
Proof. intros b w p H. apply symbols_spec in H. change (b :: w) with ([b] ++ w) in *. apply in_items. exact H. Qed.
Lemma items34 : items_of [34] = [([34], PDoubleQuote)]. Proof. vm_compute. reflexivity. Qed.
Lemma items123 : items_of [123] = [([123], PLBrace); ([123; 34], PBlockString)]. Proof. vm_compute. reflexivity. Qed.
Lemma items64 : items_of [64] = []. Proof. vm_compute. reflexivity. Qed.

Lemma punct_double : forall content k L r, at_ content (S k) L -> skipn k content = 34 :: r -> nth_error content k = Some 34 ->
  exists L2, read_punct 34 L = Ok (Some PDoubleQuote, L2) /\ spot content (k + 1) L2 /\ same L L2.
Proof.
  intros content k L r Hat E Hn. destruct (read_punct_spec content k 34 L Hn Hat) as [(p & w & L2 & E2 & (H1 & (q & Eq) & _) & H2 & Hs)|(_ & Hno)].
  - rewrite E in Eq. destruct w as [|x w]; [destruct (symbols_nonempty [] p); [apply symbols_spec; exact H1 | reflexivity]|]. injection Eq as <- Eq. apply first_symbols in H1. rewrite items34 in H1. destruct H1 as [H1|[]]. injection H1 as <- <-. exists L2. auto.
  - exfalso. apply (Hno [34] PDoubleQuote); [split; [unfold PUNCT_TABLE; cbn; tauto | discriminate] | exists r; exact E].
Qed.
Lemma spells_block : spells [123; 34] PBlockString.
Proof. apply symbols_spec. assert (H : In ([123; 34], PBlockString) (items_of [123])) by (rewrite items123; right; left; reflexivity). apply in_items_of in H. apply H. Qed.
Lemma punct_block : forall content k L r, at_ content (S k) L -> skipn k content = 123 :: 34 :: r -> nth_error content k = Some 123 ->
  exists L2, read_punct 123 L = Ok (Some PBlockString, L2) /\ spot content (k + 2) L2 /\ same L L2.
Proof.
  intros content k L r Hat E Hn. destruct (read_punct_spec content k 123 L Hn Hat) as [(p & w & L2 & E2 & (H1 & (q & Eq) & H3) & H2 & Hs)|(_ & Hno)].
  - rewrite E in *. destruct w as [|x w]; [destruct (symbols_nonempty [] p); [apply symbols_spec; exact H1 | reflexivity]|]. injection Eq as <- Eq.
    specialize (H3 [123; 34] PBlockString spells_block (ex_intro _ r eq_refl)). apply first_symbols in H1. rewrite items123 in H1. destruct H1 as [H1|[H1|[]]].
    + injection H1 as <- <-. cbn in H3. lia.
    + injection H1 as <- <-. exists L2. auto.
  - exfalso. apply (Hno [123; 34] PBlockString spells_block). exists r. exact E.
Qed.
Lemma punct_at : forall content k L r, at_ content (S k) L -> skipn k content = 64 :: r -> nth_error content k = Some 64 -> read_punct 64 L = Ok (None, L).
Proof.
  intros content k L r Hat E Hn. destruct (read_punct_spec content k 64 L Hn Hat) as [(p & w & L2 & E2 & (H1 & (q & Eq) & _) & _)|(E2 & _)]; [|exact E2].
  rewrite E in Eq. destruct w as [|x w]; [destruct (symbols_nonempty [] p); [apply symbols_spec; exact H1 | reflexivity]|]. injection Eq as <- Eq. apply first_symbols in H1. rewrite items64 in H1. destruct H1.
Qed.
Lemma skip_more : forall (content : list byte) k a b, skipn k content = a ++ b -> skipn (k + List.length a) content = b.
Proof. intros content k a b E. rewrite <- skipn_skip, E. rewrite skipn_app, skipn_all, Nat.sub_diag. reflexivity. Qed.

Section TOKEN.
Variable F : Type.
Variable parse_f32 : text -> option F.
Variable show_f32 : F -> text.
Variable f32_zero : F.
Notation token_next := (token_next F parse_f32 show_f32 f32_zero).

(** one punctuation that opens a literal *)
Lemma open_token : forall content k L b r, spot content k L -> dir L <> DStringy -> skipn k content = b :: r -> b <> 13 -> b <> 32 -> b <> 9 -> b <> 10 ->
  exists fuel L1, at_ content (S k) L1 /\ nth_error content k = Some b /\ same L L1 /\ location L1 = place (firstn k content) /\
    token_next L = (do (p0, L2) <- read_punct b L1; do (p, L3) <- close_stage p0 L2;
                    dispatch F parse_f32 show_f32 f32_zero (token_loop F parse_f32 show_f32 f32_zero fuel) b (location L1) false p L3).
Proof using Type.
  intros content k L b r H Hd E N1 N2 N3 N4. destruct (lnext_cons content k L b r H E) as (L1 & E1 & Hat & _ & Hn & Hl & Hs).
  exists (S (List.length (bytes L))), L1. split; [exact Hat|]. split; [exact Hn|]. split; [exact Hs|]. split; [exact Hl|].
  unfold Model.token_next. change (fuel_of L) with (S (S (List.length (bytes L)))). remember (S (List.length (bytes L))) as f eqn:Ef. cbn [token_loop].
  unfold skip_ws. assert (E2 : fuel_of L = S f) by (unfold fuel_of; rewrite Ef; reflexivity). rewrite E2. cbn [ws_loop]. rewrite E1.
  rewrite (proj2 (N.eqb_neq _ _) N1), (proj2 (N.eqb_neq _ _) N2), (proj2 (N.eqb_neq _ _) N3), (proj2 (N.eqb_neq _ _) N4). cbn [orb andb bind].
  pose proof (lnext_dir L Hd) as Hd1. rewrite E1 in Hd1. cbn [snd] in Hd1. destruct (dir L1); [reflexivity | reflexivity | reflexivity | congruence].
Qed.
Lemma requote : forall content k L s r, spot content k L -> dir L <> DStringy -> Forall scalar s ->
  (occurs [34; 125] s -> ~ In 64 s) -> (~ occurs [34; 125] s -> escaped s) -> skipn k content = encode (quote s) ++ r ->
  exists L', token_next L = Ok (Some (place (firstn k content), TString F s), L') /\ spot content (k + List.length (encode (quote s))) L' /\ same L L'.
Proof using Type.
  intros content k L s r H Hd Hsc H64 Hes E. unfold quote in E |- *.
  assert (Hdec : from_utf8_or_latin1 (encode s) = s) by (unfold from_utf8_or_latin1; rewrite decode_encode by exact Hsc; reflexivity).
  destruct (contains [34; 125] s) eqn:C1.
  - apply contains_iff in C1. specialize (H64 C1). clear Hes. rewrite !encode_app in E. rewrite (encode_ascii [64; 64]) in E by (repeat constructor). rewrite (encode_ascii [64]) in E by (repeat constructor).
    rewrite <- !app_assoc in E. cbn [app] in E.
    destruct (open_token content k L 64 _ H Hd E) as (fuel & L1 & Hat & Hn & Hs1 & Hl & ->); try discriminate.
    rewrite (punct_at content k L1 _ Hat E Hn). cbn [bind]. unfold close_stage. assert (Ec : forall b : bool, (if b then Ok (None, L1) else Ok (None, L1)) = Ok (@None punct, L1)) by (intros []; reflexivity). rewrite Ec. cbn [bind].
    unfold dispatch. change (is_digit 64) with false. change (is_ident_byte 64) with false. change (64 =? 92) with false. change (64 =? 64) with true. cbn iota.
    assert (E1 : skipn (S k) content = 64 :: encode s ++ 64 :: r) by (rewrite <- Nat.add_1_r; change 1%nat with (List.length [64]); apply skip_more; exact E).
    destruct (lnext_cons content (S k) L1 _ _ (at_spot _ _ _ Hat) E1) as (L2 & E2 & Hat2 & Er2 & _ & _ & Hs2).
    unfold read_raw_string. rewrite E2. change (64 =? 10) with false. change (64 =? 40) with false. change (64 =? 123) with false. cbn iota. unfold read_raw_string_inner.
    destruct (raw_at content (encode s) (fun Hi => H64 (in_encode 64 s ltac:(lia) Hi)) (fuel_of L2) (location L2) [] (S (S k)) L2 r (at_spot _ _ _ Hat2) Er2) as (L3 & E3 & H3 & Hs3).
    { rewrite (spot_fuel content (S (S k))) by (apply at_spot; exact Hat2). apply (f_equal (@List.length byte)) in Er2. rewrite skipn_length, app_length in Er2. cbn [List.length] in Er2. lia. }
    rewrite E3. cbn [bind app]. exists L3. rewrite Hdec, Hl. split; [reflexivity|]. split; [|unfold same in *; intuition congruence].
    rewrite ?encode_cons, !encode_app, !app_length. match goal with H3 : spot content ?n L3 |- spot content ?m L3 => replace m with n; [exact H3|cbn; lia] end.
  - assert (Hno : ~ occurs [34; 125] s) by (rewrite <- contains_iff, C1; discriminate). specialize (Hes Hno). pose proof (escaped_encode _ Hes) as Hee.
    destruct (contains [34] s || contains [10] s) eqn:C2.
    + rewrite !encode_app in E. rewrite (encode_ascii [123; 34]) in E by (repeat constructor). rewrite (encode_ascii [34; 125]) in E by (repeat constructor). rewrite <- !app_assoc in E. cbn [app] in E.
      destruct (open_token content k L 123 _ H Hd E) as (fuel & L1 & Hat & Hn & Hs1 & Hl & ->); try discriminate.
      destruct (punct_block content k L1 _ Hat E Hn) as (L2 & -> & H2 & Hs2). cbn [bind]. rewrite close_stage_other by reflexivity. cbn [bind]. unfold dispatch.
      assert (E2 : skipn (k + 2) content = encode s ++ 34 :: 125 :: r) by (change 2%nat with (List.length [123; 34]); apply skip_more; exact E).
      unfold read_string. destruct (string_block content (encode s) Hee) with (fuel := fuel_of L2) (st := location L2) (pend := false) (buf := @nil N) (k := (k + 2)%nat) (L := L2) (r := r) as (L3 & E3 & H3 & Hs3);
        [rewrite <- contains_iff, contains_encode2 by lia; rewrite C1; discriminate | exact H2 | exact E2 | | discriminate |].
      { rewrite (spot_fuel content (k + 2)) by exact H2. apply (f_equal (@List.length byte)) in E2. rewrite skipn_length, app_length in E2. cbn [List.length] in E2. lia. }
      rewrite E3. cbn [bind app]. exists L3. rewrite Hdec, Hl. split; [reflexivity|]. split; [|unfold same in *; intuition congruence].
    rewrite ?encode_cons, !encode_app, !app_length. match goal with H3 : spot content ?n L3 |- spot content ?m L3 => replace m with n; [exact H3|cbn; lia] end.
    + rewrite !encode_app in E. rewrite (encode_ascii [34]) in E by (repeat constructor). rewrite <- !app_assoc in E. cbn [app] in E.
      destruct (open_token content k L 34 _ H Hd E) as (fuel & L1 & Hat & Hn & Hs1 & Hl & ->); try discriminate.
      destruct (punct_double content k L1 _ Hat E Hn) as (L2 & -> & H2 & Hs2). cbn [bind]. rewrite close_stage_other by reflexivity. cbn [bind]. unfold dispatch.
      assert (E2 : skipn (k + 1) content = encode s ++ 34 :: r) by (change 1%nat with (List.length [34]); apply skip_more; exact E).
      assert (H34 : ~ In 34 (encode s)).
      { intro Hi. apply in_encode in Hi; [|lia]. apply in_split in Hi. destruct Hi as (a & b & Es). assert (Ec : contains [34] s = true) by (apply contains_iff; exists a, b; exact Es). rewrite Ec in C2. discriminate. }
      unfold read_string. destruct (string_double content (encode s) Hee H34 (fuel_of L2) (location L2) [] (k + 1)%nat L2 r H2 E2) as (L3 & E3 & H3 & Hs3).
      { rewrite (spot_fuel content (k + 1)) by exact H2. apply (f_equal (@List.length byte)) in E2. rewrite skipn_length, app_length in E2. cbn [List.length] in E2. lia. }
      rewrite E3. cbn [bind app]. exists L3. rewrite Hdec, Hl. split; [reflexivity|]. split; [|unfold same in *; intuition congruence].
    rewrite ?encode_cons, !encode_app, !app_length. match goal with H3 : spot content ?n L3 |- spot content ?m L3 => replace m with n; [exact H3|cbn; lia] end.
Qed.
(** In any state the lexer can be in, except in the text of #warn and #error: if what follows is the quoted form of a string whose
    escapes are complete, the next token is that string, right behind it lexing goes on, and nothing is reported.  A string that
    contains a quote and brace needs no complete escapes, but must be without at signs. *)
Theorem C12_requote : forall content k L s r, spot content k L -> dir L <> DStringy -> Forall scalar s ->
  (occurs [34; 125] s -> ~ In 64 s) -> (~ occurs [34; 125] s -> escaped s) -> skipn k content = encode (quote s) ++ r ->
  exists L', token_next L = Ok (Some (place (firstn k content), TString F s), L') /\ bytes L' = r /\ errs L' = errs L.
Proof using Type.
  intros content k L s r H Hd Hsc H64 Hes E. destruct (requote content k L s r H Hd Hsc H64 Hes E) as (L' & E1 & H' & Hs).
  exists L'. split; [exact E1|]. split; [|apply Hs]. rewrite (spot_bytes _ _ _ H'). apply skip_more. exact E.
Qed.
End TOKEN.

(** ** Strings that were lexed have complete escapes *)
Lemma escaped_app : forall a b, escaped a -> escaped b -> escaped (a ++ b).
Proof. intros a b Ha Hb. induction Ha; cbn [app]; [exact Hb | apply es_plain; assumption | apply es_esc; assumption]. Qed.
Lemma escaped_strip : forall q l, Forall (fun b => 128 <= b) q -> escaped (q ++ l) -> escaped l.
Proof.
  induction q as [|b q IH]; intros l H Hl; [exact Hl|]. inversion H as [|? ? Hb Hq]; subst. cbn [app] in Hl. inversion Hl as [|c s N1 N2 Hs|c s N1 N2 Hs]; subst; [auto | lia].
Qed.
Lemma decode_char_shape : forall b0 r0 c r, decode_char (b0 :: r0) = Some (c, r) ->
  (b0 < 128 /\ c = b0 /\ r = r0) \/ (128 <= b0 /\ 128 <= c /\ exists q, r0 = q ++ r /\ Forall (fun b => 128 <= b) q).
Proof.
  intros b0 r0 c r H. cbn [decode_char] in H. destruct (N.ltb_spec b0 0x80) as [H0|H0]; [injection H as <- <-; auto|].
  assert (CB : forall b, cont b = true -> 128 <= b) by (intros b E; unfold cont in E; apply andb_true_iff in E; rewrite !N.leb_le in E; lia).
  right. split; [lia|]. destruct (N.ltb_spec b0 0xC2) as [H1|H1]; [discriminate|]. destruct (N.ltb_spec b0 0xE0) as [H2|H2].
  - destruct r0 as [|b1 r1]; [discriminate|]. destruct (cont b1) eqn:E1; [|discriminate]. pose proof (CB _ E1).
    assert (Ec : c = (b0 - 0xC0) * 64 + (b1 - 0x80)) by congruence. assert (Er : r = r1) by congruence. subst. split; [lia|]. exists [b1]. split; [reflexivity | repeat constructor; assumption].
  - destruct (N.ltb_spec b0 0xF0) as [H3|H3].
    + destruct r0 as [|b1 [|b2 r1]]; try discriminate. cbv zeta in H. set (v := (b0 - 0xE0) * 4096 + (b1 - 0x80) * 64 + (b2 - 0x80)) in *. clearbody v.
      destruct (cont b1 && cont b2 && (0x800 <=? v) && _) eqn:E; [|discriminate]. apply andb_true_iff in E. destruct E as [E _]. rewrite !andb_true_iff, N.leb_le in E. destruct E as [[E1 E2] E3].
      assert (Ec : c = v) by congruence. assert (Er : r = r1) by congruence. subst. split; [lia|]. exists [b1; b2]. split; [reflexivity | repeat constructor; auto].
    + destruct (N.ltb_spec b0 0xF5) as [H4|H4]; [|discriminate]. destruct r0 as [|b1 [|b2 [|b3 r1]]]; try discriminate. cbv zeta in H.
      set (v := (b0 - 0xF0) * 262144 + (b1 - 0x80) * 4096 + (b2 - 0x80) * 64 + (b3 - 0x80)) in *. clearbody v.
      destruct (cont b1 && cont b2 && cont b3 && (0x10000 <=? v) && _) eqn:E; [|discriminate]. apply andb_true_iff in E. destruct E as [E _]. rewrite !andb_true_iff, N.leb_le in E. destruct E as [[[E1 E2] E3] E4].
      assert (Ec : c = v) by congruence. assert (Er : r = r1) by congruence. subst. split; [lia|]. exists [b1; b2; b3]. split; [reflexivity | repeat constructor; auto].
Qed.
Lemma decode_fuel_cons : forall f b s t, decode_fuel (S f) (b :: s) = Some t -> exists c r t', decode_char (b :: s) = Some (c, r) /\ decode_fuel f r = Some t' /\ t = c :: t'.
Proof.
  intros f b s t H. cbn [decode_fuel] in H. destruct (decode_char (b :: s)) as [[c r]|]; [|discriminate]. destruct (decode_fuel f r) as [t'|] eqn:E; [|discriminate]. injection H as <-. eauto 6.
Qed.
Lemma escaped_decode : forall fuel bs t, escaped bs -> decode_fuel fuel bs = Some t -> escaped t.
Proof.
  induction fuel as [fuel IH] using (well_founded_induction lt_wf). intros bs t He Hd. inversion He as [|c s N1 N2 Hs|c s N1 N2 Hs]; subst.
  - destruct fuel; injection Hd as <-; constructor.
  - destruct fuel as [|f]; [discriminate|]. apply decode_fuel_cons in Hd. destruct Hd as (c' & r & t' & E1 & E2 & ->).
    destruct (decode_char_shape _ _ _ _ E1) as [(H1 & -> & ->)|(H1 & H2 & q & -> & Hq)].
    + apply es_plain; [assumption | assumption|]. eapply (IH f); [lia | exact Hs | exact E2].
    + apply es_plain; [lia | lia|]. eapply (IH f); [lia | eapply escaped_strip; eauto | exact E2].
  - destruct fuel as [|f]; [discriminate|]. apply decode_fuel_cons in Hd. destruct Hd as (c' & r & t' & E1 & E2 & ->).
    destruct (decode_char_shape _ _ _ _ E1) as [(H1 & -> & ->)|(H1 & _)]; [|lia].
    destruct f as [|f]; [discriminate|]. apply decode_fuel_cons in E2. destruct E2 as (c2 & r2 & t2 & E3 & E4 & ->).
    destruct (decode_char_shape _ _ _ _ E3) as [(H3 & -> & ->)|(H3 & H4 & q & -> & Hq)].
    + apply es_esc; [assumption | assumption|]. eapply (IH f); [lia | exact Hs | exact E4].
    + apply es_esc; [lia | lia|]. eapply (IH f); [lia | eapply escaped_strip; eauto | exact E4].
Qed.
Definition plain_end (end_ : list byte) : Prop := Forall (fun b => b <> 92 /\ b <> 91) end_.
Lemma plain_firstn : forall n end_, plain_end end_ -> escaped (firstn n end_).
Proof. induction n as [|n IH]; intros [|b e] H; cbn [firstn]; try constructor; inversion H as [|? ? [H1 H2] H3]; subst; [assumption | assumption | apply IH; exact H3]. Qed.
Lemma string_loop_escaped : forall fuel st end_ bs idx buf L buf' op L', plain_end end_ -> escaped buf -> string_loop fuel st end_ bs idx buf L = Ok (buf', op, L') -> escaped buf'.
Proof.
  induction fuel as [|fuel IH]; intros st end_ bs idx buf L buf' op L' He Hb E; [discriminate|]. cbn [string_loop] in E. destruct (lnext L) as [[ch|] L1]; [|injection E as <- _ _; exact Hb].
  destruct ((ch =? nth idx end_ 256) && negb bs); [destruct (_ =? _)%nat; [injection E as <- _ _; exact Hb | eapply IH; eauto]|].
  destruct ((0 <? idx)%nat && (ch =? nth (idx - 1) end_ 256) && _ && negb bs); [eapply IH; [exact He | | exact E]; apply escaped_app; [exact Hb | apply plain_firstn; exact He]|].
  cbv zeta in E. assert (Hb2 : escaped (buf ++ firstn idx end_)) by (apply escaped_app; [exact Hb | apply plain_firstn; exact He]).
  destruct bs.
  - destruct (N.eqb_spec ch 13) as [->|N1]; [|destruct (N.eqb_spec ch 10) as [->|N2]]; cbn [orb] in E.
    + unfold bind in E. destruct (skip_ws true L1) as [[n L2]| |]; try discriminate. destruct (put_back n L2) as [L3| |]; try discriminate. eapply IH; eauto.
    + unfold bind in E. destruct (skip_ws true L1) as [[n L2]| |]; try discriminate. destruct (put_back n L2) as [L3| |]; try discriminate. eapply IH; eauto.
    + eapply IH; [exact He | | exact E]. apply escaped_app; [exact Hb2|]. apply es_esc; [exact N1 | exact N2 | constructor].
  - destruct (N.eqb_spec ch 91) as [->|N1]; [injection E as <- _ _; exact Hb2|]. destruct (N.eqb_spec ch 92) as [->|N2]; [eapply IH; eauto|].
    eapply IH; [exact He | | exact E]. apply escaped_app; [exact Hb2|]. apply es_plain; [exact N2 | exact N1 | constructor].
Qed.
(** The text of every literal read between quotes, of an interpolation part and of a #warn directive has complete escapes. *)
Theorem C12_lexed : forall F end_ ic L t L', In end_ [[34]; [34; 125]; [10]] -> read_string F end_ ic L = Ok (t, L') ->
  exists s, In t [TString F s; TInterpBegin F s; TInterpPart F s; TInterpEnd F s] /\ escaped s.
Proof.
  intros F end_ ic L t L' He E. unfold read_string, bind in E. destruct (string_loop _ _ _ _ _ _ _) as [[[buf op] L1]| |] eqn:Es; try discriminate. injection E as <- _.
  assert (Hp : plain_end end_) by (destruct He as [<-|[<-|[<-|[]]]]; repeat constructor; discriminate).
  pose proof (string_loop_escaped _ _ _ _ _ _ _ _ _ _ Hp es_nil Es) as Hb. exists (from_utf8_or_latin1 buf). split; [destruct op, ic; cbn; auto|].
  unfold from_utf8_or_latin1. destruct (decode buf) as [u|] eqn:Ed; [eapply escaped_decode; eauto | exact Hb].
Qed.
(** Without the condition it fails: a string with quote, brace and at sign ... *)
Theorem C12_at_sign_refuted : exists s, escaped s /\
  match lex unit (fun _ => Some tt) (fun _ => []) tt (encode (quote s)) with Ok (ts, _) => map snd ts <> [TString unit s; TPunct unit PNewline] | _ => False end.
Proof. exists (lit "a@b" ++ [92; 34; 125]). split; [repeat (apply es_plain; [discriminate | discriminate|]); apply es_esc; [discriminate | discriminate|]; repeat (apply es_plain; [discriminate | discriminate|]); constructor | vm_compute; discriminate]. Qed.
(** ... and a raw string that ends in a backslash. *)
Theorem C12_raw_refuted : exists s,
  match lex unit (fun _ => Some tt) (fun _ => []) tt ([64; 64] ++ s ++ [64]) with Ok (ts, _) => map snd ts = [TString unit s; TPunct unit PNewline] | _ => False end /\
  match lex unit (fun _ => Some tt) (fun _ => []) tt (encode (quote s)) with Ok (ts, _) => map snd ts <> [TString unit s; TPunct unit PNewline] | _ => False end.
Proof. exists [97; 92]. split; vm_compute; [reflexivity | discriminate]. Qed.
Example C12_demo : exists ts, option_map (map snd) (match lex unit (fun _ => Some tt) (fun _ => []) tt (encode (quote (lit "say " ++ [34; 233; 34] ++ lit " \n"))) with Ok p => Some (fst p) | _ => None end) = Some ts /\
  ts = [TString unit (lit "say " ++ [34; 233; 34] ++ lit " \n"); TPunct unit PNewline].
Proof. eexists. split; vm_compute; reflexivity. Qed.
Print Assumptions C12_requote.
Print Assumptions C12_lexed.
