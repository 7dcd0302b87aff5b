(** Lexing a whole text: from its spelling to the tokens that [evaluate_str] parses. *)
From Coq Require Import List NArith ZArith Bool String Lia.
From Verif Require Import Common.Text Common.Utf8 Loc.Model Lexer.Tracker Lexer.Punct Lexer.Model Lexer.Spec Lexer.Facts Lexer.PunctProps
  Lexer.CommentProps Lexer.LexProps Lexer.QuoteProps Const.Model Const.Spec Const.Dir Const.Lexing.
Import ListNotations.
Open Scope N_scope.

Section TEXT.
Variable F : Type.
Variable fl : f32 F.
Notation token := (token F).
Notation P p := (TPunct F p).
Notation token_next := (token_next F (f_parse F fl) (f_show F fl) (f_zero F fl)).
Notation token_loop := (token_loop F (f_parse F fl) (f_show F fl) (f_zero F fl)).
Notation trace := (trace F fl).
Notation lexeme := (lexeme F fl).
Notation spelt := (spelt F fl).

(** ** A lexeme is read as its token *)
Ltac sign :=
  match goal with
  | |- forall d w' q, spells _ q -> _ => let H := fresh in intros ? ? ? H; apply first_symbols in H; vm_compute in H; cbn [In] in H
  | |- forall _ _ _ _ _ _ _ _ _, _ => intros; (left; reflexivity) || (right; reflexivity)
  | |- spells _ _ => split; [unfold PUNCT_TABLE; cbn; tauto|discriminate]
  | |- _ = _ => reflexivity
  | |- _ <> _ => discriminate
  end.
Ltac longer := repeat match goal with H : _ \/ _ |- _ => destruct H as [H|H] | H : False |- _ => destruct H | H : (_, _) = (_, _) |- _ => try discriminate H; injection H; clear H; intros; subst end.
Lemma lexeme_reads content w t r k L : lexeme w t r -> here content k L -> skipn k content = w ++ r ->
  exists loc L', token_next L = Ok (Some (loc, t), L') /\ here content (k + List.length w) L'.
Proof using Type.
  intros Hx H E. destruct Hx as [c p r Hin|r Hr|r Hr|r Hr|r Hr|w r Hn Hr|s r Hs|s r Hs|w r H1 H2 H3 H4 H5|w r v H1 H2 H3].
  - cbn in Hin. longer; (eapply read_sign; [exact H|exact E|..]; try sign; longer; congruence).
  - eapply read_sign; [exact H|exact E|..]; try sign. longer; try congruence. intro Q. destruct r as [|b r]; cbn in Q, Hr; [congruence|]. unfold ident_byte in Hr. lia.
  - eapply read_sign; [exact H|exact E|..]; try sign. longer; try congruence. intro Q. destruct r as [|b r]; cbn in Q, Hr; congruence.
  - eapply read_sign; [exact H|exact E|..]; try sign. longer; try congruence; intro Q; destruct r as [|b r]; cbn in Q, Hr; try congruence; unfold ident_byte in Hr; lia.
  - eapply read_sign; [exact H|exact E|..]; try sign. longer; try congruence; intro Q; destruct r as [|b r]; cbn in Q, Hr; try congruence; unfold digit in Hr; lia.
  - eapply read_name; eassumption.
  - eapply read_str; eassumption.
  - eapply read_res; eassumption.
  - eapply read_int; eassumption.
  - eapply read_float; eassumption.
Qed.

(** ** A space in front of it *)
Lemma dispatch_mono (again again' : bool -> bool -> lexer -> res (option ((N * N) * token) * lexer)) first loc fi p L3 x :
  (forall a b L y, again a b L = Ok y -> again' a b L = Ok y) ->
  dispatch F (f_parse F fl) (f_show F fl) (f_zero F fl) again first loc fi p L3 = Ok x -> dispatch F (f_parse F fl) (f_show F fl) (f_zero F fl) again' first loc fi p L3 = Ok x.
Proof using Type.
  intros Hm. unfold dispatch. destruct p as [p|].
  - destruct p; try exact (fun Q => Q).
    all: match goal with |- bind ?x _ = _ -> _ => destruct x as [[[y|] L4]| |]; cbn [bind]; auto end.
  - destruct (is_digit first); [exact (fun Q => Q)|]. destruct (is_ident_byte first); [exact (fun Q => Q)|]. destruct (first =? 92); [apply Hm|]. destruct (first =? 64); [exact (fun Q => Q)|]. apply Hm.
Qed.
Lemma token_mono : forall f sn fi L x, token_loop f sn fi L = Ok x -> token_loop (S f) sn fi L = Ok x.
Proof using Type.
  induction f as [|f IH]; intros sn fi L x E; [discriminate|]. cbn [Lexer.Model.token_loop] in E. remember (S f) as g eqn:Hg. cbn [Lexer.Model.token_loop].
  destruct (skip_ws sn L) as [[c L1]| |]; cbn [bind] in E |- *; try discriminate. destruct c as [first|]; [|exact E].
  assert (Hb : forall (h : punct -> bool), (do (p0, L2) <- read_punct first L1; do (p, L3) <- close_stage p0 L2; dispatch F (f_parse F fl) (f_show F fl) (f_zero F fl) (token_loop f) first (location L1) fi p L3) = Ok x ->
    (do (p0, L2) <- read_punct first L1; do (p, L3) <- close_stage p0 L2; dispatch F (f_parse F fl) (f_show F fl) (f_zero F fl) (token_loop g) first (location L1) fi p L3) = Ok x).
  { intros _. destruct (read_punct first L1) as [[p0 L2]| |]; cbn [bind]; try discriminate. destruct (close_stage p0 L2) as [[p L3]| |]; cbn [bind]; try discriminate.
    apply dispatch_mono. intros a b L0 y Hy. apply IH. exact Hy. }
  destruct (dir L1); try (apply (Hb (fun _ => true)); exact E). exact E.
Qed.

(** the byte before [k] is neither a blank nor a newline *)
Definition inked (content : list N) (k : nat) : Prop := exists l c, firstn k content = l ++ [c] /\ blank c = false /\ c <> NL.
Lemma skip_space content k L r : here content k L -> skipn k content = 32 :: r -> inked content k ->
  exists L2, here content (k + 1) L2 /\ forall x, token_next L2 = Ok x -> token_next L = Ok x.
Proof using Type.
  intros H E (l & c & El & Hc & Hnl). destruct (lnext_cons content k L 32 r (proj1 H) E) as (L1 & E1 & Hat & Er & Hn & Hl & Hs).
  assert (Hhead : at_line_head L1 = false).
  { destruct Hat as (_ & _ & _ & ->). rewrite (firstn_S_nth _ _ _ Hn), head_of_snoc, El, last_line_snoc. destruct (N.eqb_spec c NL); [congruence|].
    rewrite forallb_app. cbn [forallb]. rewrite Hc. cbn [andb]. rewrite andb_false_r. reflexivity. }
  exists (set_close false L1). rewrite Nat.add_1_r. assert (Hsp : spot content (S k) (set_close false L1)) by (eapply spot_inp; [apply at_spot; exact Hat|reflexivity..]).
  split.
  - split; [exact Hsp|]. destruct H as (_ & Hd & Hst & Hf). destruct Hs as (S1 & S2 & _). split; [cbn; eapply lnext_quiet; eassumption|]. cbn. split; congruence.
  - intros x. unfold Lexer.Model.token_next. pose proof (spot_fuel content _ _ (proj1 H)) as F1. pose proof (spot_fuel content _ _ Hsp) as F2.
    pose proof (nth_lt _ _ _ Hn) as Hk. replace (List.length content - k)%nat with (S (List.length content - S k)) in F1 by lia.
    intro Q. apply token_mono in Q. rewrite <- Q. rewrite F2, F1. remember (S (S (List.length content - S k))) as f eqn:Hf. cbn [Lexer.Model.token_loop]. unfold skip_ws. rewrite F1, F2. cbn [ws_loop]. rewrite E1.
    change (32 =? 13) with false. change (32 =? 32) with true. cbn [orb andb]. rewrite Hhead. cbn [negb orb]. reflexivity.
Qed.
Lemma lexeme_last w t r : lexeme w t r -> exists l c, w = l ++ [c] /\ blank c = false /\ c <> NL.
Proof using Type.
  assert (Hdig : forall l, l <> [] -> Forall digit l -> exists l' c, l = l' ++ [c] /\ blank c = false /\ c <> NL).
  { intros l Hl HF. destruct (exists_last Hl) as (l' & c & ->). exists l', c. apply Forall_app in HF. destruct HF as [_ HF]. inversion HF as [|? ? Hc _]; subst. unfold digit, blank, NL in *.
    split; [reflexivity|]. split; [apply orb_false_iff; split; apply N.eqb_neq; lia|lia]. }
  assert (Hadd : forall a l : list N, (exists l' c, l = l' ++ [c] /\ blank c = false /\ c <> NL) -> exists l' c, a ++ l = l' ++ [c] /\ blank c = false /\ c <> NL).
  { intros a l (l' & c & -> & Hc). exists (a ++ l'), c. rewrite app_assoc. auto. }
  assert (Hone : forall c : N, blank c = false -> c <> NL -> exists l' c0, [c] = l' ++ [c0] /\ blank c0 = false /\ c0 <> NL) by (intros c H1 H2; exists [], c; auto).
  intros Hx. destruct Hx as [c p r Hin|r Hr|r Hr|r Hr|r Hr|w r Hn Hr|s r Hs|s r Hs|w r H1 H2 H3 H4 H5|w r v H1 H2 H3].
  - cbn in Hin. longer; apply Hone; (reflexivity || discriminate).
  - apply Hone; (reflexivity || discriminate).
  - apply Hone; (reflexivity || discriminate).
  - apply Hone; (reflexivity || discriminate).
  - apply Hone; (reflexivity || discriminate).
  - destruct Hn as ((b & w' & -> & _) & HF & _). destruct (@exists_last _ (b :: w')) as (l & c & El); [discriminate|]. rewrite El in *. exists l, c. apply Forall_app in HF. destruct HF as [_ HF]. inversion HF as [|? ? Hc _]; subst.
    unfold ident_byte, blank, NL in *. split; [reflexivity|]. split; [apply orb_false_iff; split; apply N.eqb_neq; lia|lia].
  - unfold quote. destruct (contains [34; 125] s); [|destruct (contains [34] s || contains [10] s)]; rewrite !encode_app; apply Hadd, Hadd.
    + rewrite (encode_ascii [64]) by (repeat constructor). apply Hone; (reflexivity || discriminate).
    + rewrite (encode_ascii [34; 125]) by (repeat constructor). exists [34], 125. repeat split; discriminate.
    + rewrite (encode_ascii [34]) by (repeat constructor). apply Hone; (reflexivity || discriminate).
  - change (39 :: encode s ++ [39]) with ((39 :: encode s) ++ [39]). apply Hadd, Hone; (reflexivity || discriminate).
  - apply Hdig; assumption.
  - destruct H1 as [w A1 A2 A3 A4|i f x v A1 A2 A3 A4 A5 A6|v Hv|v Hv].
    + apply Hdig; assumption.
    + apply Hadd. destruct A4 as [->|(s & d & -> & _ & Hd & HF)].
      * rewrite app_nil_r in *. destruct A3 as [->|(d & -> & Hd & HF)]; [congruence|]. apply Hadd, Hdig; assumption.
      * apply Hadd, Hadd, Hadd, Hdig; assumption.
    + exists (lit "1.#IN"), 70. repeat split; discriminate.
    + exists (lit "1.#IN"), 68. repeat split; discriminate.
Qed.

(** ** The end of the text *)
Lemma none_at_end content k L : spot content k L -> skipn k content = [] -> exists L1, lnext L = (None, L1) /\ ended content k L1 /\ same L L1.
Proof using Type.
  intros H E. destruct (lnext_spot content _ _ H) as [(b & L1 & _ & Hn & _)|(Hk & L1 & E1 & Hen & Hs)].
  - rewrite (skipn_nth _ _ _ Hn) in E. discriminate.
  - exists L1. auto.
Qed.
Lemma read_end content k L : here content k L -> skipn k content = [] ->
  exists loc L', token_next L = Ok (Some (loc, P PNewline), L') /\ rest (inp L') = [] /\ exists L2, token_next L' = Ok (None, L2).
Proof using Type.
  intros H E. destruct (none_at_end content k L (proj1 H) E) as (L1 & E1 & Hen & Hs). unfold Lexer.Model.token_next.
  assert (Hf1 : final_newline L1 = false) by (destruct H as (_ & _ & _ & Hf), Hs as (S1 & _); congruence).
  eexists _, (set_final true L1). split; [|split].
  - change (fuel_of L) with (S (S (List.length (bytes L)))). cbn [Lexer.Model.token_loop]. unfold skip_ws. change (fuel_of L) with (S (S (List.length (bytes L)))). cbn [ws_loop]. rewrite E1. cbn [bind]. rewrite Hf1. reflexivity.
  - apply Hen.
  - assert (Hen' : spot content k (set_final true L1)) by (apply ended_spot; eapply ended_inp; [exact Hen|reflexivity..]).
    destruct (none_at_end content k _ Hen' E) as (L3 & E3 & _ & Hs3). exists L3. set (L2 := set_final true L1) in *.
    change (fuel_of L2) with (S (S (List.length (bytes L2)))). cbn [Lexer.Model.token_loop]. unfold skip_ws. change (fuel_of L2) with (S (S (List.length (bytes L2)))). cbn [ws_loop]. rewrite E3. cbn [bind].
    destruct Hs3 as (S1 & _). rewrite S1. reflexivity.
Qed.

(** ** All tokens *)
Lemma firstn_add (content : list N) k w r : skipn k content = w ++ r -> firstn (k + List.length w) content = firstn k content ++ w.
Proof using Type.
  intro E. rewrite <- (firstn_skipn k content) at 1. rewrite E. rewrite firstn_app.
  assert (Hk : (k <= List.length content)%nat \/ w ++ r = []) by (destruct (Nat.le_gt_cases k (List.length content)); [auto|right; rewrite <- E; apply skipn_all2; lia]).
  destruct Hk as [Hk|Hk].
  - rewrite (firstn_length_le _ Hk). rewrite firstn_firstn. replace (Nat.min (k + List.length w) k) with k by lia. f_equal.
    replace (k + List.length w - k)%nat with (List.length w) by lia. rewrite firstn_app, Nat.sub_diag, firstn_all. cbn [firstn]. apply app_nil_r.
  - apply app_eq_nil in Hk. destruct Hk as [-> ->]. cbn [List.length app]. rewrite Nat.add_0_r, firstn_nil, !app_nil_r. rewrite firstn_firstn, Nat.min_id. reflexivity.
Qed.
Lemma inked_after content k w t r : lexeme w t r -> skipn k content = w ++ r -> inked content (k + List.length w).
Proof using Type.
  intros Hx E. destruct (lexeme_last _ _ _ Hx) as (l & c & -> & Hc). exists (firstn k content ++ l), c. rewrite (firstn_add _ _ _ _ E), app_assoc. auto.
Qed.
Lemma spelt_trace bytes ts : spelt bytes ts -> forall content k L fuel, here content k L -> skipn k content = bytes -> hd 0 bytes <> 32 \/ inked content k -> (List.length ts < fuel)%nat ->
  exists bs, trace fuel L = combine ts (bs ++ [[]]) /\ S (List.length bs) = List.length ts.
Proof using Type.
  assert (Hstep : forall f L loc t L', token_next L = Ok (Some (loc, t), L') -> trace (S f) L = (t, rest (inp L')) :: trace f L').
  { intros f L loc t L' E. cbn [Const.Model.trace]. rewrite E. reflexivity. }
  induction 1 as [|w t r ts Hx Hs IH|w t r ts Hx Hs IH]; intros content k L fuel H E Hi Hf; cbn [List.length] in Hf; (destruct fuel as [|fuel]; [lia|]).
  - destruct (read_end content k L H E) as (loc & L' & Et & Hr & L2 & En). exists []. rewrite (Hstep _ _ _ _ _ Et), Hr. split; [|reflexivity].
    cbn [app combine]. f_equal. destruct fuel; [reflexivity|]. cbn [Const.Model.trace]. rewrite En. reflexivity.
  - destruct (lexeme_reads content w t r k L Hx H E) as (loc & L' & Et & H').
    destruct (IH content (k + List.length w)%nat L' fuel H' (skip_more _ _ _ _ E) (or_intror (inked_after content k w t r Hx E)) ltac:(lia)) as (bs & Etr & Hlen).
    exists (rest (inp L') :: bs). rewrite (Hstep _ _ _ _ _ Et), Etr. split; [reflexivity|cbn [List.length]; lia].
  - destruct Hi as [Hi|Hi]; [cbn in Hi; congruence|].
    destruct (skip_space content k L (w ++ r) H E Hi) as (L2 & H2 & Hup).
    assert (E2 : skipn (k + 1) content = w ++ r) by (change 1%nat with (List.length [32]); apply skip_more; exact E).
    destruct (lexeme_reads content w t r (k + 1) L2 Hx H2 E2) as (loc & L' & Et & H'). apply Hup in Et.
    destruct (IH content (k + 1 + List.length w)%nat L' fuel H' (skip_more _ _ _ _ E2) (or_intror (inked_after content (k + 1) w t r Hx E2)) ltac:(lia)) as (bs & Etr & Hlen).
    exists (rest (inp L') :: bs). rewrite (Hstep _ _ _ _ _ Et), Etr. split; [reflexivity|cbn [List.length]; lia].
Qed.
Lemma spelt_length bytes ts : spelt bytes ts -> (List.length ts <= S (List.length bytes))%nat.
Proof using Type.
  induction 1 as [|w t r ts Hx Hs IH|w t r ts Hx Hs IH]; cbn [List.length]; [lia| |]; destruct (lexeme_last _ _ _ Hx) as (l & c & -> & _); rewrite !app_length; cbn [List.length]; lia.
Qed.

(** ** From a location *)
(** what matters of a lexer that has bytes left is what it reads next *)
Lemma token_first L L' : lnext L = lnext L' -> fuel_of L = fuel_of L' -> token_next L = token_next L'.
Proof using Type.
  intros E1 E2. unfold Lexer.Model.token_next. rewrite <- E2. change (fuel_of L) with (S (S (List.length (bytes L)))). remember (S (List.length (bytes L))) as f. cbn [Lexer.Model.token_loop]. unfold skip_ws. rewrite <- E2.
  change (fuel_of L) with (S (S (List.length (bytes L)))). cbn [ws_loop]. rewrite E1. reflexivity.
Qed.
Definition place_valid (l : loc) : Prop := (1 <= lline l /\ 0 <= lcol l < 2 ^ 16)%Z.
Lemma newlines_repeat n : newlines (repeat NL n) = N.of_nat n.
Proof using Type. unfold newlines. induction n as [|n IH]; [reflexivity|]. cbn [repeat filter]. change (NL =? NL) with true. cbn iota. cbn [List.length]. rewrite !Nat2N.inj_succ, IH. reflexivity. Qed.
Lemma since_repeat n : since_nl (repeat NL n) = 0.
Proof using Type. destruct n as [|n]; [reflexivity|]. change (repeat NL (S n)) with (NL :: repeat NL n). rewrite repeat_cons, since_nl_snoc. reflexivity. Qed.
Lemma place_blanks n m : place (repeat NL n ++ repeat 32 m) = (N.of_nat n + 1, N.of_nat m + 1) /\ last_line (repeat NL n ++ repeat 32 m) = repeat 32 m.
Proof using Type.
  induction m as [|m [IH1 IH2]].
  - rewrite app_nil_r. split; [unfold place; rewrite newlines_repeat, since_repeat; f_equal; lia|]. destruct n as [|n]; [reflexivity|]. change (repeat NL (S n)) with (NL :: repeat NL n). rewrite repeat_cons, last_line_snoc. reflexivity.
  - change (repeat 32 (S m)) with (32 :: repeat 32 m). rewrite repeat_cons, app_assoc. split.
    + unfold place in *. rewrite newlines_snoc, since_nl_snoc. pose proof (f_equal fst IH1) as I1. pose proof (f_equal snd IH1) as I2. cbn [fst snd] in I1, I2. change (32 =? NL) with false. cbn iota. clear - I1 I2. f_equal; lia.
    + rewrite last_line_snoc, IH2. reflexivity.
Qed.
Lemma from_location_start l b input : place_valid l -> exists t content k L,
  from_location l (b :: input) = Some t /\ here content k L /\ skipn k content = b :: input /\
  lnext (from_input t) = lnext L /\ fuel_of (from_input t) = fuel_of L.
Proof using Type.
  intros [Hl Hc]. unfold from_location, pred. set (n := Z.to_nat (lline l - 1)).
  destruct (Z.le_gt_cases 2 (lcol l)) as [H2|H2].
  - rewrite (proj2 (Z.eqb_neq (lcol l) 0)) by lia. cbn [negb]. set (m := Z.to_nat (lcol l - 2)).
    exists {| rest := b :: input; line := Z.to_N (lline l); col := Z.to_N (lcol l - 1); at_line_end := false |}, ((repeat NL n ++ repeat 32 m ++ [32]) ++ b :: input), (List.length (repeat NL n ++ repeat 32 m ++ [32])).
    eexists. split; [|split; [|split; [|split; reflexivity]]].
    + unfold lline, lcol. cbn [fst snd]. repeat f_equal. apply N.eqb_neq. change COL_MAX with 65535. unfold lcol in *. change (2 ^ 16)%Z with 65536%Z in Hc. clear - Hc H2. lia.
    + split; [|repeat split]. left. split; [reflexivity|]. split; [rewrite !app_length; lia|]. rewrite firstn_app, firstn_all, Nat.sub_diag, skipn_app, skipn_all, Nat.sub_diag. cbn [firstn skipn app]. rewrite app_nil_r.
      rewrite app_assoc. destruct (place_blanks n m) as [E1 E2]. split.
      * split; [reflexivity|]. right. exists (repeat NL n ++ repeat 32 m), 32. split; [reflexivity|]. split; [|reflexivity]. rewrite E1. cbn [line col from_input inp]. f_equal; lia.
      * rewrite head_of_snoc, E2. cbn. rewrite andb_true_r. symmetry. clear. induction m as [|m IH]; [reflexivity|exact IH].
    + rewrite skipn_app, skipn_all, Nat.sub_diag. reflexivity.
  - set (t0 := {| rest := b :: input; line := N.of_nat n; col := 1; at_line_end := true |}).
    set (L0 := set_head (head_of (repeat NL n)) (from_input t0)).
    assert (HL0 : here (repeat NL n ++ b :: input) n L0).
    { split; [|repeat split]. left. split; [reflexivity|]. split; [rewrite app_length, repeat_length; lia|].
      assert (E1 : firstn n (repeat NL n ++ b :: input) = repeat NL n) by (rewrite firstn_app, repeat_length, Nat.sub_diag; cbn [firstn]; rewrite app_nil_r; rewrite <- (repeat_length NL n) at 1; apply firstn_all).
      assert (E2 : skipn n (repeat NL n ++ b :: input) = b :: input) by (rewrite skipn_app, repeat_length, Nat.sub_diag; cbn [skipn]; rewrite <- (repeat_length NL n) at 1; rewrite skipn_all; reflexivity).
      rewrite E1, E2. split; [|reflexivity]. split; [reflexivity|]. destruct n as [|n'] eqn:En; [left; repeat split|]. right. exists (repeat NL n'), NL.
      split; [change (repeat NL (S n')) with (NL :: repeat NL n'); apply repeat_cons|]. split; [|reflexivity]. unfold place. rewrite newlines_repeat, since_repeat. cbn [L0 t0 inp line col set_head from_input]. f_equal; lia. }
    assert (E2 : skipn n (repeat NL n ++ b :: input) = b :: input) by (rewrite skipn_app, repeat_length, Nat.sub_diag; cbn [skipn]; rewrite <- (repeat_length NL n) at 1; rewrite skipn_all; reflexivity).
    destruct (Z.eqb_spec (lcol l) 0) as [Hc0|Hc0]; cbn [negb].
    + rewrite (proj2 (Z.eqb_neq (lline l) 0)) by lia. cbn [negb]. eexists _, _, _, L0. split; [reflexivity|]. split; [exact HL0|]. split; [exact E2|].
      split; [|reflexivity]. unfold lnext. cbn [pending from_input L0 t0 set_head step inp at_line_end rest line col]. unfold lline, lcol. cbn [fst snd]. change (Z.to_N (2 ^ 16 - 1) =? COL_MAX) with true. cbn iota.
      replace (Z.to_N (fst (snd l) - 1)) with (N.of_nat n) by (unfold n, lline; lia). rewrite (proj2 (N.ltb_lt (N.of_nat n) (N.of_nat n + 1))) by lia. reflexivity.
    + assert (lcol l = 1)%Z as Hc1 by lia. eexists _, _, _, L0. split; [reflexivity|]. split; [exact HL0|]. split; [exact E2|]. split; [|reflexivity].
      unfold lnext. cbn [pending from_input L0 t0 set_head step inp at_line_end rest line col]. unfold lline, lcol in *. cbn [fst snd]. rewrite Hc1. change (Z.to_N (1 - 1) =? COL_MAX) with false. cbn iota.
      change (Z.to_N (1 - 1)) with 0. rewrite N.ltb_irrefl, (proj2 (N.ltb_lt (N.of_nat n) (N.of_nat n + 1))) by lia. replace (Z.to_N (fst (snd l))) with (N.of_nat n + 1) by (unfold n; lia). reflexivity.
Qed.
Theorem spelt_tokens l bytes ts : place_valid l -> bytes <> [] -> hd 0 bytes <> 32 -> spelt bytes ts -> exists t bs,
  from_location l bytes = Some t /\ trace (S (S (List.length bytes))) (from_input t) = combine ts (bs ++ [[]]) /\ S (List.length bs) = List.length ts.
Proof using Type.
  intros Hl Hne Hsp H. destruct bytes as [|b input]; [congruence|]. destruct (from_location_start l b input Hl) as (t & content & k & L & Et & HL & E & E1 & E2).
  destruct (spelt_trace _ _ H content k L (S (S (List.length (b :: input)))) HL E (or_introl Hsp)) as (bs & Etr & Hlen); [pose proof (spelt_length _ _ H); lia|].
  exists t, bs. split; [exact Et|]. split; [|exact Hlen]. rewrite <- Etr. cbn [Const.Model.trace]. rewrite (token_first _ _ E1 E2). reflexivity.
Qed.
End TEXT.
