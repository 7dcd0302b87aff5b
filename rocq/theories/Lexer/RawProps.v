(** Raw strings (C43): lexer.rs:1067-1129, modelled in Lexer/Model.v (read_raw_string). *)
From Coq Require Import List NArith ZArith Lia Bool String.
From Verif Require Import Common.Text Common.TextFacts Common.Utf8 Lexer.Tracker Lexer.Punct Lexer.Model Lexer.Spec Lexer.Facts Lexer.PunctProps Lexer.CommentProps Lexer.LexProps Lexer.QuoteProps.
Import ListNotations.
Open Scope N_scope.

(** ** Specification *)
(** [raw_opening open term after]: the bytes [open], with [after] behind them, open a raw string that [term] ends:
    [@(term)], [@{"] with [{"}], [@{] with [{], and an at sign before any other character but a newline. *)
Inductive raw_opening : list N -> list N -> list N -> Prop :=
| open_named t after : t <> [] -> ~ In 41 t -> raw_opening (lit "@(" ++ t ++ lit ")") t after
| open_block after : raw_opening (lit "@{""") (lit """}") after
| open_brace after : (forall a, after <> 34 :: a) -> raw_opening (lit "@{") (lit "{") after
| open_char c after : ~ In c [10; 40; 123] -> raw_opening [64; c] [c] after.
(** [term] occurs in [s] nowhere but at the end *)
Definition only_at_end (term s : list N) : Prop := forall a b, s = a ++ term ++ b -> b = [].
(** what bytes say: UTF-8 if they are, else Latin-1 *)
Definition reads_as (bs : list N) (s : text) : Prop :=
  (Forall scalar s /\ bs = encode s) \/ ((forall s', Forall scalar s' -> bs <> encode s') /\ s = bs).

Lemma reads_as_iff : forall bs s, Forall (fun b => b < 256) bs -> reads_as bs s -> from_utf8_or_latin1 bs = s.
Proof.
  intros bs s Hb [[Hs ->]|[Hn ->]]; unfold from_utf8_or_latin1; [rewrite decode_encode by exact Hs; reflexivity|].
  destruct (decode bs) as [t|] eqn:E; [|reflexivity]. destruct (decode_sound bs t Hb E) as [H1 H2]. destruct (Hn t H1 H2).
Qed.

Lemma ends_with_iff : forall p s, ends_with p s = true <-> exists a, s = a ++ p.
Proof.
  intros p s. unfold ends_with. rewrite starts_with_iff. split; intros [b E].
  - exists (rev b). rewrite <- (rev_involutive s), E, rev_app_distr, rev_involutive. reflexivity.
  - exists (rev b). rewrite E, rev_app_distr. reflexivity.
Qed.

Section READ.
Variable content : list byte.
Notation len := (List.length content).
Notation spot := (spot content).

Lemma raw_loop_found : forall todo fuel st term body buf k L r, todo <> [] -> spot k L -> skipn k content = todo ++ r ->
  buf ++ todo = body ++ term -> only_at_end term (body ++ term) -> (List.length todo < fuel)%nat ->
  exists L', raw_loop fuel st term buf L = Ok (body, L') /\ spot (k + List.length todo) L' /\ same L L'.
Proof using Type.
  induction todo as [|c todo IH]; intros fuel st term body buf k L r Hne H E Eb Hu Hf; [congruence|]. clear Hne.
  destruct fuel as [|fuel]; [cbn in Hf; lia|]. cbn [app List.length] in *. destruct (lnext_cons _ _ _ _ _ H E) as (L1 & E1 & Hat & Er & _ & _ & Hs).
  cbn [raw_loop]. rewrite E1. cbv zeta. destruct todo as [|d todo].
  - assert (T : ends_with term (buf ++ [c]) = true) by (apply ends_with_iff; exists body; exact Eb). rewrite T, Eb.
    exists L1. split; [|split; [rewrite Nat.add_1_r; apply at_spot; exact Hat | exact Hs]].
    f_equal. f_equal. rewrite app_length. replace (List.length body + List.length term - List.length term)%nat with (List.length body + 0)%nat by lia.
    rewrite firstn_app_2. apply app_nil_r.
  - assert (T : ends_with term (buf ++ [c]) = false).
    { destruct (ends_with term (buf ++ [c])) eqn:T; [|reflexivity]. apply ends_with_iff in T. destruct T as [a Ea].
      assert (F : d :: todo = []); [|discriminate]. apply (Hu a). rewrite app_assoc, <- Ea, <- app_assoc. symmetry. exact Eb. }
    rewrite T. destruct (IH fuel st term body (buf ++ [c]) (S k) L1 r) as (L' & E' & H' & Hs'); [discriminate | apply at_spot; exact Hat | exact Er | rewrite <- app_assoc; exact Eb | exact Hu | cbn [List.length] in *; lia|].
    exists L'. split; [exact E'|]. split; [replace (k + S (List.length (d :: todo)))%nat with (S k + List.length (d :: todo))%nat by lia; exact H' | eapply same_trans; eauto].
Qed.
Lemma raw_loop_none : forall todo fuel st term buf k L, spot k L -> skipn k content = todo ->
  ~ occurs term (buf ++ todo) -> (List.length todo < fuel)%nat ->
  exists L', raw_loop fuel st term buf L = Ok (buf ++ todo, register st EUntermRaw L') /\ spot len L' /\ same L L'.
Proof using Type.
  induction todo as [|c todo IH]; intros fuel st term buf k L H E Hno Hf; (destruct fuel as [|fuel]; [cbn in Hf; lia|]); cbn [raw_loop].
  - destruct (lnext_spot _ _ _ H) as [(b & L1 & _ & Hn & _)|(Hk & L1 & E1 & Hat & Hs)].
    + rewrite (skipn_nth _ _ _ Hn) in E. discriminate.
    + rewrite E1. exists L1. rewrite app_nil_r. split; [reflexivity|]. split; [rewrite <- Hk; apply ended_spot; exact Hat | exact Hs].
  - destruct (lnext_cons _ _ _ _ _ H E) as (L1 & E1 & Hat & Er & _ & _ & Hs). rewrite E1. cbv zeta.
    assert (T : ends_with term (buf ++ [c]) = false).
    { destruct (ends_with term (buf ++ [c])) eqn:T; [|reflexivity]. apply ends_with_iff in T. destruct T as [a Ea]. destruct Hno. exists a, todo.
      rewrite app_assoc, <- Ea, <- app_assoc. reflexivity. }
    rewrite T. destruct (IH fuel st term (buf ++ [c]) (S k) L1) as (L' & E' & H' & Hs'); [apply at_spot; exact Hat | exact Er | rewrite <- app_assoc; exact Hno | cbn [List.length] in *; lia|].
    exists L'. rewrite E', <- app_assoc. split; [reflexivity|]. split; [exact H' | eapply same_trans; eauto].
Qed.
Lemma term_loop_found : forall t fuel acc k L r, spot k L -> skipn k content = t ++ 41 :: r -> ~ In 41 t -> (List.length t < fuel)%nat ->
  exists L', term_loop fuel acc L = Ok (Some (acc ++ t), L') /\ spot (k + List.length t + 1) L' /\ same L L'.
Proof using Type.
  induction t as [|c t IH]; intros fuel acc k L r H E Hno Hf; (destruct fuel as [|fuel]; [cbn in Hf; lia|]); cbn [term_loop app List.length] in *;
    destruct (lnext_cons _ _ _ _ _ H E) as (L1 & E1 & Hat & Er & _ & _ & Hs); rewrite E1.
  - change (41 =? 41) with true. cbn iota. exists L1. rewrite app_nil_r. split; [reflexivity|]. split; [rewrite Nat.add_0_r, Nat.add_1_r; apply at_spot; exact Hat | exact Hs].
  - assert ((c =? 41) = false) as -> by (apply N.eqb_neq; intro; subst; apply Hno; left; reflexivity).
    destruct (IH fuel (acc ++ [c]) (S k) L1 r (at_spot _ _ _ Hat) Er (fun F => Hno (or_intror F)) ltac:(lia)) as (L' & E' & H' & Hs').
    exists L'. rewrite E', <- app_assoc. split; [reflexivity|]. replace (k + S (List.length t) + 1)%nat with (S k + List.length t + 1)%nat by lia. split; [exact H' | eapply same_trans; eauto].
Qed.
End READ.

Section TOKEN.
Variable F : Type.
Variable parse_f32 : text -> option F.
Variable show_f32 : F -> text.
Variable f32_zero : F.
Notation token_next := (token_next F parse_f32 show_f32 f32_zero).

Lemma raw_opened : forall content k L open term after, spot content k L -> dir L <> DStringy -> raw_opening open term after -> skipn k content = open ++ after ->
  exists L3, token_next L = (do (t, L4) <- read_raw_string_inner F term L3; Ok (Some (place (firstn k content), t), L4)) /\
    spot content (k + List.length open) L3 /\ same L L3.
Proof using Type.
  intros content k L open term after H Hd Ho E.
  assert (E0 : exists tl, skipn k content = 64 :: tl /\ tl = skipn 1 open ++ after) by (rewrite E; inversion Ho; eexists; split; reflexivity).
  destruct E0 as (tl & E0 & Etl).
  destruct (open_token F parse_f32 show_f32 f32_zero content k L 64 tl H Hd E0) as (fuel & L1 & Hat & Hn & Hs1 & Hl & Et); try discriminate.
  rewrite (punct_at content k L1 _ Hat E0 Hn) in Et. cbn [bind] in Et. unfold close_stage in Et.
  assert (Ec : forall b : bool, (if b then Ok (None, L1) else Ok (None, L1)) = Ok (@None punct, L1)) by (intros []; reflexivity). rewrite Ec in Et. cbn [bind] in Et.
  unfold dispatch in Et. change (is_digit 64) with false in Et. change (is_ident_byte 64) with false in Et. change (64 =? 92) with false in Et. change (64 =? 64) with true in Et. cbn iota in Et.
  assert (E1 : skipn (S k) content = tl) by (rewrite <- Nat.add_1_r; change 1%nat with (List.length [64]); apply skip_more; exact E0).
  assert (G : exists L3, read_raw_string F L1 = read_raw_string_inner F term L3 /\ spot content (k + List.length open) L3 /\ same L1 L3).
  { clear Et Ec. unfold read_raw_string. inversion Ho as [t a Ht H41 e1 e2 e3|a e1 e2 e3|a H34 e1 e2 e3|c a Hc e1 e2 e3]; subst; cbn [skipn app lit String.list_ascii_of_string] in E1.
    - change (skipn 1 (lit "@(" ++ term ++ lit ")")) with (40 :: term ++ [41]) in E1. cbn [app] in E1. rewrite <- app_assoc in E1. cbn [app] in E1.
      destruct (lnext_cons content (S k) L1 _ _ (at_spot _ _ _ Hat) E1) as (L2 & E2 & Hat2 & Er2 & _ & _ & Hs2). rewrite E2. change (40 =? 10) with false. change (40 =? 40) with true. cbn iota.
      destruct (term_loop_found content term (fuel_of L2) [] (S (S k)) L2 after (at_spot _ _ _ Hat2) Er2 H41) as (L3 & E3 & H3 & Hs3).
      { rewrite (spot_fuel content (S (S k))) by (apply at_spot; exact Hat2). apply (f_equal (@List.length byte)) in Er2. rewrite skipn_length, app_length in Er2. cbn [List.length] in Er2. lia. }
      rewrite E3. cbn [bind app]. destruct term as [|x t']; [congruence|]. exists L3. split; [reflexivity|]. split; [|eapply same_trans; eauto].
      replace (k + List.length (lit "@(" ++ (x :: t') ++ lit ")"))%nat with (S (S k) + List.length (x :: t') + 1)%nat by (rewrite !app_length; change (List.length (lit "@(")) with 2%nat; change (List.length (lit ")")) with 1%nat; lia). exact H3.
    - change (skipn 1 (lit "@{""") ++ after) with (123 :: 34 :: after) in E1.
      destruct (lnext_cons content (S k) L1 _ _ (at_spot _ _ _ Hat) E1) as (L2 & E2 & Hat2 & Er2 & _ & _ & Hs2). rewrite E2. change (123 =? 10) with false. change (123 =? 40) with false. change (123 =? 123) with true. cbn iota.
      destruct (lnext_cons content (S (S k)) L2 _ _ (at_spot _ _ _ Hat2) Er2) as (L3 & E3 & Hat3 & Er3 & _ & _ & Hs3). rewrite E3. change (34 =? 34) with true. cbn iota.
      exists L3. split; [reflexivity|]. split; [|eapply same_trans; eauto]. change (List.length (lit "@{""")) with 3%nat. replace (k + 3)%nat with (S (S (S k))) by lia. apply at_spot. exact Hat3.
    - change (skipn 1 (lit "@{") ++ after) with (123 :: after) in E1.
      destruct (lnext_cons content (S k) L1 _ _ (at_spot _ _ _ Hat) E1) as (L2 & E2 & Hat2 & Er2 & _ & _ & Hs2). rewrite E2. change (123 =? 10) with false. change (123 =? 40) with false. change (123 =? 123) with true. cbn iota.
      change (List.length (lit "@{")) with 2%nat. replace (k + 2)%nat with (S (S k)) by lia.
      destruct (lnext_spot _ _ _ (at_spot _ _ _ Hat2)) as [(b & L3 & E3 & Hn3 & Hat3 & _ & Hs3)|(Hk & L3 & E3 & He & Hs3)]; rewrite E3.
      + assert ((b =? 34) = false) as ->. { apply N.eqb_neq. intros ->. rewrite (skipn_nth _ _ _ Hn3) in Er2. exact (H34 _ (eq_sym Er2)). }
        destruct (put_back_spot content (S (S k)) b L3 Hn3 Hat3) as (L4 & E4 & H4 & Hs4 & _). rewrite E4. cbn [bind]. exists L4. split; [reflexivity|]. split; [exact H4|].
        eapply same_trans; [exact Hs2|]. eapply same_trans; eauto.
      + destruct (put_none_spot content (S (S k)) L3) as (L4 & E4 & H4 & Hs4 & _); [apply He | apply ended_spot; exact He |]. rewrite E4. cbn [bind]. exists L4. split; [reflexivity|]. split; [exact H4|].
        eapply same_trans; [exact Hs2|]. eapply same_trans; eauto.
    - destruct (lnext_cons content (S k) L1 _ _ (at_spot _ _ _ Hat) E1) as (L2 & E2 & Hat2 & Er2 & _ & _ & Hs2). rewrite E2.
      assert ((c =? 10) = false) as -> by (apply N.eqb_neq; intros ->; apply Hc; left; reflexivity).
      assert ((c =? 40) = false) as -> by (apply N.eqb_neq; intros ->; apply Hc; right; left; reflexivity).
      assert ((c =? 123) = false) as -> by (apply N.eqb_neq; intros ->; apply Hc; right; right; left; reflexivity).
      exists L2. split; [reflexivity|]. split; [|exact Hs2]. cbn [List.length]. replace (k + 2)%nat with (S (S k)) by lia. apply at_spot. exact Hat2. }
  destruct G as (L3 & E3 & H3 & Hs3). exists L3. split; [rewrite Et, E3, Hl; reflexivity|]. split; [exact H3 | eapply same_trans; eauto].
Qed.

(** In any state the lexer can be in, except in the text of #warn and #error: behind the opening of a raw string, the
    token is the text up to the first place where its terminator stands, nothing in it is interpreted, lexing goes
    on right behind the terminator, and nothing is reported. *)
Theorem C43_raw_string : forall content k L open term body s r, spot content k L -> dir L <> DStringy ->
  Forall (fun b => b < 256) content ->
  skipn k content = open ++ body ++ term ++ r -> raw_opening open term (body ++ term ++ r) -> only_at_end term (body ++ term) -> reads_as body s ->
  exists L', token_next L = Ok (Some (place (firstn k content), TString F s), L') /\ bytes L' = r /\ errs L' = errs L.
Proof using Type.
  intros content k L open term body s r H Hd Hb E Ho Hu Hr. destruct (raw_opened content k L open term _ H Hd Ho E) as (L3 & Et & H3 & Hs3).
  assert (E3 : skipn (k + List.length open) content = (body ++ term) ++ r) by (rewrite <- app_assoc; apply skip_more; exact E).
  assert (Hne : body ++ term <> []). { intro F0. apply app_eq_nil in F0. destruct F0 as [_ F0]. inversion Ho; subst; discriminate || congruence. }
  destruct (raw_loop_found content (body ++ term) (fuel_of L3) (location L3) term body [] (k + List.length open)%nat L3 r Hne H3 E3 eq_refl Hu) as (L4 & E4 & H4 & Hs4).
  { rewrite (spot_fuel content _ _ H3). apply (f_equal (@List.length byte)) in E3. rewrite skipn_length, (app_length (body ++ term)) in E3. cbn [List.length] in E3. lia. }
  exists L4. rewrite Et. unfold read_raw_string_inner. rewrite E4. cbn [bind]. split.
  - rewrite (reads_as_iff body s); [reflexivity | | exact Hr]. apply Forall_forall. intros b Hi. rewrite Forall_forall in Hb. apply Hb.
    rewrite <- (firstn_skipn k content). apply in_or_app. right. rewrite E. apply in_or_app. right. apply in_or_app. left. exact Hi.
  - split; [rewrite (spot_bytes _ _ _ H4); apply skip_more; exact E3|]. unfold same in *. intuition congruence.
Qed.

(** Without its terminator, it goes on to the end of the file, and that is reported. *)
Theorem C43_unterminated : forall content k L open term body s, spot content k L -> dir L <> DStringy ->
  Forall (fun b => b < 256) content ->
  skipn k content = open ++ body -> raw_opening open term body -> ~ occurs term body -> reads_as body s ->
  exists L' at_, token_next L = Ok (Some (place (firstn k content), TString F s), L') /\ bytes L' = [] /\ errs L' = (at_, EUntermRaw) :: errs L.
Proof using Type.
  intros content k L open term body s H Hd Hb E Ho Hu Hr. destruct (raw_opened content k L open term _ H Hd Ho E) as (L3 & Et & H3 & Hs3).
  assert (E3 : skipn (k + List.length open) content = body) by (apply skip_more; exact E).
  destruct (raw_loop_none content body (fuel_of L3) (location L3) term [] (k + List.length open)%nat L3 H3 E3 Hu) as (L4 & E4 & H4 & Hs4).
  { rewrite (spot_fuel content _ _ H3). apply (f_equal (@List.length byte)) in E3. rewrite skipn_length in E3. lia. }
  exists (register (location L3) EUntermRaw L4), (location L3). rewrite Et. unfold read_raw_string_inner. rewrite E4. cbn [bind app]. split.
  - rewrite (reads_as_iff body s); [reflexivity | | exact Hr]. apply Forall_forall. intros b Hi. rewrite Forall_forall in Hb. apply Hb.
    rewrite <- (firstn_skipn k content). apply in_or_app. right. rewrite E. apply in_or_app. right. exact Hi.
  - split; [change (bytes (register (location L3) EUntermRaw L4)) with (bytes L4); rewrite (spot_bytes _ _ _ H4); apply skipn_all|]. unfold same in *. cbn [errs register]. f_equal. intuition congruence.
Qed.
End TOKEN.

(** A run of the whole lexer over the four forms. *)
Example C43_demo : exists ts, option_map (map snd) (match lex unit (fun _ => Some tt) (fun _ => []) tt
    (lit "@(EOS)a""b\[x]EOEOS" ++ lit "@{""x""y""}" ++ lit "@{a[b{" ++ lit "@~\n""~") with Ok p => Some (fst p) | _ => None end) = Some ts /\
  firstn 4 ts = map (TString unit) [lit "a""b\[x]EO"; lit "x""y"; lit "a[b"; lit "\n"""].
Proof. eexists. split; vm_compute; reflexivity. Qed.
Example C43_demo_opening : raw_opening (lit "@(EOS)") (lit "EOS") (lit "a""b\[x]EOEOS") /\ only_at_end (lit "EOS") (lit "a""b\[x]EO" ++ lit "EOS").
Proof.
  split; [apply (open_named (lit "EOS")); [discriminate | cbn; intros [?|[?|[?|[]]]]; discriminate]|].
  intros a b E. do 12 (destruct a as [|? a]; [cbn in E; try (injection E; discriminate); try (injection E as <-; reflexivity); try discriminate | cbn in E; injection E as <- E]).
  all: try (destruct a; discriminate).
Qed.

Print Assumptions C43_raw_string.
Print Assumptions C43_unterminated.
Print Assumptions C43_demo.
Print Assumptions C43_demo_opening.
