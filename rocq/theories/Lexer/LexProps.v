(** The lexer is total; its tokens lie in order in the input (C14). *)
From Coq Require Import List NArith ZArith Lia Bool String.
From Verif Require Import Common.Text Common.Utf8 Lexer.Tracker Lexer.Punct Lexer.Model Lexer.Spec Lexer.Facts Lexer.PunctProps Lexer.CommentProps.
Import ListNotations.
Open Scope N_scope.

(** ** Specification *)
(** What a token says about the bytes it spans.  (Comments and literals have their own theorems: C12, C13.) *)
Definition spelled (F : Type) (content : list byte) (k0 k1 : nat) (t : token F) : Prop :=
  match t with
  | TPunct _ p =>
      span content k0 k1 = value p /\
      (p = PIn \/ longest (value p) p (skipn k0 content) \/ (p = PCloseColon /\ longest (value p) PColon (skipn k0 content)))
  | TIdent _ i ws =>
      i = span content k0 k1 /\ i <> lit "in" /\ Forall ident_byte i /\
      match nth_error content k1 with
      | Some b => ~ ident_byte b /\ ws = ((b =? 32) || (b =? 9))
      | None => ws = false
      end
  | TString _ _ | TInterpBegin _ _ => exists b, nth_error content k0 = Some b
  | TInterpPart _ _ | TInterpEnd _ _ => nth_error content k0 = Some 93
  | TResource _ _ => nth_error content k0 = Some 39
  | TInt _ _ | TFloat _ _ => exists b, nth_error content k0 = Some b /\ 48 <= b <= 57
  | TDoc _ k t s =>
      exists r txt, skipn k0 content = 47 :: (match k with KBlock => 42 | KLine => 47 end) :: r /\ s = text_of txt /\
        match k with
        | KBlock => exists n body, block_extent r n body /\ k1 = (k0 + 2 + n)%nat /\ block_doc r body = Some (match t with Enclosing => true | Following => false end, txt)
        | KLine => exists w, line_extent r w /\ k1 = (k0 + 2 + List.length w)%nat /\ line_doc w = Some (match t with Enclosing => true | Following => false end, txt)
        end
  end.

Lemma is_ident_iff : forall b, is_ident_byte b || is_digit b = true <-> ident_byte b.
Proof. intro b. unfold is_ident_byte, is_digit, ident_byte. rewrite !orb_true_iff, !andb_true_iff, !N.leb_le, N.eqb_eq. lia. Qed.

Section TOKENS.
Variable content : list byte.
Notation len := (List.length content).
Variable F : Type.
Variable parse_f32 : text -> option F.
Variable show_f32 : F -> text.
Variable f32_zero : F.
Notation spot := (spot content).
Notation token_loop := (token_loop F parse_f32 show_f32 f32_zero).
Hint Resolve at_spot ended_spot same_wf same_final : lex.

Lemma same_refl : forall L, same L L.
Proof using Type. intro L. unfold same. auto. Qed.
Lemma same_trans : forall A B C, same A B -> same B C -> same A C.
Proof using Type. unfold same. intros A B C (?&?&?&?) (?&?&?&?). repeat split; congruence. Qed.

Lemma ident_loop_spec : forall fuel k L buf, spot k L -> (len - k < fuel)%nat ->
  exists n L' ws, ident_loop fuel buf L = Ok (buf ++ firstn n (skipn k content), ws, L') /\ (k + n <= len)%nat /\ Forall ident_byte (firstn n (skipn k content)) /\
    spot (k + n) L' /\ same L L' /\
    match nth_error content (k + n) with Some b => ~ ident_byte b /\ ws = ((b =? 32) || (b =? 9)) | None => ws = false end.
Proof using Type.
  induction fuel as [|fuel IH]; intros k L buf H Hf; [lia|]. cbn [ident_loop]. rd H b L1.
  - assert (Hk : (k < len)%nat) by (apply nth_error_Some; rewrite Hn; discriminate).
    destruct (is_ident_byte b || is_digit b) eqn:Ei.
    + destruct (IH (S k) L1 (buf ++ [b])) as (n & L' & ws & E' & Hle & HF & Hs' & Hsm & Hnx); [apply at_spot; exact Hat | lia|].
      exists (S n), L', ws. rewrite (skipn_nth _ _ _ Hn). cbn [firstn]. rewrite E', <- app_assoc. split; [reflexivity|]. split; [lia|].
      split; [constructor; [apply is_ident_iff; exact Ei | exact HF]|]. rewrite Nat.add_succ_r. split; [exact Hs'|]. split; [eapply same_trans; eauto | exact Hnx].
    + destruct (put_back_spot _ _ _ _ Hn Hat) as (L2 & -> & H2 & Hs2 & _). cbn [bind]. exists 0%nat, L2, ((b =? 32) || (b =? 9)). cbn [firstn]. rewrite app_nil_r, Nat.add_0_r.
      split; [reflexivity|]. split; [lia|]. split; [constructor|]. split; [exact H2|]. split; [eapply same_trans; eauto|]. rewrite Hn. split; [|reflexivity]. rewrite <- is_ident_iff, Ei. discriminate.
  - destruct (put_none_spot content k L1) as (L2 & -> & H2 & Hs2 & _); [apply Hat | eauto with lex |]. cbn [bind]. exists 0%nat, L2, false. cbn [firstn]. rewrite app_nil_r, Nat.add_0_r.
    split; [reflexivity|]. split; [lia|]. split; [constructor|]. split; [exact H2|]. split; [eapply same_trans; eauto|].
    rewrite (proj2 (nth_error_None _ _)) by lia. reflexivity.
Qed.
Lemma ident_ascii : forall l, Forall ident_byte l -> from_utf8_or_latin1 l = l.
Proof using Type.
  intros l H. unfold from_utf8_or_latin1. rewrite decode_ascii; [reflexivity|]. eapply Forall_impl; [|exact H]. unfold ident_byte. cbn beta. intros; lia.
Qed.
Lemma span_S : forall k n b, nth_error content k = Some b -> span content k (S k + n) = b :: firstn n (skipn (S k) content).
Proof using Type. intros k n b H. unfold span. replace (S k + n - k)%nat with (S n) by lia. rewrite (skipn_nth _ _ _ H). reflexivity. Qed.
Lemma read_ident_spec : forall k first L, nth_error content k = Some first -> ident_byte first -> at_ content (S k) L ->
  exists k1 L' ws, read_ident first L = Ok (span content k k1, ws, L') /\ (k < k1 <= len)%nat /\ Forall ident_byte (span content k k1) /\ spot k1 L' /\ same L L' /\
    match nth_error content k1 with Some b => ~ ident_byte b /\ ws = ((b =? 32) || (b =? 9)) | None => ws = false end.
Proof using Type.
  intros k first L Hn Hi Hat. unfold read_ident.
  destruct (ident_loop_spec (fuel_of L) (S k) L [first]) as (n & L' & ws & E & Hle & HF & H & Hs & Hnx); [eauto with lex | rewrite (spot_fuel content (S k)) by eauto with lex; lia|].
  rewrite E. cbn [bind]. exists (S k + n)%nat, L', ws. rewrite (span_S _ _ _ Hn). cbn [app].
  assert (HF' : Forall ident_byte (first :: firstn n (skipn (S k) content))) by (constructor; assumption).
  rewrite ident_ascii by exact HF'. split; [reflexivity|]. split; [lia|]. auto.
Qed.

Lemma check_close_spec : forall k L p, spot k L ->
  exists L', check_close p L = Ok (if match nth_error content k with Some b => (b =? 13) || (b =? 32) || (b =? 9) || (b =? 10) | None => false end then p else close p, L') /\
    spot k L' /\ same L L' /\ (pending L = None -> location L' = location L \/ True).
Proof using Type.
  intros k L p H. unfold check_close. destruct (punct_eq_dec p (close p)) as [E|E].
  - exists L. rewrite <- E. destruct (match nth_error content k with Some _ => _ | None => _ end); auto using same_refl.
  - rd H b L1.
    + destruct (put_back_spot _ _ _ _ Hn Hat) as (L2 & -> & H2 & Hs2 & _). cbn [bind]. exists L2. rewrite Hn. split; [reflexivity|]. split; [exact H2|]. split; [eapply same_trans; eauto | auto].
    + destruct (put_none_spot content k L1) as (L2 & -> & H2 & Hs2 & _); [apply Hat | eauto with lex |]. cbn [bind]. exists L2. rewrite (proj2 (nth_error_None _ _)) by lia. split; [reflexivity|]. split; [exact H2|]. split; [eapply same_trans; eauto | auto].
Qed.

(** *** Gaps *)
Lemma gap_le : forall k k0, gap content k k0 -> (k <= k0)%nat.
Proof using Type. induction 1; lia. Qed.
Lemma gap_trans : forall k k0, gap content k k0 -> forall k1, gap content k0 k1 -> gap content k k1.
Proof using Type.
  induction 1 as [k|k k0 H1 H IH|k k0 b H1 H2 H3 H IH|k w k0 H1 H2 H3 H IH|k n body k0 H1 H2 H3 H IH|k w k0 H1 H2 H3 H IH|k b k0 H1 H2 H IH]; intros k1 G.
  - exact G.
  - eapply gap_cr; eauto.
  - eapply gap_blank; eauto.
  - eapply gap_cont; eauto.
  - eapply gap_block; eauto.
  - eapply gap_line; eauto.
  - eapply gap_illegal; eauto.
Qed.
Lemma skipped_gap : forall n k, ws_skipped content 0 k (k + n) -> gap content k (k + n).
Proof using Type.
  induction n as [|n IH]; intros k H; [rewrite Nat.add_0_r; constructor|]. destruct H as (A & B & C).
  assert (G : gap content (S k) (k + S n)).
  { rewrite Nat.add_succ_r. change (S (k + n)) with (S k + n)%nat. apply IH. split; [|split; discriminate]. intros E j Hj. apply A; [exact E | lia]. }
  destruct (A eq_refl k ltac:(lia)) as [Hn|(b & Hn & H1 & H2)]; [eapply gap_cr; eauto | eapply gap_blank; eauto].
Qed.
Lemma span_length : forall k k', (k <= k')%nat -> (k' <= len)%nat -> List.length (span content k k') = (k' - k)%nat.
Proof using Type. intros k k' H1 H2. unfold span. rewrite firstn_length, skipn_length. lia. Qed.
(** [g] is where the gap began: at [k], or at the backslash before it *)
Definition gap_start (sn : bool) (g k : nat) : Prop := if sn then k = S g /\ nth_error content g = Some 92 else g = k.
Lemma ws_gap : forall sn g k k0, gap_start sn g k -> (k <= k0)%nat -> (k0 <= len)%nat -> ws_skipped content (if sn then 2 else 0) k k0 -> gap content g k0.
Proof using Type.
  intros [|] g k k0 Hg Hk Hlen Hw.
  - destruct Hg as [-> Hn]. destruct Hw as (_ & _ & C). destruct (C eq_refl) as (s1 & H1 & H2).
    assert (Es : span content g k0 = 92 :: span content (S g) k0) by (apply span_cons; [exact Hn | lia]).
    assert (El : (g + List.length (span content g k0) = k0)%nat) by (rewrite span_length; lia).
    apply (gap_cont content g (span content g k0)); rewrite ?El; [reflexivity | exact Hlen | | constructor]. rewrite Es. exists s1. split; [exact H1|].
    destruct H2 as [->|(s2 & H2 & ->)]; [left; reflexivity | right; exists s2; split; [exact H2 | reflexivity]].
  - cbn in Hg. subst g. replace k0 with (k + (k0 - k))%nat in * by lia. apply skipped_gap. exact Hw.
Qed.
Lemma single_punct : forall w p, spells w p -> exists p', spells [hd 0 w] p'.
Proof using Type.
  intros w p H. apply symbols_spec in H.
  assert (C : forallb (fun e => existsb (fun e' => text_eqb (fst e') [hd 0 (fst e)]) symbols) symbols = true) by (vm_compute; reflexivity).
  rewrite forallb_forall in C. specialize (C _ H). apply existsb_exists in C. destruct C as ([w' p'] & C1 & C2). apply text_eqb_eq in C2. cbn [fst] in C2. subst w'.
  exists p'. apply symbols_spec. exact C1.
Qed.
Lemma illegal_intro : forall k b, nth_error content k = Some b -> b <> 13 -> is_digit b = false -> is_ident_byte b = false -> b <> 92 -> b <> 64 ->
  (forall w p, spells w p -> ~ prefix w (skipn k content)) -> illegal b.
Proof using Type.
  intros k b Hn H1 H2 H3 H4 H5 Hno. unfold illegal. split; [rewrite <- is_ident_iff, H2, H3; discriminate|]. repeat (split; [assumption|]).
  intros w p Hw E. destruct (single_punct _ _ Hw) as (p' & Hp'). rewrite E in Hp'. apply (Hno _ _ Hp'). exists (skipn (S k) content). apply (skipn_nth _ _ _ Hn).
Qed.

(** the three outcomes of asking for a token *)
Definition token_post (k : nat) (fin : bool) (x : res (option ((N * N) * token F) * lexer)) : Prop :=
  (exists k0 k1 t L', x = Ok (Some (place (firstn k0 content), t), L') /\ gap content k k0 /\ (k0 < k1)%nat /\ (k1 <= len)%nat /\
     spelled F content k0 k1 t /\ spot k1 L' /\ wf L' /\ final_newline L' = fin) \/
  (exists L', x = Ok (Some ((fst (end_place content), snd (end_place content) + 1), TPunct F PNewline), L') /\ gap content k len /\ fin = false /\ ended content len L' /\ wf L' /\ final_newline L' = true) \/
  (exists L', x = Ok (None, L') /\ gap content k len /\ fin = true /\ ended content len L' /\ wf L' /\ final_newline L' = true).

Lemma good_token : forall k k0 k1 fin loc (t : token F -> Prop) (x : res (token F * lexer)),
  Facts.good content 0 k1 fin x -> gap content k k0 -> (k0 < k1)%nat -> loc = place (firstn k0 content) ->
  (forall t k' L', x = Ok (t, L') -> spelled F content k0 k' t) ->
  token_post k fin (do (t, L4) <- x; Ok (Some (loc, t), L4)).
Proof using Type.
  intros k k0 k1 fin loc _ x (t & L' & k' & E & H1 & H2 & H3 & H4) Hk Hk0 -> Hsp. left. exists k0, k', t, L'. rewrite E. cbn [bind]. split; [reflexivity|].
  split; [exact Hk|]. split; [lia|]. split; [eapply spot_le; exact H2|]. split; [eapply Hsp; exact E|]. auto.
Qed.
Lemma punct_span : forall k0 w p, longest w p (skipn k0 content) -> span content k0 (k0 + List.length w) = w /\ value p = w /\ (k0 + List.length w <= len)%nat /\ (0 < List.length w)%nat.
Proof using Type.
  intros k0 w p (H1 & (r & Er) & _). split; [|split; [apply C11_spelling; exact H1|]].
  - unfold span. rewrite Er. apply firstn_app_exact. lia.
  - assert (Hw : w <> []) by (apply symbols_spec in H1; eapply symbols_nonempty; exact H1).
    apply (f_equal (@List.length byte)) in Er. rewrite skipn_length, app_length in Er. destruct w; [congruence|]. cbn [List.length] in *. lia.
Qed.

Lemma read_string_shape : forall end_ ic L t L', read_string F end_ ic L = Ok (t, L') ->
  if ic then (exists s, t = TInterpPart F s \/ t = TInterpEnd F s) else (exists s, t = TString F s \/ t = TInterpBegin F s).
Proof using Type.
  intros end_ ic L t L' E. unfold read_string, bind in E. destruct (string_loop _ _ _ _ _ _ _) as [[[buf op] L1]| |]; [|discriminate|discriminate].
  injection E as <- _. destruct ic, op; eauto.
Qed.
Lemma read_number_shape : forall first L t L', read_number F parse_f32 show_f32 f32_zero first L = Ok (t, L') -> (exists z, t = TInt F z) \/ (exists f, t = TFloat F f).
Proof using Type.
  intros first L t L' E. unfold read_number, bind in E. destruct (read_number_inner first L) as [[[[i r] buf] L1]| |]; [|discriminate|discriminate].
  destruct i; [destruct (i32_from_str_radix buf r); [|destruct (if r =? 10 then _ else _)] | destruct (parse_f32 buf)]; injection E as <- _; eauto.
Qed.
Lemma read_raw_shape : forall L t L', read_raw_string F L = Ok (t, L') -> exists s, t = TString F s.
Proof using Type.
  assert (Hi : forall tm L t L', read_raw_string_inner F tm L = Ok (t, L') -> exists s, t = TString F s).
  { intros tm L t L' E. unfold read_raw_string_inner, bind in E. destruct (raw_loop _ _ _ _ _) as [[buf L1]| |]; [|discriminate|discriminate]. injection E as <- _. eauto. }
  intros L t L' E. unfold read_raw_string in E. destruct (lnext L) as [[b|] L1]; [|injection E as <- _; eauto].
  destruct (b =? 10); [injection E as <- _; eauto|]. destruct (b =? 40).
  { unfold bind in E. destruct (term_loop _ _ _) as [[[[|x tm]|] L2]| |]; try discriminate; try (injection E as <- _; eauto; fail). eapply Hi; exact E. }
  destruct (b =? 123); [|eapply Hi; exact E]. destruct (lnext L1) as [[c|] L2].
  - destruct (c =? 34); [eapply Hi; exact E|]. unfold bind in E. destruct (put_back _ _); [|discriminate|discriminate]. eapply Hi; exact E.
  - unfold bind in E. destruct (put_back _ _); [|discriminate|discriminate]. eapply Hi; exact E.
Qed.
Lemma block_shape : forall L t L', skip_block_comments F L = Ok (Some t, L') -> exists tg s, t = TDoc F KBlock tg s.
Proof using Type.
  intros L t L' E. unfold skip_block_comments, bind in E. destruct (lnext L) as [c L1].
  destruct (match c with Some _ => _ | None => _ end) as [cm b1]. destruct (block_loop _ _ _ _ _ _) as [[txt L2]| |]; [|discriminate|discriminate].
  injection E as E _. destruct cm; [|discriminate]. destruct (_ =? _)%nat; [discriminate|]. injection E as <-. eauto.
Qed.
Lemma line_shape : forall L t L', skip_line_comment F L = Ok (Some t, L') -> exists tg s, t = TDoc F KLine tg s.
Proof using Type.
  intros L t L' E. unfold skip_line_comment, bind in E. destruct (lnext L) as [c L1].
  destruct (match c with Some _ => _ | None => _ end) in E; [destruct (put_back _ _); discriminate|].
  destruct (line_loop _ _ _ _ _) as [[txt L2]| |]; [|discriminate|discriminate].
  injection E as E _. destruct (match c with Some _ => _ | None => _ end) in E; [|discriminate]. injection E as <-. eauto.
Qed.

Lemma token_post_mono : forall k k' fin x, token_post k' fin x -> gap content k k' -> token_post k fin x.
Proof using Type.
  intros k k' fin x [(k0 & k1 & t & L' & E & H1 & H2)|[(L' & E & H1 & H2)|(L' & E & H1 & H2)]] G.
  - left. exists k0, k1, t, L'. split; [exact E|]. split; [eapply gap_trans; eauto | exact H2].
  - right. left. exists L'. split; [exact E|]. split; [eapply gap_trans; eauto | exact H2].
  - right. right. exists L'. split; [exact E|]. split; [eapply gap_trans; eauto | exact H2].
Qed.
Lemma keeps_wf : forall L L', keeps L L' -> wf L -> wf L'.
Proof using Type. intros L L' (_ & H & _) W. unfold wf. rewrite H. exact W. Qed.
Lemma keeps_final : forall L L' fin, keeps L L' -> final_newline L = fin -> final_newline L' = fin.
Proof using Type. intros L L' fin (H & _) E. congruence. Qed.
(** what follows the two bytes of an opening delimiter *)
Lemma two_bytes : forall k0 k1 a b, span content k0 k1 = [a; b] -> (k0 < k1)%nat -> (k1 <= len)%nat ->
  k1 = (k0 + 2)%nat /\ skipn k0 content = a :: b :: skipn (k0 + 2) content /\ span content k0 (k0 + 2) = [a; b].
Proof using Type.
  intros k0 k1 a b H H1 H2. assert (E : k1 = (k0 + 2)%nat) by (pose proof (f_equal (@List.length byte) H) as El; rewrite span_length in El by lia; cbn in El; lia).
  subst k1. split; [reflexivity|]. split; [|exact H]. unfold span in H. replace (k0 + 2 - k0)%nat with 2%nat in H by lia.
  rewrite <- (firstn_skipn 2 (skipn k0 content)), H. cbn [app]. rewrite skipn_skip. reflexivity.
Qed.

Lemma token_loop_spec : forall fuel g k L sn fi fin, spot k L -> wf L -> final_newline L = fin -> (len - k < fuel)%nat -> gap_start sn g k ->
  token_post g fin (token_loop fuel sn fi L).
Proof using Type.
  induction fuel as [|fuel IH]; intros g k L sn fi fin H W Hf Hfuel Hg; [lia|]. cbn [Model.token_loop].
  destruct (skip_ws_post content k L sn fin H W Hf) as [(first & L1 & k0 & -> & Hkk & Hn & Hat & Hloc & W1 & Hf1 & Hws & N13)|(L1 & -> & Hend & W1 & Hf1 & Hws)]; cbn [bind].
  2:{ pose proof (spot_le _ _ _ H) as Hkl. assert (Gl : gap content g len) by (eapply ws_gap; eauto). rewrite Hf1. destruct fin.
      - right. right. exists L1. repeat (split; [first [reflexivity | assumption]|]). assumption.
      - right. left. exists (set_final true L1). assert (El : location L1 = end_place content) by apply Hend. rewrite El. split; [reflexivity|]. split; [exact Gl|]. split; [reflexivity|].
        split; [eapply ended_inp; [exact Hend | reflexivity | reflexivity]|]. split; [exact W1 | reflexivity]. }
  assert (Hk0 : (k0 < len)%nat) by (apply nth_error_Some; rewrite Hn; discriminate).
  assert (Hk : gap content g k0) by (eapply ws_gap; eauto; lia). clear Hws.
  destruct (dir L1) eqn:Ed.
  4:{ destruct (put_back_spot content k0 first (set_dir DNone L1) Hn) as (L2 & E2 & H2 & Hs2 & _); [eapply at_inp; [exact Hat | reflexivity | reflexivity | reflexivity]|].
      rewrite E2. cbn [bind].
      assert (W2 : wf L2) by (eapply same_wf; [exact Hs2 | exact W1]). assert (Hf2 : final_newline L2 = fin) by (eapply same_final; [exact Hs2 | exact Hf1]).
      (* at least the put-back byte is read again *)
      assert (G : Facts.good content 0 (S k0) fin (read_string F [10] false L2)).
      { unfold read_string. apply good_bind; [|intros [buf op] L' k' _ H' W' Hf'; apply good_ok; auto].
        remember (S (List.length (bytes L2))) as nf eqn:Enf. assert (Ef : fuel_of L2 = S nf) by (rewrite Enf; reflexivity). rewrite Ef. cbn [string_loop]. rd H2 b L3; [|exfalso; lia]. rewrite Hn in Hn0. injection Hn0 as <-.
        assert (W3 : wf L3) by eauto with lex. assert (Hf3 : final_newline L3 = fin) by eauto with lex. assert (H3 : spot (S k0) L3) by eauto with lex.
        assert (Hfu : (len - S k0 < nf)%nat) by (rewrite Enf, (spot_bytes _ _ _ H2), skipn_length; lia).
        assert (N1 : [10] <> ([] : list byte)) by discriminate.
        destruct (_ && _); [destruct (_ =? _)%nat; [apply good_ok; auto | apply string_loop_good; auto]|]. cbn [Nat.ltb Nat.leb andb]. cbv zeta.
        destruct (first =? 91); [apply good_ok; [eapply spot_inp; [exact H3|reflexivity|reflexivity|reflexivity] | constructor; [cbn; split; [lia | exact N1] | exact W3] | exact Hf3]|].
        destruct (first =? 92); apply string_loop_good; auto. }
      eapply (good_token g k0 (S k0) fin _ (fun _ => True)); [exact G | exact Hk | lia | exact Hloc|].
      intros t k' L' E. apply read_string_shape in E. destruct E as (s & [-> | ->]); cbn; eauto. }
  all: assert (P : forall q L2 k1, same L1 L2 -> spot k1 L2 -> (k0 < k1)%nat -> (q = None -> k1 = S k0 /\ at_ content (S k0) L2 /\ (forall w p, spells w p -> ~ prefix w (skipn k0 content))) ->
        (forall p, q = Some p -> (span content k0 k1 = value p /\ (longest (value p) p (skipn k0 content)))) ->
        token_post g fin (do (p, L3) <- close_stage q L2; dispatch F parse_f32 show_f32 f32_zero (token_loop fuel) first (location L1) fi p L3)).
  2,4,6: destruct (read_punct_spec content k0 first L1 Hn Hat) as [(p & w & L2 & -> & Hlo & H2 & Hs2)|(-> & Hno)]; cbn [bind];
    [ pose proof (punct_span _ _ _ Hlo) as (S1 & S2 & S3 & S4); apply (P _ _ (k0 + List.length w)%nat); [exact Hs2 | exact H2 | lia | discriminate|];
      intros p' Ep; injection Ep as <-; rewrite S2; split; [exact S1 | exact Hlo]
    | apply (P _ _ (S k0)); [apply same_refl | apply at_spot; exact Hat | lia | intros _; split; [reflexivity | split; [exact Hat | exact Hno]] | discriminate] ].
  all: clear Ed; intros q L2 k1 Hs12 H2 Hk1 Hq Hp; rewrite Hloc.
  all: assert (W2 : wf L2) by eauto with lex; assert (Hf2 : final_newline L2 = fin) by eauto with lex; pose proof (spot_le _ _ _ H2) as Hk1le.
  all: assert (C : exists p L3, close_stage q L2 = Ok (p, L3) /\
       spot k1 L3 /\ wf L3 /\ final_newline L3 = fin /\ (p = q \/ exists pp, q = Some pp /\ p = Some (close pp)) /\ (p = None -> k1 = S k0 /\ at_ content (S k0) L3 /\ (forall w p, spells w p -> ~ prefix w (skipn k0 content)))).
  1,3,5: unfold close_stage; destruct (close_allowed L2); [|exists q, L2; split; [reflexivity|]; split; [exact H2|]; split; [exact W2|]; split; [exact Hf2|]; split; [left; reflexivity | exact Hq]];
    destruct q as [pp|]; [|exists None, L2; split; [reflexivity|]; split; [exact H2|]; split; [exact W2|]; split; [exact Hf2|]; split; [left; reflexivity | exact Hq]];
    destruct (check_close_spec k1 L2 pp H2) as (L3 & -> & H3 & Hs3 & _); cbn [bind]; eexists _, L3; split; [reflexivity|]; split; [exact H3|]; split; [eapply same_wf; eauto|]; split; [eapply same_final; eauto|];
    split; [|discriminate]; destruct (match nth_error content k1 with Some _ => _ | None => _ end); [left; reflexivity | right; exists pp; auto].
  all: destruct C as (p & L3 & -> & H3 & W3 & Hf3 & Hpq & Hnone); cbn [bind]; unfold dispatch; cbv zeta.
  all: assert (PT : forall v L4, p = Some v -> spot k1 L4 -> wf L4 -> final_newline L4 = fin -> token_post g fin (Ok (Some (place (firstn k0 content), TPunct F v), L4))).
  1,3,5: (intros v L4 -> H4 W4 Hf4; left; exists k0, k1, (TPunct F v), L4; split; [reflexivity|]; split; [exact Hk|]; split; [exact Hk1|]; split; [exact Hk1le|]; split; [|auto]; cbn [spelled];
    destruct Hpq as [Eq|(pp & Eq & Ev)]; [destruct (Hp v (eq_sym Eq)) as [A B]; split; [exact A | right; left; exact B]|];
    destruct (Hp pp Eq) as [A B]; injection Ev as ->; destruct (punct_eq_dec pp PColon) as [->|Hne]; [split; [exact A | right; right; split; [reflexivity | exact B]]|];
    assert (close pp = pp) as -> by (destruct pp; try reflexivity; congruence); split; [exact A | right; left; exact B]).
  all: assert (FB : forall v, p = Some v -> nth_error content k0 = Some (hd 0 (value v)));
    [ intros v Ev; assert (Hv : exists pp, q = Some pp /\ value v = value pp) by (destruct Hpq as [Eq|(pp & Eq & Ev')]; [exists v; split; congruence | exists pp; split; [exact Eq|]; rewrite Ev in Ev'; injection Ev' as ->; destruct pp; reflexivity]);
      destruct Hv as (pp & Eq & ->); destruct (Hp pp Eq) as [A (B & (r & Er) & _)]; rewrite (skipn_nth _ _ _ Hn) in Er; destruct (value pp) as [|x w] eqn:Ew; [destruct pp; discriminate|]; injection Er as -> _; exact Hn |].
  all: assert (FV : forall v, p = Some v -> span content k0 k1 = value v);
    [ intros v Ev; assert (Hv : exists pp, q = Some pp /\ value v = value pp) by (destruct Hpq as [Eq|(pp & Eq & Ev')]; [exists v; split; congruence | exists pp; split; [exact Eq|]; rewrite Ev in Ev'; injection Ev' as ->; destruct pp; reflexivity]);
      destruct Hv as (pp & Eq & ->); exact (proj1 (Hp pp Eq)) |].
  all: assert (CONT : forall sn' fi' g' k' L4, spot k' L4 -> wf L4 -> final_newline L4 = fin -> (k0 < k')%nat -> gap content k0 g' -> gap_start sn' g' k' -> token_post g fin (token_loop fuel sn' fi' L4));
    [ intros sn' fi' g' k' L4 H4 W4 Hf4 Hk' Hg1 Hg2; apply (token_post_mono g g'); [|eapply gap_trans; eauto]; eapply IH; eauto; lia |].
  all: assert (ST : forall end_ ic L4, spot k1 L4 -> wf L4 -> final_newline L4 = fin -> end_ <> [] -> (ic = true -> nth_error content k0 = Some 93) ->
      token_post g fin (do (t, L5) <- read_string F end_ ic L4; Ok (Some (place (firstn k0 content), t), L5)));
    [ intros end_ ic L4 H4 W4 Hf4 Hend Hic; eapply (good_token g k0 k1 fin _ (fun _ => True)); [apply read_string_good; eassumption | exact Hk | exact Hk1 | reflexivity|];
      intros t k' L' E; apply read_string_shape in E; destruct ic; destruct E as (s & [-> | ->]); cbn [spelled]; eauto |].
  all: destruct p as [v|].
  2,4,6: destruct (Hnone eq_refl) as (Ek1 & Hat3 & Hno); clear Hnone Hpq PT FB FV Hp;
    (destruct (is_digit first) eqn:Edig;
     [ eapply (good_token g k0 (S k0) fin _ (fun _ => True)); [apply read_number_good; eauto with lex | exact Hk | lia | reflexivity|];
       intros t k' L' E; apply read_number_shape in E; unfold is_digit in Edig; apply andb_true_iff in Edig; rewrite !N.leb_le in Edig; destruct E as [(z & ->)|(z & ->)]; cbn [spelled]; eauto |];
     destruct (is_ident_byte first) eqn:Eid;
     [ destruct (read_ident_spec k0 first L3 Hn) as (k' & L4 & ws & -> & Hk' & HF & H4 & Hs4 & Hnx); [apply is_ident_iff; rewrite Eid; reflexivity | exact Hat3|]; cbn [bind]; cbv zeta;
       set (L5 := match dir L4 with DHash => _ | _ => _ end);
       assert (H5 : spot k' L5) by (unfold L5; destruct (dir L4); exact H4);
       assert (W5 : wf L5) by (unfold L5; destruct (dir L4); exact (same_wf _ _ Hs4 W3));
       assert (Hf5 : final_newline L5 = fin) by (unfold L5; destruct (dir L4); exact (same_final _ _ _ Hs4 Hf3));
       destruct (text_eqb (span content k0 k') (lit "in")) eqn:Ein;
       [ apply text_eqb_eq in Ein; left; exists k0, k', (TPunct F PIn), L5; split; [reflexivity|]; split; [exact Hk|]; split; [lia|]; split; [lia|]; split; [|auto]; cbn [spelled]; rewrite Ein; split; [reflexivity | left; reflexivity]
       | left; exists k0, k', (TIdent F (span content k0 k') ws), (set_close true L5); split; [reflexivity|]; split; [exact Hk|]; split; [lia|]; split; [lia|];
         split; [cbn [spelled]; split; [reflexivity|]; split; [intro Ec; rewrite Ec, text_eqb_refl in Ein; discriminate|]; split; [exact HF | exact Hnx]|];
         split; [eapply spot_inp; [exact H5 | reflexivity | reflexivity | reflexivity]|]; split; [exact W5 | exact Hf5] ] |];
     destruct (N.eqb_spec first 92) as [E92|N92];
     [ subst first; eapply (CONT true fi k0 (S k0)); [eapply spot_inp; [apply at_spot; exact Hat3 | reflexivity | reflexivity |]; destruct Hat3 as (_ & _ & _ & Hh); rewrite Hh, (firstn_S_nth _ _ _ Hn), head_of_snoc; cbn; rewrite andb_false_r; reflexivity
       | exact W3 | exact Hf3 | lia | constructor | split; [reflexivity | exact Hn]] |];
     destruct (N.eqb_spec first 64) as [E64|N64];
     [ eapply (good_token g k0 (S k0) fin _ (fun _ => True)); [apply read_raw_good; eauto with lex | exact Hk | lia | reflexivity|];
       intros t k' L' E; apply read_raw_shape in E; destruct E as (s & ->); cbn [spelled]; eauto |];
     apply (CONT false true k1 k1); [destruct fi; [exact H3 | eapply spot_inp; [exact H3 | reflexivity | reflexivity | reflexivity]] | destruct fi; exact W3 | destruct fi; exact Hf3 | exact Hk1
       | subst k1; eapply gap_illegal; [exact Hn | eapply illegal_intro; eauto | constructor] | reflexivity]).
  all: clear Hnone Hp Hq Hpq H.
  all: destruct v; try (apply PT; auto; fail).
  all: try (apply ST; [exact H3 | exact W3 | exact Hf3 | discriminate | discriminate]).
  all: try (destruct (read_resource_good content k1 L3 fin H3 W3 Hf3) as (s & L4 & k' & -> & A & B & C & D); cbn [bind]; left; exists k0, k', (TResource F s), L4; split; [reflexivity|];
    split; [exact Hk|]; split; [lia|]; split; [eapply spot_le; exact B|]; split; [cbn [spelled]; exact (FB _ eq_refl) | auto]; fail).
  all: try (pose proof (FV _ eq_refl) as Ev; cbn [value] in Ev; destruct (two_bytes _ _ _ _ Ev Hk1 Hk1le) as (E1 & E2 & E3); clear Ev;
    destruct (skip_block_spec content k1 F L3 H3) as (n & body & L4 & Eb & Hx & Hle & H4 & Hkp & _); rewrite Eb; cbn [bind]; subst k1;
    destruct (block_doc (skipn (k0 + 2) content) body) as [[tt txt]|] eqn:Ebd; cbn [mk_doc option_map fst snd];
    [ left; exists k0, (k0 + 2 + n)%nat; eexists _, L4; split; [reflexivity|]; split; [exact Hk|]; split; [lia|]; split; [exact Hle|];
      split; [|split; [exact H4 | split; [eapply keeps_wf; eauto | eapply keeps_final; eauto]]]; cbn [spelled]; exists (skipn (k0 + 2) content), txt; split; [exact E2|]; split; [reflexivity|]; exists n, body; split; [exact Hx|]; split; [reflexivity|]; rewrite Ebd; destruct tt; reflexivity
    | apply (CONT false fi (k0 + 2 + n)%nat (k0 + 2 + n)%nat); [exact H4 | eapply keeps_wf; eauto | eapply keeps_final; eauto | lia | eapply gap_block; [exact E3 | exact Hx | exact Ebd | constructor] | reflexivity] ]; fail).
  all: try (pose proof (FV _ eq_refl) as Ev; cbn [value] in Ev; destruct (two_bytes _ _ _ _ Ev Hk1 Hk1le) as (E1 & E2 & E3); clear Ev;
    destruct (skip_line_spec content F k1 L3 H3) as (w & L4 & Eb & Hx & Hle & H4 & Hkp); rewrite Eb; cbn [bind]; subst k1;
    destruct (line_doc w) as [[tt txt]|] eqn:Ebd; cbn [mk_doc option_map fst snd];
    [ left; exists k0, (k0 + 2 + List.length w)%nat; eexists _, L4; split; [reflexivity|]; split; [exact Hk|]; split; [lia|]; split; [exact Hle|];
      split; [|split; [exact H4 | split; [eapply keeps_wf; eauto | eapply keeps_final; eauto]]]; cbn [spelled]; exists (skipn (k0 + 2) content), txt; split; [exact E2|]; split; [reflexivity|]; exists w; split; [exact Hx|]; split; [reflexivity|]; rewrite Ebd; destruct tt; reflexivity
    | apply (CONT false fi (k0 + 2 + List.length w)%nat (k0 + 2 + List.length w)%nat); [exact H4 | eapply keeps_wf; eauto | eapply keeps_final; eauto | lia | eapply gap_line; [exact E3 | exact Hx | exact Ebd | constructor] | reflexivity] ]; fail).
  all: try (destruct (dir L3); (apply PT; [reflexivity | exact H3 | exact W3 | exact Hf3]); fail).
  all: try (apply PT; [reflexivity | eapply spot_inp; [exact H3 | reflexivity | reflexivity | reflexivity] | exact W3 | exact Hf3]; fail).
  all: destruct (stack L3) as [|i st] eqn:Est; try (apply PT; [reflexivity | eapply spot_inp; [exact H3 | reflexivity | reflexivity | reflexivity] | exact W3 | exact Hf3]; fail).
  all: assert (Wi : (1 <= i_depth i)%nat /\ i_end i <> []) by (unfold wf in W3; rewrite Est in W3; inversion W3; assumption).
  all: assert (Wst : Forall (fun i => (1 <= i_depth i)%nat /\ i_end i <> []) st) by (unfold wf in W3; rewrite Est in W3; inversion W3; assumption).
  all: try (apply PT; [reflexivity | eapply spot_inp; [exact H3 | reflexivity | reflexivity | reflexivity] | constructor; [cbn; split; [lia | apply Wi] | exact Wst] | exact Hf3]; fail).
  all: destruct (Nat.eqb_spec (i_depth i) 0) as [E0|E0]; [lia|]; destruct (Nat.eqb_spec (i_depth i - 1) 0) as [E1|E1];
    [ apply ST; [eapply spot_inp; [exact H3 | reflexivity | reflexivity | reflexivity] | exact Wst | exact Hf3 | apply Wi | intros _; exact (FB _ eq_refl)]
    | apply PT; [reflexivity | eapply spot_inp; [exact H3 | reflexivity | reflexivity | reflexivity] | constructor; [cbn; split; [lia | apply Wi] | exact Wst] | exact Hf3] ].
Qed.
End TOKENS.

(** ** C14 *)
(** The tokens [ts] lie in the content, from the byte number [k] on: gap, token, gap, token, ..., gap, the final newline. *)
Inductive layout (F : Type) (content : list byte) : nat -> list ((N * N) * token F) -> Prop :=
  | lay_end k : gap content k (List.length content) ->
      layout F content k [((fst (end_place content), snd (end_place content) + 1), TPunct F PNewline)]
  | lay_token k k0 k1 t ts : gap content k k0 -> (k0 < k1 <= List.length content)%nat -> spelled F content k0 k1 t -> layout F content k1 ts ->
      layout F content k ((place (firstn k0 content), t) :: ts).

Section LEX.
Variable F : Type.
Variable parse_f32 : text -> option F.
Variable show_f32 : F -> text.
Variable f32_zero : F.
Notation lex := (lex F parse_f32 show_f32 f32_zero).
Notation tokens := (tokens F parse_f32 show_f32 f32_zero).
Notation token_next := (token_next F parse_f32 show_f32 f32_zero).

(** the results of [n] further calls of the iterator *)
Fixpoint calls (n : nat) (L : lexer) : res (list (option ((N * N) * token F))) :=
  match n with O => Ok [] | S n' => do (t, L1) <- token_next L; do ts <- calls n' L1; Ok (t :: ts) end.

Lemma token_next_spec : forall content k L, spot content k L -> wf L -> token_post content F k (final_newline L) (token_next L).
Proof using Type.
  intros content k L H W. unfold Model.token_next. eapply token_loop_spec; eauto; [rewrite (spot_fuel content k) by exact H; lia | reflexivity].
Qed.
Lemma calls_none : forall n content L, ended content (List.length content) L -> wf L -> final_newline L = true -> calls n L = Ok (repeat None n).
Proof using Type.
  induction n as [|n IH]; intros content L He W Hf; [reflexivity|]. cbn [calls repeat].
  destruct (token_next_spec content _ L (ended_spot _ _ _ He) W) as [(k0 & k1 & t & L' & _ & Hg & Hk & Hk' & _)|[(L' & _ & _ & Hfin & _)|(L' & E & _ & _ & He' & W' & Hf')]].
  - pose proof (gap_le _ _ _ Hg). lia.
  - congruence.
  - rewrite E. cbn [bind]. rewrite (IH content L') by assumption. reflexivity.
Qed.
Lemma tokens_layout : forall fuel content k L, spot content k L -> wf L -> final_newline L = false -> (List.length content - k + 1 < fuel)%nat ->
  exists toks L', tokens fuel L = Ok (toks, L') /\ layout F content k toks /\ ended content (List.length content) L' /\ wf L' /\ final_newline L' = true.
Proof using Type.
  induction fuel as [|fuel IH]; intros content k L H W Hf Hfuel; [lia|]. cbn [Model.tokens].
  destruct (token_next_spec content k L H W) as [(k0 & k1 & t & L1 & -> & Hg & Hk & Hk' & Hsp & H1 & W1 & Hf1)|[(L1 & -> & Hg & _ & He & W1 & Hf1)|(L1 & _ & _ & Hfin & _)]].
  - cbn [bind]. pose proof (gap_le _ _ _ Hg). destruct (IH content k1 L1) as (toks & L' & -> & A & B & C & D); [assumption | assumption | congruence | lia|].
    cbn [bind]. eexists _, L'. split; [reflexivity|]. split; [eapply lay_token; eauto | auto].
  - cbn [bind]. destruct fuel as [|fuel]; [lia|]. cbn [Model.tokens].
    destruct (token_next_spec content _ L1 (ended_spot _ _ _ He) W1) as [(k0 & k1 & t & L' & _ & Hg' & Hk & Hk' & _)|[(L' & _ & _ & Hfin & _)|(L' & -> & _ & _ & He' & W' & Hf')]].
    + pose proof (gap_le _ _ _ Hg'). lia.
    + congruence.
    + cbn [bind]. eexists _, L'. split; [reflexivity|]. split; [constructor; exact Hg | auto].
  - congruence.
Qed.

(** Lexing any input succeeds: no panic, no endless loop.  The tokens lie in order in the content (the input without its byte order
    mark); between them there is nothing but blanks, comments and illegal bytes; every further call returns None. *)
Theorem C14_total : forall input content, file_text input content -> exists toks L', lex input = Ok (toks, L') /\ layout F content 0 toks /\ bytes L' = [] /\
  forall n, calls n L' = Ok (repeat None n).
Proof using Type.
  intros input content Ht.
  assert (H : spot content 0 (new_lexer input)).
  { rewrite (file_text_skip _ _ Ht). left. split; [reflexivity|]. split; [lia|]. split; [|reflexivity]. split; [reflexivity|]. left. split; [reflexivity|]. split; reflexivity. }
  assert (Hl : (List.length content <= List.length input)%nat).
  { destruct Ht as [->|(_ & ->)]; [rewrite app_length|]; lia. }
  destruct (tokens_layout (S (S (List.length input))) content 0 (new_lexer input) H) as (toks & L' & E & A & B & C & D); [constructor | reflexivity | lia|].
  exists toks, L'. split; [exact E|]. split; [exact A|]. split; [|intro n; eapply calls_none; eauto].
  destruct B as (_ & Hp & Hr & _). unfold bytes. rewrite Hp. exact Hr.
Qed.

Lemma layout_shape : forall content k toks, layout F content k toks ->
  exists ts, toks = ts ++ [((fst (end_place content), snd (end_place content) + 1), TPunct F PNewline)] /\ (List.length ts <= List.length content - k)%nat.
Proof using Type.
  induction 1 as [k Hg|k k0 k1 t ts Hg Hk Hsp Hl (ts' & -> & Hn)]; [exists []; cbn; split; [reflexivity | lia]|].
  eexists (_ :: ts'). split; [reflexivity|]. pose proof (gap_le _ _ _ Hg). cbn [List.length]. lia.
Qed.
(** There is exactly one token for the end of the input, a newline, and no more tokens than bytes otherwise. *)
Theorem C14_final_newline : forall input content toks L', file_text input content -> lex input = Ok (toks, L') ->
  exists ts, toks = ts ++ [((fst (end_place content), snd (end_place content) + 1), TPunct F PNewline)] /\ (List.length ts <= List.length content)%nat.
Proof using Type.
  intros input content toks L' Ht E. destruct (C14_total input content Ht) as (toks' & L'' & E' & A & _). rewrite E in E'. injection E' as <- <-.
  destruct (layout_shape _ _ _ A) as (ts & -> & Hn). exists ts. split; [reflexivity | lia].
Qed.

(** Every byte of the content belongs to exactly one token or gap: the tokens' spans are disjoint and their places strictly increase. *)
Fixpoint increasing (l : list ((N * N) * token F)) : Prop :=
  match l with a :: (b :: _) as l' => place_lt (fst a) (fst b) /\ increasing l' | _ => True end.
Lemma place_mono : forall content k0 k1, (k0 < k1 <= List.length content)%nat -> place_lt (place (firstn k0 content)) (place (firstn k1 content)).
Proof using Type.
  intros content k0 k1 H. assert (Step : forall k b, nth_error content k = Some b -> place_lt (place (firstn k content)) (place (firstn (S k) content))).
  { intros k b Hb. rewrite (firstn_S_nth _ _ _ Hb). unfold place, place_lt. rewrite newlines_snoc, since_nl_snoc. cbn [fst snd]. destruct (b =? NL); lia. }
  assert (T : forall p q r, place_lt p q -> place_lt q r -> place_lt p r) by (unfold place_lt; intros; lia).
  remember (k1 - k0)%nat as d. assert (k1 = k0 + d)%nat by lia. subst k1. destruct d as [|d]; [lia|]. clear Heqd. revert k0 H.
  induction d as [|d IH]; intros k0 H.
  - destruct (nth_error content k0) as [b|] eqn:Eb; [|apply nth_error_None in Eb; lia]. rewrite Nat.add_1_r. eapply Step; exact Eb.
  - destruct (nth_error content k0) as [b|] eqn:Eb; [|apply nth_error_None in Eb; lia].
    eapply T; [eapply Step; exact Eb|]. replace (k0 + S (S d))%nat with (S k0 + S d)%nat by lia. apply IH. lia.
Qed.
Lemma place_end : forall content k0, (k0 < List.length content)%nat -> place_lt (place (firstn k0 content)) (fst (end_place content), snd (end_place content) + 1).
Proof using Type.
  intros content k0 H. destruct (exists_last (l := content)) as (d & b & ->); [destruct content; [cbn in H; lia | discriminate]|].
  rewrite app_length in H. cbn [List.length] in H. unfold end_place. rewrite rev_app_distr. cbn [rev app]. rewrite rev_involutive, newlines_snoc.
  assert (P : k0 = List.length d \/ place_lt (place (firstn k0 (d ++ [b]))) (place d)).
  { destruct (Nat.eq_dec k0 (List.length d)) as [->|Hne]; [left; reflexivity|]. right.
    pose proof (place_mono (d ++ [b]) k0 (List.length d)) as Hm. rewrite (firstn_app_exact d [b] (List.length d) eq_refl) in Hm. apply Hm. rewrite app_length. cbn. lia. }
  assert (P' : place_lt (place (firstn k0 (d ++ [b]))) (fst (place d), snd (place d) + 1)).
  { destruct P as [->|P]; [rewrite (firstn_app_exact d [b] _ eq_refl)|]; unfold place_lt in *; cbn [fst snd] in *; lia. }
  destruct (b =? NL) eqn:Eb; [|exact P']. unfold place_lt, place in *. cbn [fst snd] in *. lia.
Qed.
Theorem C14_increasing : forall input toks L', lex input = Ok (toks, L') -> increasing toks.
Proof using Type.
  intros input toks L' E. destruct (C14_total input _ (file_text_exists input)) as (toks' & L'' & E' & A & _). rewrite E in E'. injection E' as <- <-. clear E.
  induction A as [k Hg|k k0 k1 t ts Hg Hk Hsp Hl IH]; [exact I|]. cbn [increasing]. destruct ts as [|u ts]; [exact I|]. split; [|exact IH].
  inversion Hl as [k' Hg'|k' k0' k1' t' ts' Hg' Hk' Hsp' Hl']; subst; cbn [fst].
  - apply place_end. lia.
  - apply place_mono. pose proof (gap_le _ _ _ Hg'). lia.
Qed.
End LEX.
Print Assumptions C14_total.
Print Assumptions C14_increasing.

Example C14_demo : lex unit (fun _ => Some tt) (fun _ => []) tt (lit "a /* c */ += 12 // x") =
  Ok ([((1, 1), TIdent unit (lit "a") true); ((1, 11), TPunct unit PAddAssign); ((1, 14), TInt unit 12); ((1, 21), TPunct unit PNewline)],
      snd (match lex unit (fun _ => Some tt) (fun _ => []) tt (lit "a /* c */ += 12 // x") with Ok p => p | _ => ([], new_lexer []) end)).
Proof. vm_compute. reflexivity. Qed.
