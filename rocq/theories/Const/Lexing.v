(** Lexing a text piece by piece: names, signs, strings, resources and numbers, with single spaces between them. *)
From Coq Require Import List NArith ZArith Bool String Lia.
From Verif Require Import Common.Text Common.Utf8 Loc.Model Lexer.Tracker Lexer.Punct Lexer.Model Lexer.Spec Lexer.Facts Lexer.PunctProps
  Lexer.CommentProps Lexer.LexProps Lexer.QuoteProps Const.Model Const.Spec Const.Dir.
Import ListNotations.
Open Scope N_scope.

(** what may come after a constant *)
Definition stop (r : list N) : Prop := r = [] \/ exists b r', r = b :: r' /\ In b [32; 44; 41; 59; 125].
Definition first_in (P : N -> Prop) (r : list N) : Prop := match r with [] => True | b :: _ => P b end.
Definition blank_next (r : list N) : bool := match r with b :: _ => (b =? 32) || (b =? 9) | [] => false end.

Section LEX.
Variable F : Type.
Variable fl : f32 F.
Notation token := (token F).
Notation P p := (TPunct F p).
Notation token_next := (token_next F (f_parse F fl) (f_show F fl) (f_zero F fl)).
Notation trace := (trace F fl).

(** [w] in front of [r] is the token [t] *)
Inductive lexeme : list N -> token -> list N -> Prop :=
  | lx_punct c p r : In (c, p) [(40, PLParen); (41, PRParen); (44, PComma); (59, PSemicolon); (125, PRBrace)] ->
      lexeme [c] (P p) r
  | lx_brace r : first_in ident_byte r -> lexeme [123] (P PLBrace) r
  | lx_assign r : first_in (eq 32) r -> lexeme [61] (P PAssign) r
  | lx_slash r : first_in ident_byte r -> lexeme [47] (P PSlash) r
  | lx_minus r : first_in digit r -> lexeme [45] (P PSub) r
  | lx_name w r : name w -> first_in (fun b => ~ ident_byte b) r -> lexeme w (TIdent F w (blank_next r)) r
  | lx_string s r : string_ok s -> lexeme (encode (quote s)) (TString F s) r
  | lx_resource s r : resource_ok s -> lexeme (39 :: encode s ++ [39]) (TResource F s) r
  | lx_int w r : w <> [] -> Forall digit w -> hd 0 w <> 48 \/ w = lit "0" -> (decimal w < 2 ^ 31)%Z -> stop r ->
      lexeme w (TInt F (decimal w)) r
  | lx_float w r v : literal F fl w v -> ~ Forall digit w -> stop r -> lexeme w (TFloat F v) r.

(** a text and its tokens, up to the newline that ends every file *)
Inductive spelt : list N -> list token -> Prop :=
  | sp_end : spelt [] [P PNewline]
  | sp_tok w t r ts : lexeme w t r -> spelt r ts -> spelt (w ++ r) (t :: ts)
  | sp_space w t r ts : lexeme w t r -> spelt r ts -> spelt (32 :: w ++ r) (t :: ts).

Section AT.
Variable content : list N.
Notation spot := (spot content).
(** at [k], outside of directives and interpolations *)
Definition here (k : nat) (L : lexer) : Prop :=
  spot k L /\ dir L = DNone /\ stack L = [] /\ final_newline L = false.
Lemma here_same k L k' L' : here k L -> spot k' L' -> same L L' -> dir L' = DNone -> here k' L'.
Proof using Type. intros (_ & _ & Hs & Hf) H (S1 & S2 & _ & _) Hd. repeat split; [exact H|exact Hd|congruence|congruence]. Qed.
Lemma here_dir k L : here k L -> dir L <> DStringy.
Proof using Type. intros (_ & H & _). rewrite H. discriminate. Qed.

(** ** Signs *)
Lemma read_sign k L c p r : here k L -> skipn k content = c :: r -> spells [c] p ->
  (forall d w' q, spells (c :: d :: w') q -> hd 0 r <> d) -> close p = p -> c <> 13 -> c <> 32 -> c <> 9 -> c <> 10 ->
  (forall F0 parse show zero again first loc fi L3, dispatch F0 parse show zero again first loc fi (Some p) L3 = Ok (Some (loc, TPunct F0 p), L3) \/
     dispatch F0 parse show zero again first loc fi (Some p) L3 = Ok (Some (loc, TPunct F0 p), set_close true L3)) ->
  exists loc L', token_next L = Ok (Some (loc, P p), L') /\ here (k + 1) L'.
Proof using Type.
  intros H E Hp Hmax Hc N1 N2 N3 N4 Hdisp. pose proof (here_dir _ _ H) as Hd.
  destruct (open_token F (f_parse F fl) (f_show F fl) (f_zero F fl) content k L c r (proj1 H) Hd E N1 N2 N3 N4) as (fuel & L1 & Hat & Hn & Hs1 & Hl & Et).
  destruct (read_punct_spec content k c L1 Hn Hat) as [(q & w & L2 & E2 & Hlo & H2 & Hs2)|(_ & Hno)].
  2:{ exfalso. eapply Hno; [exact Hp|]. rewrite E. exists r. reflexivity. }
  rewrite E in Hlo. assert (w = [c]) as ->.
  { destruct Hlo as (Hw & (r' & Er) & Hm). pose proof (Hm [c] p Hp (ex_intro _ r eq_refl)) as Hlen.
    destruct w as [|x [|d w']]; [cbn in Hlen; lia|injection Er as <- _; reflexivity|].
    exfalso. injection Er as <- Er. eapply Hmax; [exact Hw|]. rewrite Er. reflexivity. }
  assert (q = p) as -> by (destruct Hlo as (Hw & _); destruct Hw as [Hw _], Hp as [Hp _]; clear - Hw Hp;
     assert (D : NoDup (map fst PUNCT_TABLE)) by (vm_compute; repeat constructor; cbn; intuition congruence);
     revert Hw Hp D; generalize PUNCT_TABLE; intros l Hw Hp D;
     induction l as [|e l IH]; [destruct Hw|]; cbn [map] in D; inversion D as [|? ? Hni D']; subst;
     destruct Hw as [->|Hw], Hp as [Hp|Hp]; [congruence|exfalso; apply Hni; apply (in_map fst) in Hp; exact Hp|subst e; exfalso; apply Hni; apply (in_map fst) in Hw; exact Hw|auto]).
  rewrite E2 in Et. cbn [bind] in Et. rewrite close_stage_other in Et by exact Hc. cbn [bind] in Et.
  assert (HL2 : forall L3, L3 = L2 \/ L3 = set_close true L2 -> token_next L = Ok (Some (location L1, P p), L3) ->
     exists loc L', token_next L = Ok (Some (loc, P p), L') /\ here (k + 1) L').
  { intros L3 HL3 E3. exists (location L1), L3. split; [exact E3|].
    assert (dir L3 = DNone).
    { eapply token_next_quiet; [exact E3| |apply H]. intro Q. injection Q as ->.
      destruct (Hdisp F (f_parse F fl) (f_show F fl) (f_zero F fl) (fun _ _ _ => Stuck) 0 (0, 0) false (set_dir DNone L1)) as [Q|Q]; cbn in Q; discriminate Q. }
    destruct H as (Hsp & Hdd & Hst & Hfn). destruct Hs1 as (A1 & A2 & _). destruct Hs2 as (B1 & B2 & _). cbn [List.length] in H2.
    destruct HL3 as [->| ->]; repeat split; cbn; try assumption; try congruence. }
  destruct (Hdisp F (f_parse F fl) (f_show F fl) (f_zero F fl) (token_loop F (f_parse F fl) (f_show F fl) (f_zero F fl) fuel) c (location L1) false L2) as [Q|Q];
    rewrite Q in Et; (eapply HL2; [|exact Et]); [left|right]; reflexivity.
Qed.

(** ** Names *)
Lemma no_punct k L1 b r : at_ content (S k) L1 -> nth_error content k = Some b -> ident_byte b -> skipn k content = b :: r -> read_punct b L1 = Ok (None, L1).
Proof using Type.
  intros Hat Hn Hb E. destruct (read_punct_spec content k b L1 Hn Hat) as [(q & w & L2 & E2 & (Hw2 & (r2 & Er) & _) & _)|(E2 & _)]; [|exact E2]. exfalso.
  rewrite E in Er. destruct w as [|x w]; [destruct (symbols_nonempty [] q); [apply symbols_spec; exact Hw2|reflexivity]|]. injection Er as <- _.
  apply first_symbols in Hw2. unfold ident_byte in Hb. apply in_items_of in Hw2. destruct Hw2 as [Hw2 _].
  assert (Q : forallb (fun e : list N * punct => match fst e with x :: _ => negb (((97 <=? x) && (x <=? 122)) || ((65 <=? x) && (x <=? 90)) || (x =? 95) || ((48 <=? x) && (x <=? 57))) | [] => true end) symbols = true) by (vm_compute; reflexivity).
  rewrite forallb_forall in Q. specialize (Q _ Hw2). cbn [fst] in Q. apply negb_true_iff in Q. rewrite !orb_false_iff, !andb_false_iff, !N.leb_gt, N.eqb_neq in Q. lia.
Qed.
Lemma read_name k L w r : here k L -> skipn k content = w ++ r -> name w -> first_in (fun b => ~ ident_byte b) r ->
  exists loc L', token_next L = Ok (Some (loc, TIdent F w (blank_next r)), L') /\ here (k + List.length w) L'.
Proof using Type.
  intros H E ((b & w' & -> & Hnd) & HF & Hin) Hr. pose proof (here_dir _ _ H) as Hd. pose proof HF as HF'. inversion HF' as [|? ? Hb Hw]; subst. clear HF'.
  destruct (open_token F (f_parse F fl) (f_show F fl) (f_zero F fl) content k L b (w' ++ r) (proj1 H) Hd E) as (fuel & L1 & Hat & Hn & Hs1 & Hl & Et);
    try (unfold ident_byte in Hb; lia).
  assert (Hpn : read_punct b L1 = Ok (None, L1)) by (eapply no_punct; eassumption).
  rewrite Hpn in Et. cbn [bind] in Et. assert (Hcs : close_stage None L1 = Ok (None, L1)) by (unfold close_stage; destruct (close_allowed L1); reflexivity).
  rewrite Hcs in Et. cbn [bind] in Et. unfold dispatch in Et.
  assert (Hdg : is_digit b = false) by (unfold is_digit, digit in *; rewrite andb_false_iff, !N.leb_gt; unfold ident_byte in Hb; lia).
  assert (Hid : is_ident_byte b = true) by (pose proof (proj2 (is_ident_iff b) Hb) as Q; rewrite Hdg, orb_false_r in Q; exact Q).
  rewrite Hdg, Hid in Et.
  destruct (read_ident_spec content k b L1 Hn Hb Hat) as (k1 & L2 & ws & E2 & Hk & HF2 & H2 & Hs2 & Hnx).

  assert (Esp : span content k k1 = b :: w' /\ k1 = (k + S (List.length w'))%nat /\ ws = blank_next r).
  { unfold span in *. rewrite E in *. remember (k1 - k)%nat as n eqn:Hneq.
    assert (Hlen : (n <= List.length ((b :: w') ++ r))%nat) by (rewrite <- E, skipn_length; clear - Hneq Hk; lia).
    assert (Hcut : forall w (q : list N) m, Forall ident_byte w -> Forall ident_byte (firstn m (w ++ q)) -> first_in (fun x => ~ ident_byte x) q -> (m <= List.length w)%nat \/ q = []).
    { clear. intros w q m Hw Hf Hq. destruct q as [|x q]; [auto|]. left. destruct (Nat.le_gt_cases m (List.length w)) as [|G]; [assumption|]. exfalso.
      rewrite firstn_app in Hf. apply Forall_app in Hf. destruct Hf as [_ Hf]. destruct (m - List.length w)%nat eqn:Em; [lia|]. inversion Hf; subst. exact (Hq H1). }
    assert (Hge : (S (List.length w') <= n)%nat).
    { destruct (Nat.le_gt_cases (S (List.length w')) n) as [|G]; [assumption|]. exfalso.
      assert (Hx : nth_error content k1 = nth_error (b :: w') n).
      { replace k1 with (k + n)%nat by (clear - Hneq Hk; lia). rewrite <- (nth_error_app1 (b :: w') r (n := n)) by (cbn [List.length]; clear - G; lia). rewrite <- E.
        clear. revert n. generalize content. induction k as [|k IH]; intros l n; [reflexivity|]. destruct l; [cbn; destruct n; reflexivity|]. cbn. apply IH. }
      destruct (nth_error content k1) as [x|] eqn:Ex.
      - symmetry in Hx. apply nth_error_In in Hx. rewrite Forall_forall in HF. destruct Hnx as [Hnx _]. exact (Hnx (HF _ Hx)).
      - symmetry in Hx. apply nth_error_None in Hx. cbn [List.length] in Hx. lia. }
    assert (Hn2 : n = S (List.length w')).
    { destruct (Hcut (b :: w') r n HF HF2 Hr) as [G| ->]; [cbn [List.length] in G; lia|]. rewrite app_nil_r in Hlen. cbn [List.length] in Hlen. lia. }
    split; [rewrite Hn2; change (S (List.length w')) with (List.length (b :: w')); rewrite firstn_app, Nat.sub_diag, firstn_all; cbn [firstn]; apply app_nil_r|].
    split; [lia|].
    assert (Hx : nth_error content k1 = nth_error r 0).
    { replace k1 with (k + List.length (b :: w'))%nat by (cbn [List.length]; lia). pose proof (skip_more content k (b :: w') r E) as Er. rewrite <- Er.
      clear. generalize (k + List.length (b :: w'))%nat. intros n. revert content. induction n as [|n IH]; intros [|x l]; try reflexivity. cbn. apply IH. }
    rewrite Hx in Hnx. destruct r as [|x r]; cbn [nth_error blank_next] in *; [exact Hnx|apply Hnx]. }
  destruct Esp as (Esp & Ek & ->). rewrite E2 in Et. cbn [bind] in Et. rewrite Esp in Et. cbv zeta in Et.
  assert (Hnin : text_eqb (b :: w') (lit "in") = false) by (destruct (text_eqb_spec (b :: w') (lit "in")); congruence).
  rewrite Hnin in Et.
  match type of Et with _ = Ok (_, ?L5) => assert (HL5 : here (k + List.length (b :: w')) L5) end; [|eauto].
  assert (Hq : dir (set_close true (match dir L2 with DHash => set_dir (if text_eqb (b :: w') (lit "warn") || text_eqb (b :: w') (lit "error") then DStringy else DOrdinary) L2 | _ => L2 end)) = DNone).
  { eapply token_next_quiet; [exact Et|discriminate|apply H]. }
  rewrite Ek in H2. cbn [List.length].
  destruct H as (Hsp & Hdd & Hst & Hfn). destruct Hs1 as (A1 & A2 & _). destruct Hs2 as (B1 & B2 & _).
  split; [|split; [exact Hq|]].
  - eapply spot_inp; [exact H2|destruct (dir L2); reflexivity|destruct (dir L2); reflexivity|destruct (dir L2); reflexivity].
  - destruct (dir L2); cbn; split; congruence.
Qed.

(** ** Strings and resources *)
Lemma read_str k L s r : here k L -> skipn k content = encode (quote s) ++ r -> string_ok s ->
  exists loc L', token_next L = Ok (Some (loc, TString F s), L') /\ here (k + List.length (encode (quote s))) L'.
Proof using Type.
  intros H E (H1 & H2 & H3). destruct (requote F (f_parse F fl) (f_show F fl) (f_zero F fl) content k L s r (proj1 H) (here_dir _ _ H) H1 H2 H3 E) as (L' & Et & Hsp & Hsm).
  exists (place (firstn k content)), L'. split; [exact Et|]. eapply here_same; [exact H|exact Hsp|exact Hsm|]. eapply token_next_quiet; [exact Et|discriminate|apply H].
Qed.
Lemma resource_read : forall bs, ~ In 39 bs -> ~ In 92 bs -> forall fuel st buf k L r, spot k L -> skipn k content = bs ++ 39 :: r -> (List.length bs < fuel)%nat ->
  exists L', resource_loop fuel st false buf L = Ok (buf ++ bs, L') /\ spot (k + List.length bs + 1) L' /\ same L L'.
Proof using Type.
  induction bs as [|b bs IH]; intros N1 N2 fuel st buf k L r H E Hf; (destruct fuel as [|fuel]; [cbn in Hf; lia|]); cbn [app] in E;
    destruct (lnext_cons content _ _ _ _ H E) as (L1 & E1 & Hat & Er & _ & _ & Hs1); cbn [resource_loop]; rewrite E1.
  - exists L1. cbn [List.length]. replace (k + 0 + 1)%nat with (S k) by lia. split; [rewrite (app_nil_r buf); reflexivity|]. split; [apply at_spot; exact Hat|exact Hs1].
  - assert (b <> 39 /\ b <> 92) as [M1 M2] by (split; intro; subst; [apply N1|apply N2]; left; reflexivity).
    rewrite (proj2 (N.eqb_neq _ _) M1), (proj2 (N.eqb_neq _ _) M2). cbn [List.length] in Hf.
    destruct (IH (fun Q => N1 (or_intror Q)) (fun Q => N2 (or_intror Q)) fuel st (buf ++ [b]) (S k) L1 r (at_spot _ _ _ Hat) Er ltac:(lia)) as (L' & -> & Hsp & Hsm).
    exists L'. rewrite <- app_assoc. cbn [app List.length]. split; [reflexivity|]. split; [replace (k + S (List.length bs) + 1)%nat with (S k + List.length bs + 1)%nat by lia; exact Hsp|eapply same_trans; eassumption].
Qed.
Lemma spells_quote : spells [39] PSingleQuote.
Proof using Type. split; [unfold PUNCT_TABLE; cbn; tauto|discriminate]. Qed.
Lemma read_res k L s r : here k L -> skipn k content = (39 :: encode s ++ [39]) ++ r -> resource_ok s ->
  exists loc L', token_next L = Ok (Some (loc, TResource F s), L') /\ here (k + List.length (39 :: encode s ++ [39])) L'.
Proof using Type.
  intros H E (Hsc & N1 & N2). pose proof (here_dir _ _ H) as Hd. cbn [app] in E. rewrite <- app_assoc in E. cbn [app] in E.
  destruct (open_token F (f_parse F fl) (f_show F fl) (f_zero F fl) content k L 39 _ (proj1 H) Hd E) as (fuel & L1 & Hat & Hn & Hs1 & Hl & Et); try discriminate.
  assert (Hp : exists L2, read_punct 39 L1 = Ok (Some PSingleQuote, L2) /\ spot (k + 1) L2 /\ same L1 L2).
  { assert (items39 : items_of [39] = [([39], PSingleQuote)]) by (vm_compute; reflexivity).
    destruct (read_punct_spec content k 39 L1 Hn Hat) as [(q & w & L2 & E2 & (Hw2 & (r2 & Er) & _) & H2 & Hs)|(_ & Hno)].
    - rewrite E in Er. destruct w as [|x w]; [destruct (symbols_nonempty [] q); [apply symbols_spec; exact Hw2|reflexivity]|]. injection Er as <- _.
      apply first_symbols in Hw2. rewrite items39 in Hw2. destruct Hw2 as [Hw2|[]]. injection Hw2 as <- <-. exists L2. auto.
    - exfalso. eapply Hno; [exact spells_quote|]. rewrite E. eexists. reflexivity. }
  destruct Hp as (L2 & E2 & H2 & Hs2). rewrite E2 in Et. cbn [bind] in Et. rewrite close_stage_other in Et by reflexivity. cbn [bind] in Et. unfold dispatch in Et.
  assert (E1 : skipn (k + 1) content = encode s ++ 39 :: r) by (change 1%nat with (List.length [39]); apply skip_more; exact E).
  unfold read_resource in Et.
  destruct (resource_read (encode s) (fun Q => N1 (in_encode 39 s ltac:(lia) Q)) (fun Q => N2 (in_encode 92 s ltac:(lia) Q)) (fuel_of L2) (location L2) [] (k + 1) L2 r H2 E1) as (L' & E3 & H3 & Hs3).
  { unfold fuel_of. rewrite (spot_bytes content _ _ H2), E1, app_length. cbn [List.length]. lia. }
  rewrite E3 in Et. cbn [bind app] in Et.
  assert (Hdec : from_utf8_or_latin1 (encode s) = s) by (unfold from_utf8_or_latin1; rewrite decode_encode by exact Hsc; reflexivity). rewrite Hdec in Et.
  eexists _, L'. split; [exact Et|]. eapply here_same; [exact H| |eapply same_trans; [exact Hs1|eapply same_trans; [exact Hs2|exact Hs3]]|eapply token_next_quiet; [exact Et|discriminate|apply H]].
  replace (k + List.length (39%N :: encode s ++ [39%N]))%nat with (k + 1 + List.length (encode s) + 1)%nat by (cbn [List.length]; rewrite app_length; cbn [List.length]; lia). exact H3.
Qed.

(** ** Numbers *)
(** what the loop of numbers does with [w]; the flags are [integer] and [exponent] *)
Inductive accept : bool -> bool -> list N -> bool -> Prop :=
  | ac_nil i e : accept i e [] i
  | ac_digit i e b w i' : digit b -> accept i false w i' -> accept i e (b :: w) i'
  | ac_dot i e w i' : accept false e w i' -> accept i e (46 :: w) i'
  | ac_exp i e w i' : accept false true w i' -> accept i e (101 :: w) i'
  | ac_sign i b w i' : In b [43; 45] -> accept i true w i' -> accept i true (b :: w) i'.
Lemma digit_radix rd b : rd = 8 \/ rd = 10 -> digit b -> is_radix_digit rd b = true.
Proof using Type.
  intros H [H1 H2]. unfold is_radix_digit, digit_value. rewrite (proj2 (N.leb_le _ _) H1), (proj2 (N.leb_le _ _) H2). cbn [andb].
  apply N.ltb_lt. destruct H; subst; cbn; lia.
Qed.
Lemma number_accept : forall i e w i', accept i e w i' -> forall fuel rd buf k L r, rd = 8 \/ rd = 10 -> spot k L -> skipn k content = w ++ r -> stop r -> (List.length w < fuel)%nat ->
  exists L', number_loop fuel i e rd buf L = Ok (i', rd, buf ++ w, L') /\ spot (k + List.length w) L' /\ same L L'.
Proof using Type.
  induction 1 as [i e|i e b w i' Hb Ha IH|i e w i' Ha IH|i e w i' Ha IH|i b w i' Hb Ha IH]; intros fuel rd buf k L r Hrd H E Hst Hf;
    (destruct fuel as [|fuel]; [cbn in Hf; lia|]); cbn [app List.length] in E, Hf |- *.
  - rewrite Nat.add_0_r, app_nil_r. destruct Hst as [-> | (b & r' & -> & Hb)].
    + destruct (lnext_spot content _ _ H) as [(b & L1 & E1 & Hn & _)|(Hk & L1 & E1 & Hen & Hs1)].
      * rewrite (skipn_nth _ _ _ Hn) in E. discriminate.
      * cbn [number_loop]. rewrite E1. assert (Hpn : pending L1 = None) by apply Hen.
        destruct (put_none_spot content k L1 Hpn (ended_spot _ _ _ Hen)) as (L2 & -> & H2 & Hs2 & _). cbn [bind]. exists L2. split; [reflexivity|]. split; [exact H2|eapply same_trans; eassumption].
    + destruct (lnext_cons content _ _ _ _ H E) as (L1 & E1 & Hat & _ & Hn & _ & Hs1). cbn [number_loop]. rewrite E1.
      destruct (put_back_spot content k b L1 Hn Hat) as (L2 & Ep & H2 & Hs2 & _).
      assert (Hg : (b =? 95) = false /\ (b =? 46) = false /\ (b =? 101) = false /\ (b =? 69) = false /\ (b =? 43) = false /\ (b =? 45) = false /\ (b =? 35) = false /\ is_radix_digit rd b = false).
      { cbn in Hb. destruct Hb as [<-|[<-|[<-|[<-|[<-|[]]]]]]; destruct Hrd as [-> | ->]; repeat split; reflexivity. }
      destruct Hg as (-> & -> & -> & -> & -> & -> & -> & ->). cbn [orb andb]. rewrite Ep. cbn [bind]. exists L2. split; [reflexivity|]. split; [exact H2|eapply same_trans; eassumption].
  - destruct (lnext_cons content _ _ _ _ H E) as (L1 & E1 & Hat & Er & Hn & _ & Hs1). cbn [number_loop]. rewrite E1.
    pose proof (digit_radix rd b Hrd Hb) as Hd. destruct Hb as [B1 B2].
    rewrite (proj2 (N.eqb_neq b 95)) by lia. rewrite (proj2 (N.eqb_neq b 46)) by lia. rewrite (proj2 (N.eqb_neq b 101)) by lia. rewrite (proj2 (N.eqb_neq b 69)) by lia.
    rewrite (proj2 (N.eqb_neq b 43)) by lia. rewrite (proj2 (N.eqb_neq b 45)) by lia. rewrite (proj2 (N.eqb_neq b 35)) by lia. cbn [orb andb]. rewrite Hd.
    destruct (IH fuel rd (buf ++ [b]) (S k) L1 r Hrd (at_spot _ _ _ Hat) Er Hst ltac:(lia)) as (L' & -> & Hsp & Hsm).
    exists L'. rewrite <- app_assoc. cbn [app]. split; [reflexivity|]. split; [replace (k + S (List.length w))%nat with (S k + List.length w)%nat by lia; exact Hsp|eapply same_trans; eassumption].
  - destruct (lnext_cons content _ _ _ _ H E) as (L1 & E1 & Hat & Er & Hn & _ & Hs1). cbn [number_loop]. rewrite E1.
    change (46 =? 95) with false. change (46 =? 46) with true. change (46 =? 101) with false. change (46 =? 69) with false. cbn [orb]. rewrite !orb_false_r.
    replace (rd =? 16) with false by (destruct Hrd as [-> | ->]; reflexivity).
    destruct (IH fuel rd (buf ++ [46]) (S k) L1 r Hrd (at_spot _ _ _ Hat) Er Hst ltac:(lia)) as (L' & -> & Hsp & Hsm).
    exists L'. rewrite <- app_assoc. cbn [app]. split; [reflexivity|]. split; [replace (k + S (List.length w))%nat with (S k + List.length w)%nat by lia; exact Hsp|eapply same_trans; eassumption].
  - destruct (lnext_cons content _ _ _ _ H E) as (L1 & E1 & Hat & Er & Hn & _ & Hs1). cbn [number_loop]. rewrite E1.
    change (101 =? 95) with false. change (101 =? 46) with false. change (101 =? 101) with true. cbn [orb]. rewrite !orb_true_r. cbn [orb].
    replace (rd =? 16) with false by (destruct Hrd as [-> | ->]; reflexivity).
    destruct (IH fuel rd (buf ++ [101]) (S k) L1 r Hrd (at_spot _ _ _ Hat) Er Hst ltac:(lia)) as (L' & -> & Hsp & Hsm).
    exists L'. rewrite <- app_assoc. cbn [app]. split; [reflexivity|]. split; [replace (k + S (List.length w))%nat with (S k + List.length w)%nat by lia; exact Hsp|eapply same_trans; eassumption].
  - destruct (lnext_cons content _ _ _ _ H E) as (L1 & E1 & Hat & Er & Hn & _ & Hs1). cbn [number_loop]. rewrite E1.
    assert (Hg : (b =? 95) = false /\ (b =? 46) = false /\ (b =? 101) = false /\ (b =? 69) = false /\ (b =? 43) || (b =? 45) = true).
    { cbn in Hb. destruct Hb as [<-|[<-|[]]]; repeat split; reflexivity. }
    destruct Hg as (-> & -> & -> & -> & ->). cbn [orb andb].
    destruct (IH fuel rd (buf ++ [b]) (S k) L1 r Hrd (at_spot _ _ _ Hat) Er Hst ltac:(lia)) as (L' & -> & Hsp & Hsm).
    exists L'. rewrite <- app_assoc. cbn [app]. split; [reflexivity|]. split; [replace (k + S (List.length w))%nat with (S k + List.length w)%nat by lia; exact Hsp|eapply same_trans; eassumption].
Qed.
(** the number as a whole *)
Lemma inner_accept : forall b w i', digit b -> accept true false w i' -> forall k L r, at_ content (S k) L -> skipn k content = (b :: w) ++ r -> stop r ->
  exists L', read_number_inner b L = Ok (i', (if b =? 48 then 8 else 10), b :: w, L') /\ spot (k + List.length (b :: w)) L' /\ same L L'.
Proof using Type.
  intros b w i' Hb Ha k L r Hat E Hst. unfold read_number_inner. rewrite (proj2 (N.eqb_neq b 46)) by (unfold digit in Hb; lia).
  assert (Er : skipn (S k) content = w ++ r) by (rewrite <- Nat.add_1_r; change 1%nat with (List.length [b]); apply skip_more; exact E).
  assert (Hfu : forall k2 L2, spot k2 L2 -> skipn k2 content = w ++ r -> (List.length w < fuel_of L2)%nat).
  { intros k2 L2 H2 E2. unfold fuel_of. rewrite (spot_bytes content _ _ H2), E2, app_length. lia. }
  assert (Hgo : forall rd L2, rd = 8 \/ rd = 10 -> spot (S k) L2 -> same L L2 -> exists L', number_loop (fuel_of L2) true false rd [b] L2 = Ok (i', rd, b :: w, L') /\ spot (k + List.length (b :: w)) L' /\ same L L').
  { intros rd L2 Hrd H2 Hs2. destruct (number_accept _ _ _ _ Ha (fuel_of L2) rd [b] (S k) L2 r Hrd H2 Er Hst (Hfu _ _ H2 Er)) as (L' & -> & Hsp & Hsm).
    exists L'. split; [reflexivity|]. split; [replace (k + List.length (b :: w))%nat with (S k + List.length w)%nat by (cbn [List.length]; lia); exact Hsp|eapply same_trans; eassumption]. }
  destruct (N.eqb_spec b 48) as [->|N48]; [|apply Hgo; [auto|apply at_spot; exact Hat|apply same_refl]].
  destruct (w ++ r) as [|c q] eqn:Ewr.
  - destruct (lnext_spot content _ _ (at_spot _ _ _ Hat)) as [(c & L1 & E1 & Hn & _)|(Hk & L1 & E1 & Hen & Hs1)].
    { rewrite (skipn_nth _ _ _ Hn) in Er. discriminate. }
    rewrite E1. assert (Hpn : pending L1 = None) by apply Hen.
    destruct (put_none_spot content _ L1 Hpn (ended_spot _ _ _ Hen)) as (L2 & -> & H2 & Hs2 & _). cbn [bind]. apply Hgo; [auto|exact H2|eapply same_trans; eassumption].
  - destruct (lnext_cons content _ _ _ _ (at_spot _ _ _ Hat) Er) as (L1 & E1 & Hat1 & _ & Hn & _ & Hs1). rewrite E1.
    assert (Hc : (c =? 120) = false).
    { apply N.eqb_neq. clear - Ewr Ha Hst. inversion Ha; subst; cbn [app] in Ewr.
      - destruct Hst as [-> | (x & r' & -> & Hx)]; [discriminate|]. injection Ewr as <- _. cbn in Hx. intuition lia.
      - injection Ewr as <- _. unfold digit in *. lia.
      - injection Ewr as <- _. lia.
      - injection Ewr as <- _. lia. }
    rewrite Hc. destruct (put_back_spot content _ c L1 Hn Hat1) as (L2 & -> & H2 & Hs2 & _). cbn [bind]. apply Hgo; [auto|exact H2|eapply same_trans; eassumption].
Qed.
Lemma accept_digits i w : Forall digit w -> accept i false w i.
Proof using Type. induction 1; constructor; assumption. Qed.
Lemma accept_app i e a b i' i2 : accept i e a i' -> (forall e', accept i' e' b i2) -> accept i e (a ++ b) i2.
Proof using Type. intros H Hb. induction H; cbn [app]; [apply Hb|apply ac_digit|apply ac_dot|apply ac_exp|apply ac_sign]; auto. Qed.
Lemma radix_value_digits : forall w acc, Forall digit w -> exists v, radix_value 10 acc w = Some v /\ Z.of_N v = fold_left (fun a b => 10 * a + (Z.of_N b - 48))%Z w (Z.of_N acc).
Proof using Type.
  induction w as [|b w IH]; intros acc H; [exists acc; auto|]. inversion H as [|? ? [B1 B2] Hw]; subst. cbn [radix_value fold_left]. unfold digit_value.
  rewrite (proj2 (N.leb_le _ _) B1), (proj2 (N.leb_le _ _) B2). cbn [andb]. rewrite (proj2 (N.ltb_lt (b - 48) 10)) by lia.
  destruct (IH (acc * 10 + (b - 48)) Hw) as (v & -> & Ev). exists v. split; [reflexivity|]. rewrite Ev. f_equal. lia.
Qed.
Lemma float_accept i f x : i <> [] -> Forall digit i -> f = [] \/ (exists d, f = lit "." ++ d /\ d <> [] /\ Forall digit d) ->
  x = [] \/ (exists s d, x = lit "e" ++ s ++ d /\ In s [lit "+"; lit "-"] /\ d <> [] /\ Forall digit d) -> f ++ x <> [] ->
  exists b w, i ++ f ++ x = b :: w /\ digit b /\ accept true false w false.
Proof using Type.
  intros Hi Hd Hf Hx Hne. destruct i as [|b w]; [congruence|]. inversion Hd as [|? ? Hb Hw]; subst. exists b, (w ++ f ++ x). split; [reflexivity|]. split; [exact Hb|].
  assert (Hxa : forall e i0, x <> [] -> accept i0 e x false).
  { intros e i0 Hn. destruct Hx as [->|(s & d & -> & Hs & Hdn & Hdd)]; [congruence|]. apply ac_exp. cbn in Hs.
    destruct Hs as [<-|[<-|[]]]; cbn [lit app]; apply ac_sign; try (cbn; tauto).
    - destruct d as [|c d]; [congruence|]. inversion Hdd; subst. apply ac_digit; [assumption|apply accept_digits; assumption].
    - destruct d as [|c d]; [congruence|]. inversion Hdd; subst. apply ac_digit; [assumption|apply accept_digits; assumption]. }
  assert (Hfx : forall e i0, accept i0 e (f ++ x) false).
  { intros e i0. destruct Hf as [->|(d & -> & Hdn & Hdd)]; [apply Hxa; exact Hne|]. destruct d as [|c d]; [congruence|]. inversion Hdd; subst.
    change ((lit "." ++ c :: d) ++ x) with (46 :: c :: (d ++ x)). apply ac_dot. apply ac_digit; [assumption|]. 
    destruct x as [|y x]; [rewrite app_nil_r; apply accept_digits; assumption|].
    eapply accept_app; [apply accept_digits; assumption|]. intro e'. apply Hxa. discriminate. }
  eapply accept_app; [apply accept_digits; exact Hw|]. intro e'. apply Hfx.
Qed.

(** opening a number *)
Lemma open_number k L b r : here k L -> skipn k content = b :: r -> digit b -> exists loc L1,
  at_ content (S k) L1 /\ same L L1 /\ forall t L2, read_number F (f_parse F fl) (f_show F fl) (f_zero F fl) b L1 = Ok (t, L2) -> same L1 L2 ->
    token_next L = Ok (Some (loc, t), L2).
Proof using Type.
  intros H E Hb. assert (Hib : ident_byte b) by (unfold digit, ident_byte in *; lia). assert (Hbb : 48 <= b <= 57) by exact Hb.
  destruct (open_token F (f_parse F fl) (f_show F fl) (f_zero F fl) content k L b r (proj1 H) (here_dir _ _ H) E) as (fuel & L1 & Hat & Hn & Hs1 & Hl & Et); try lia.
  exists (location L1), L1. split; [exact Hat|]. split; [exact Hs1|]. intros t L2 Er Hs2. rewrite Et. rewrite (no_punct k L1 b r Hat Hn Hib E). cbn [bind].
  assert (Hcs : close_stage None L1 = Ok (None, L1)) by (unfold close_stage; destruct (close_allowed L1); reflexivity). rewrite Hcs. cbn [bind]. unfold dispatch.
  assert (Hdg : is_digit b = true) by (unfold is_digit; apply andb_true_iff; split; apply N.leb_le; lia). rewrite Hdg, Er. cbn [bind]. reflexivity.
Qed.
Lemma number_here k L L1 L2 k2 loc t : here k L -> same L L1 -> same L1 L2 -> spot k2 L2 -> token_next L = Ok (Some (loc, t), L2) -> t <> P PHash -> here k2 L2.
Proof using Type.
  intros H S1 S2 H2 Et Ht. eapply here_same; [exact H|exact H2|eapply same_trans; eassumption|eapply token_next_quiet; [exact Et|exact Ht|apply H]].
Qed.
Lemma read_int k L w r : here k L -> skipn k content = w ++ r -> w <> [] -> Forall digit w -> hd 0 w <> 48 \/ w = lit "0" -> (decimal w < 2 ^ 31)%Z -> stop r ->
  exists loc L', token_next L = Ok (Some (loc, TInt F (decimal w)), L') /\ here (k + List.length w) L'.
Proof using Type.
  intros H E Hne Hd H0 Hlt Hst. destruct w as [|b w]; [congruence|]. inversion Hd as [|? ? Hb Hw]; subst.
  destruct (open_number k L b (w ++ r) H E Hb) as (loc & L1 & Hat & Hs1 & Hop).
  destruct (inner_accept b w true Hb (accept_digits true w Hw) k L1 r Hat E Hst) as (L2 & Ei & H2 & Hs2).
  assert (Er : read_number F (f_parse F fl) (f_show F fl) (f_zero F fl) b L1 = Ok (TInt F (decimal (b :: w)), L2)).
  { unfold read_number. rewrite Ei. cbn [bind]. cbn [hd] in H0. destruct (N.eqb_spec b 48) as [->|N48].
    - destruct H0 as [H0|H0]; [congruence|]. injection H0 as ->. reflexivity.
    - unfold i32_from_str_radix. destruct (radix_value_digits (b :: w) 0 Hd) as (v & -> & Ev). unfold decimal in *. change (Z.of_N 0) with 0%Z in Ev. rewrite <- Ev in *.
      rewrite (proj2 (N.leb_le _ _)) by (clear - Hlt; lia). reflexivity. }
  pose proof (Hop _ _ Er Hs2) as Et. exists loc, L2. split; [exact Et|]. eapply number_here; try eassumption. discriminate.
Qed.
Lemma hash_step n buf after k L c r : spot k L -> skipn k content = c :: r -> existsb (text_eqb (after ++ [c])) [lit "I"; lit "IN"; lit "INF"; lit "IND"] = true ->
  exists L1, hash_loop (S n) buf after L = hash_loop n buf (after ++ [c]) L1 /\ spot (S k) L1 /\ same L L1 /\ skipn (S k) content = r.
Proof using Type.
  intros H E Hx. destruct (lnext_cons content _ _ _ _ H E) as (L1 & E1 & Hat & Er & _ & _ & Hs1). exists L1. cbn [hash_loop]. rewrite E1. cbv zeta. rewrite Hx.
  split; [reflexivity|]. split; [apply at_spot; exact Hat|]. split; [exact Hs1|exact Er].
Qed.
Lemma read_special k L x r v w : here k L -> skipn k content = lit "1.#IN" ++ x :: r ->
  (x = 70 /\ w = lit "inf" \/ x = 68 /\ w = lit "NaN") -> f_parse F fl w = Some v ->
  exists loc L', token_next L = Ok (Some (loc, TFloat F v), L') /\ here (k + 6) L'.
Proof using Type.
  intros H E Hx Hv. change (lit "1.#IN" ++ x :: r) with (49 :: 46 :: 35 :: 73 :: 78 :: x :: r) in E.
  destruct (open_number k L 49 _ H E ltac:(unfold digit; lia)) as (loc & L1 & Hat & Hs1 & Hop).
  assert (E1 : skipn (S k) content = 46 :: 35 :: 73 :: 78 :: x :: r) by (rewrite <- Nat.add_1_r; change 1%nat with (List.length [49]); apply skip_more; exact E).
  destruct (lnext_cons content _ _ _ _ (at_spot _ _ _ Hat) E1) as (L2 & El2 & Hat2 & E2 & _ & _ & Hs2).
  destruct (lnext_cons content _ _ _ _ (at_spot _ _ _ Hat2) E2) as (L3 & El3 & Hat3 & E3 & _ & _ & Hs3).
  destruct (hash_step 2 ([49; 46] ++ [35]) [] _ L3 73 _ (at_spot _ _ _ Hat3) E3 eq_refl) as (L4 & Eh4 & H4 & Hs4 & E4). cbn [app] in Eh4.
  destruct (hash_step 1 ([49; 46] ++ [35]) [73] _ L4 78 _ H4 E4 eq_refl) as (L5 & Eh5 & H5 & Hs5 & E5). cbn [app] in Eh5.
  assert (Hh : existsb (text_eqb ([73; 78] ++ [x])) [lit "I"; lit "IN"; lit "INF"; lit "IND"] = true) by (destruct Hx as [[-> _]|[-> _]]; reflexivity).
  destruct (hash_step 0 ([49; 46] ++ [35]) [73; 78] _ L5 x _ H5 E5 Hh) as (L6 & Eh6 & H6 & Hs6 & E6). cbn [app] in Eh6.
  assert (Er : read_number F (f_parse F fl) (f_show F fl) (f_zero F fl) 49 L1 = Ok (TFloat F v, L6)).
  { unfold read_number, read_number_inner. change (49 =? 46) with false. change (49 =? 48) with false. cbn iota.
    assert (Hfu : exists f, fuel_of L1 = S (S f)).
    { unfold fuel_of. exists (List.length (bytes L1)). reflexivity. }
    destruct Hfu as (f & ->). cbn [number_loop]. rewrite El2. change (46 =? 95) with false. change (46 =? 46) with true. change (46 =? 101) with false. change (46 =? 69) with false. change (10 =? 16) with false. cbn [orb].
    rewrite El3. change (35 =? 95) with false. change (35 =? 46) with false. change (35 =? 101) with false. change (35 =? 69) with false. change (35 =? 43) with false. change (35 =? 45) with false. change (35 =? 35) with true. cbn [orb andb].
    rewrite !N.eqb_refl || idtac. change (([49] ++ [46]) ++ [35]) with [49; 46; 35]. rewrite Eh4, Eh5, Eh6. cbn [hash_loop bind].
    destruct Hx as [[-> ->]|[-> ->]]; cbn [app]; [change (text_eqb [73; 78; 70] (lit "INF")) with true|change (text_eqb [73; 78; 68] (lit "INF")) with false]; cbn iota; rewrite Hv; reflexivity. }
  pose proof (same_trans _ _ _ Hs2 (same_trans _ _ _ Hs3 (same_trans _ _ _ Hs4 (same_trans _ _ _ Hs5 Hs6)))) as Hs16.
  pose proof (Hop _ _ Er Hs16) as Et. exists loc, L6. split; [exact Et|]. eapply number_here; try eassumption; [|discriminate].
  replace (k + 6)%nat with (S (S (S (S (S (S k)))))) by lia. exact H6.
Qed.
Lemma read_float k L w r v : here k L -> skipn k content = w ++ r -> literal F fl w v -> ~ Forall digit w -> stop r ->
  exists loc L', token_next L = Ok (Some (loc, TFloat F v), L') /\ here (k + List.length w) L'.
Proof using Type.
  intros H E Hl Hn Hst. destruct Hl as [w H1 H2 H3 H4|i f x v H1 H2 H3 H4 H5 H6|v Hv|v Hv]; [contradiction| | |].
  - destruct (float_accept i f x H1 H2 H3 H4 H5) as (b & w & Ew & Hb & Ha). rewrite Ew in *.
    destruct (open_number k L b (w ++ r) H E Hb) as (loc & L1 & Hat & Hs1 & Hop).
    destruct (inner_accept b w false Hb Ha k L1 r Hat E Hst) as (L2 & Ei & Hsp & Hs2).
    assert (Er : read_number F (f_parse F fl) (f_show F fl) (f_zero F fl) b L1 = Ok (TFloat F v, L2)) by (unfold read_number; rewrite Ei; cbn [bind]; rewrite H6; reflexivity).
    pose proof (Hop _ _ Er Hs2) as Et. exists loc, L2. split; [exact Et|]. eapply number_here; try eassumption. discriminate.
  - eapply (read_special k L 70 r v (lit "inf")); eauto.
  - eapply (read_special k L 68 r v (lit "NaN")); eauto.
Qed.
End AT.
End LEX.
