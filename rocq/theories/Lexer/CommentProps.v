(** Comments are skipped exactly (C13). *)
From Coq Require Import List NArith ZArith Lia Bool String.
From Verif Require Import Common.Text Common.Utf8 Lexer.Tracker Lexer.Punct Lexer.Model Lexer.Spec Lexer.Facts.
Import ListNotations.
Open Scope N_scope.

Lemma occ_snoc : forall a b v x y, occ a b (v ++ [x; y]) = (occ a b (v ++ [x]) + (if ((x =? a) && (y =? b))%N then 1 else 0))%nat.
Proof.
  induction v as [|z v IH]; intros x y; [cbn; lia|]. destruct v as [|z' v].
  - cbn [app occ]. lia.
  - cbn [app occ] in *. rewrite IH. lia.
Qed.
Lemma firstn_last : forall (r : list byte) n c, nth_error r n = Some c -> firstn (S n) r = firstn n r ++ [c].
Proof. exact firstn_S_nth. Qed.
Lemma occ_step : forall a b (r : list byte) n c v, nth_error r n = Some c -> nth_error r (S n) = Some v ->
  occ a b (firstn (S (S n)) r) = (occ a b (firstn (S n) r) + (if ((c =? a) && (v =? b))%N then 1 else 0))%nat.
Proof.
  intros a b r n c v H1 H2. rewrite (firstn_last r (S n) v H2), (firstn_last r n c H1), <- app_assoc. cbn [app]. apply occ_snoc.
Qed.

Definition keeps (L L' : lexer) : Prop := final_newline L' = final_newline L /\ stack L' = stack L /\ close_allowed L' = close_allowed L.
Lemma same_keeps : forall L L', same L L' -> keeps L L'.
Proof. intros L L' (H1 & H2 & _ & H3). unfold keeps. auto. Qed.
Lemma keeps_trans : forall A B C, keeps A B -> keeps B C -> keeps A C.
Proof. unfold keeps. intros A B C (?&?&?) (?&?&?). repeat split; congruence. Qed.
Lemma keeps_refl : forall A, keeps A A.
Proof. unfold keeps. auto. Qed.

Section COMMENTS.
Variable content : list byte.
Notation len := (List.length content).
Notation spot := (spot content).

Section BLOCK.
Variable s : nat.
Notation r := (skipn s content).
Lemma nth_skip : forall n, nth_error r n = nth_error content (s + n).
Proof using Type.
  intro n. clear. revert n. generalize s as m. induction content as [|x l IH]; intros [|m] n; try reflexivity.
  - cbn. destruct n; reflexivity.
  - cbn [skipn Nat.add nth_error]. apply IH.
Qed.
Definition pushed (doc : bool) (l : list byte) : list byte := if doc then filter nonzero l else [].
Lemma pushed_cons : forall doc x l acc, (if negb (x =? 0) && doc then acc ++ [x] else acc) ++ pushed doc l = acc ++ pushed doc (x :: l).
Proof using Type.
  intros doc x l acc. unfold pushed. destruct doc; rewrite ?andb_true_r, ?andb_false_r; [|reflexivity]. cbn [filter]. unfold nonzero. destruct (negb (x =? 0)); [rewrite <- app_assoc|]; reflexivity.
Qed.

Lemma block_loop_spec : forall fuel n L depth b1 doc acc c, spot (s + S n) L -> (s + S n <= len)%nat -> (len - (s + S n) < fuel)%nat ->
  (1 <= depth)%nat -> (depth + closes (firstn (S n) r) = 1 + opens (firstn (S n) r))%nat ->
  (forall m, (m <= S n)%nat -> (closes (firstn m r) <= opens (firstn m r))%nat) ->
  nth_error r n = Some c -> (b1 = c \/ (b1 = 0 /\ c = 33)) ->
  exists acc' L', block_loop fuel depth b1 doc acc L = Ok (acc', L') /\
   ((exists n', closing r n' /\ (S n < n')%nat /\ spot (s + n') L' /\ same L L' /\ acc' = acc ++ pushed doc (firstn (n' - 2 - n) (b1 :: skipn (S n) r))) \/
    ((forall m, ~ closing r m) /\ ended content len L' /\ keeps L L' /\ errs L' = (end_place content, EUntermComment) :: errs L /\
     acc' = acc ++ pushed doc (removelast (b1 :: skipn (S n) r)))).
Proof using Type.
  induction fuel as [|fuel IH]; intros n L depth b1 doc acc c H Hle Hf Hd Hc Hall Hn Hb; [lia|]. cbn [block_loop].
  rd H v L1.
  - rewrite <- nth_skip in Hn0. assert (Hlt : (s + S n < len)%nat) by (apply nth_error_Some; rewrite <- nth_skip, Hn0; discriminate).
    pose proof (occ_step 47 42 r n c v Hn Hn0) as Eo. pose proof (occ_step 42 47 r n c v Hn Hn0) as Ec. fold (opens (firstn (S (S n)) r)) (opens (firstn (S n) r)) in Eo. fold (closes (firstn (S (S n)) r)) (closes (firstn (S n) r)) in Ec.
    assert (Ht1 : (b1 =? 47) = (c =? 47)) by (destruct Hb as [->|[-> ->]]; reflexivity).
    assert (Ht2 : (b1 =? 42) = (c =? 42)) by (destruct Hb as [->|[-> ->]]; reflexivity).
    rewrite Ht1, Ht2.
    assert (Hrest : skipn (S n) r = v :: skipn (S (S n)) r) by (apply skipn_nth; exact Hn0).
    assert (R : forall depth', (1 <= depth')%nat -> (depth' + closes (firstn (S (S n)) r) = 1 + opens (firstn (S (S n)) r))%nat ->
      exists acc' L', block_loop fuel depth' v doc (if negb (b1 =? 0) && doc then acc ++ [b1] else acc) L1 = Ok (acc', L') /\
       ((exists n', closing r n' /\ (S n < n')%nat /\ spot (s + n') L' /\ same L L' /\ acc' = acc ++ pushed doc (firstn (n' - 2 - n) (b1 :: skipn (S n) r))) \/
        ((forall m, ~ closing r m) /\ ended content len L' /\ keeps L L' /\ errs L' = (end_place content, EUntermComment) :: errs L /\
         acc' = acc ++ pushed doc (removelast (b1 :: skipn (S n) r))))).
    { intros depth' Hd' Hc'. destruct (IH (S n) L1 depth' v doc (if negb (b1 =? 0) && doc then acc ++ [b1] else acc) v) as (acc' & L' & E' & HH).
      - rewrite Nat.add_succ_r. apply at_spot. exact Hat.
      - lia.
      - lia.
      - exact Hd'.
      - exact Hc'.
      - intros m Hm. destruct (Nat.eq_dec m (S (S n))) as [->|Hne]; [|apply Hall; lia]. lia.
      - exact Hn0.
      - left. reflexivity.
      - exists acc', L'. split; [exact E'|]. destruct HH as [(n' & A & B & C & D & G)|(A & B & C & D & G)].
        + left. exists n'. split; [exact A|]. split; [lia|]. split; [exact C|]. split; [unfold same in *; intuition congruence|]. rewrite G.
          replace (n' - 2 - n)%nat with (S (n' - 2 - S n)) by lia. cbn [firstn]. rewrite Hrest. apply pushed_cons.
        + right. split; [exact A|]. split; [exact B|]. split; [eapply keeps_trans; [apply same_keeps; exact Hs | exact C]|]. split; [rewrite D; f_equal; apply Hs|]. rewrite G, Hrest.
          change (removelast (b1 :: v :: skipn (S (S n)) r)) with (b1 :: removelast (v :: skipn (S (S n)) r)). apply pushed_cons. }
    destruct ((c =? 47) && (v =? 42)) eqn:T1.
    { apply R; [lia|]. assert ((c =? 42) && (v =? 47) = false) as T2 by (apply andb_true_iff in T1; destruct T1 as [T1 _]; apply N.eqb_eq in T1; subst c; reflexivity). rewrite T2 in Ec. lia. }
    destruct ((c =? 42) && (v =? 47)) eqn:T2; [|apply R; lia].
    destruct (Nat.eqb_spec (depth - 1) 0) as [E0|E0]; [|apply R; lia].
    eexists acc, L1. split; [reflexivity|]. left. exists (S (S n)). split.
    + split; [rewrite skipn_length; lia|]. split; [lia|]. intros m Hm. apply Hall. lia.
    + split; [lia|]. split; [rewrite Nat.add_succ_r; apply at_spot; exact Hat|]. split; [exact Hs|].
      replace (S (S n) - 2 - n)%nat with 0%nat by lia. unfold pushed. destruct doc; cbn; rewrite app_nil_r; reflexivity.
  - eexists acc, _. split; [reflexivity|]. right. assert (Hr : skipn (S n) r = []) by (apply skipn_all2; rewrite skipn_length; lia). split.
    + intros m (A & B & _). rewrite skipn_length in A. specialize (Hall m ltac:(lia)). lia.
    + split; [rewrite <- Hk; exact Hat|]. split; [exact (same_keeps _ _ Hs)|]. split.
      * unfold error, register. cbn [errs]. assert (El : location L1 = end_place content) by apply Hat. rewrite El. f_equal. apply Hs.
      * rewrite Hr. unfold pushed. destruct doc; cbn; rewrite app_nil_r; reflexivity.
Qed.

Variable F : Type.
Definition mk_doc (kind : comment_kind) (d : option (bool * list byte)) : option (token F) :=
  option_map (fun q => TDoc F kind (if fst q : bool then Enclosing else Following) (from_utf8_or_latin1 (snd q))) d.

Lemma occ_short : forall a b l, (List.length l <= 1)%nat -> occ a b l = 0%nat.
Proof using Type. intros a b [|x [|y l]] H; cbn in *; lia || reflexivity. Qed.
Lemma opens_short : forall (l : list byte) m, (m <= 1)%nat -> opens (firstn m l) = 0%nat /\ closes (firstn m l) = 0%nat.
Proof using Type. intros l m Hm. split; apply occ_short; rewrite firstn_length; lia. Qed.

Lemma skip_block_spec : forall L, spot s L ->
  exists n body L', skip_block_comments F L = Ok (mk_doc KBlock (block_doc r body), L') /\ block_extent r n body /\ (s + n <= len)%nat /\ spot (s + n) L' /\ keeps L L' /\
    ((closing r n /\ errs L' = errs L) \/ ((forall m, ~ closing r m) /\ s + n = len /\ errs L' = (end_place content, EUntermComment) :: errs L))%nat.
Proof using Type.
  intros L H. unfold skip_block_comments. pose proof (spot_le _ _ _ H) as Hsl. rd H b L1.
  - assert (Hlt : (s < len)%nat) by (apply nth_error_Some; rewrite Hn; discriminate).
    assert (Er : r = b :: skipn (S s) content) by (apply skipn_nth; exact Hn).
    assert (R : forall b1 doc, (b1 = b \/ (b1 = 0 /\ b = 33)) ->
      exists acc' L', block_loop (fuel_of L1) 1 b1 doc [] L1 = Ok (acc', L') /\ exists n body, block_extent r n body /\ (s + n <= len)%nat /\ spot (s + n) L' /\ keeps L L' /\
        ((closing r n /\ errs L' = errs L) \/ ((forall m, ~ closing r m) /\ s + n = len /\ errs L' = (end_place content, EUntermComment) :: errs L))%nat /\
        acc' = pushed doc (match body with [] => [] | _ :: x => b1 :: x end)).
    { intros b1 doc Hb. destruct (block_loop_spec (fuel_of L1) 0 L1 1 b1 doc [] b) as (acc' & L' & E' & HH).
      - rewrite Nat.add_1_r. apply at_spot. exact Hat.
      - lia.
      - rewrite (spot_fuel content (S s)) by (apply at_spot; exact Hat). lia.
      - lia.
      - destruct (opens_short r 1) as [-> ->]; lia.
      - intros m Hm. destruct (opens_short r m) as [-> ->]; lia.
      - rewrite Er. reflexivity.
      - exact Hb.
      - exists acc', L'. split; [exact E'|]. destruct HH as [(n' & A & B & C & D & G)|(A & B & C & D & G)].
        + exists n', (firstn (n' - 2) r). assert (n' <= List.length r)%nat by apply A. rewrite skipn_length in *. split; [left; auto|]. split; [lia|]. split; [exact C|].
          split; [apply same_keeps; unfold same in *; intuition congruence|]. split; [left; split; [exact A | rewrite (proj1 (proj2 (proj2 D))); apply Hs]|].
          rewrite G. cbn [app]. rewrite Nat.sub_0_r. rewrite Er. cbn [skipn]. destruct (n' - 2)%nat; reflexivity.
        + exists (List.length r), (removelast r). rewrite skipn_length. assert (El : (s + (len - s) = len)%nat) by lia. split; [right; rewrite skipn_length; auto|]. split; [lia|].
          split; [rewrite El; apply ended_spot; exact B|]. split; [eapply keeps_trans; [apply same_keeps; exact Hs | exact C]|]. split; [right; rewrite D; split; [exact A|]; split; [lia|]; f_equal; apply Hs|].
          rewrite G. cbn [app]. rewrite Er. generalize (skipn (S s) content) as x. intros [|y x]; reflexivity. }
    assert (Fin : forall b1 doc (cm : option doc_target), (b1 = b \/ (b1 = 0 /\ b = 33)) -> doc = match cm with Some _ => true | None => false end ->
      (forall body acc', acc' = pushed doc (match body with [] => [] | _ :: x => b1 :: x end) -> (exists m, body = firstn m r) ->
         match cm with Some t => if (List.length acc' =? 0)%nat then None else Some (TDoc F KBlock t (from_utf8_or_latin1 acc')) | None => None end = mk_doc KBlock (block_doc r body)) ->
      exists n body L', (do (txt, L2) <- block_loop (fuel_of L1) 1 b1 doc [] L1; Ok (match cm with Some t => if (List.length txt =? 0)%nat then None else Some (TDoc F KBlock t (from_utf8_or_latin1 txt)) | None => None end, L2))
          = Ok (mk_doc KBlock (block_doc r body), L') /\ block_extent r n body /\ (s + n <= len)%nat /\ spot (s + n) L' /\ keeps L L' /\
        ((closing r n /\ errs L' = errs L) \/ ((forall m, ~ closing r m) /\ s + n = len /\ errs L' = (end_place content, EUntermComment) :: errs L))%nat).
    { intros b1 doc cm Hb Hdoc Hm. destruct (R b1 doc Hb) as (acc' & L' & E' & n & body & A & B & C & D & G & Eacc). exists n, body, L'. rewrite E'. cbn [bind].
      rewrite (Hm body acc' Eacc); [auto 8|]. destruct A as [[_ ->]|(_ & _ & ->)]; [eexists; reflexivity|]. exists (Nat.pred (List.length r)). apply removelast_firstn_len. }
    destruct (N.eqb_spec b 42) as [->|N1]; [|destruct (N.eqb_spec b 33) as [->|N2]].
    + apply (Fin 42 true (Some Following)); [left; reflexivity | reflexivity|]. intros body acc' -> (m & ->). rewrite Er. cbn [block_doc]. change (42 =? 42) with true. cbn [pushed].
      destruct m as [|m]; [reflexivity|]. cbn [firstn filter nonzero]. reflexivity.
    + apply (Fin 0 true (Some Enclosing)); [right; split; reflexivity | reflexivity|]. intros body acc' -> (m & ->). rewrite Er. cbn [block_doc]. change (33 =? 42) with false. change (33 =? 33) with true. cbn [pushed].
      destruct m as [|m]; [reflexivity|]. cbn [firstn filter nonzero tl]. change (nonzero 0) with false. cbn iota. unfold block_doc. change (33 =? 42) with false. change (33 =? 33) with true. cbn iota. cbn [tl]. destruct (filter nonzero (firstn m (skipn (S s) content))); reflexivity.
    + apply (Fin b false None); [left; reflexivity | reflexivity|]. intros body acc' -> (m & ->). rewrite Er. unfold block_doc. rewrite (proj2 (N.eqb_neq b 42) N1), (proj2 (N.eqb_neq b 33) N2). reflexivity.
  - assert (Er : r = []) by (rewrite Hk; apply skipn_all).
    assert (Ef : exists f, fuel_of L1 = S f) by (unfold fuel_of; eauto). destruct Ef as (f & ->). cbn [block_loop].
    assert (H1 : spot s L1) by (apply ended_spot; exact Hat). destruct (lnext_spot content s L1 H1) as [(b & L2 & E2 & Hn & _)|(_ & L2 & E2 & Hat2 & Hs2)].
    { exfalso. assert (s < len)%nat by (apply nth_error_Some; rewrite Hn; discriminate). lia. }
    rewrite E2. cbn [bind]. exists 0%nat, [], (error EUntermComment L2). rewrite Er. split; [reflexivity|]. rewrite Nat.add_0_r. split.
    + right. split; [intros m (A & B & _); cbn in A; assert (m = 0)%nat as -> by lia; cbn in B; lia | auto].
    + split; [lia|]. split; [apply ended_spot; exact Hat2|]. split; [eapply keeps_trans; [exact (same_keeps _ _ Hs) | exact (same_keeps _ _ Hs2)]|]. right.
      split; [intros m (A & B & _); cbn in A; assert (m = 0)%nat as -> by lia; cbn in B; lia|]. split; [exact Hk|].
      unfold error, register. cbn [errs]. assert (El : location L2 = end_place content) by apply Hat2. rewrite El. f_equal. unfold same in *. intuition congruence.
Qed.
End BLOCK.

(** *** Line comments *)
(** behind an active backslash *)
Definition esc_extent (r w : list byte) : Prop :=
  (exists crs b w0 r0, w = crs ++ b :: w0 /\ r = crs ++ b :: r0 /\ Forall (fun c => c = 13) crs /\ b <> 13 /\ line_extent r0 w0) \/
  (r = w /\ Forall (fun c => c = 13) w).
Lemma esc_line : forall r w, esc_extent r w -> line_extent (92 :: r) (92 :: w).
Proof using Type.
  intros r w [(crs & b & w0 & r0 & -> & -> & HF & Hb & [(r' & -> & HL)|(-> & HL)])|(-> & HF)].
  - left. exists r'. split; [cbn; rewrite <- app_assoc; reflexivity|]. apply lb_esc; assumption.
  - right. split; [reflexivity|]. destruct HL as [HL|(w' & crs' & -> & HL & HF')]; [left; apply lb_esc; assumption|].
    right. exists (92 :: crs ++ b :: w'), crs'. split; [cbn; rewrite <- app_assoc; reflexivity|]. split; [apply lb_esc; assumption | exact HF'].
  - right. split; [reflexivity|]. right. exists [], w. split; [reflexivity|]. split; [constructor | exact HF].
Qed.
Lemma cr_line : forall r w, line_extent r w -> line_extent (13 :: r) (13 :: w).
Proof using Type.
  intros r w [(r' & -> & HL)|(-> & HL)]; [left; exists r'; split; [reflexivity | apply lb_cr; exact HL]|].
  right. split; [reflexivity|]. destruct HL as [HL|(w' & crs & -> & HL & HF)]; [left; apply lb_cr; exact HL|].
  right. exists (13 :: w'), crs. split; [reflexivity|]. split; [apply lb_cr; exact HL | exact HF].
Qed.
Lemma other_line : forall b r w, b <> 13 -> b <> 10 -> b <> 92 -> line_extent r w -> line_extent (b :: r) (b :: w).
Proof using Type.
  intros b r w H1 H2 H3 [(r' & -> & HL)|(-> & HL)]; [left; exists r'; split; [reflexivity | apply lb_other; assumption]|].
  right. split; [reflexivity|]. destruct HL as [HL|(w' & crs & -> & HL & HF)]; [left; apply lb_other; assumption|].
  right. exists (b :: w'), crs. split; [reflexivity|]. split; [apply lb_other; assumption | exact HF].
Qed.
Lemma cr_esc : forall r w, esc_extent r w -> esc_extent (13 :: r) (13 :: w).
Proof using Type.
  intros r w [(crs & b & w0 & r0 & -> & -> & HF & HH)|(-> & HF)]; [left; exists (13 :: crs), b, w0, r0; split; [reflexivity|]; split; [reflexivity|]; split; [constructor; auto | exact HH]|].
  right. split; [reflexivity | constructor; auto].
Qed.

Definition line_pushed (doc : bool) (w : list byte) : list byte := if doc then filter (fun c => negb (c =? 13) && negb (c =? 10)) w else [].
Lemma line_pushed_cons : forall doc x l acc, (if negb (x =? 13) && negb (x =? 10) && doc then acc ++ [x] else acc) ++ line_pushed doc l = acc ++ line_pushed doc (x :: l).
Proof using Type.
  intros doc x l acc. unfold line_pushed. destruct doc; rewrite ?andb_true_r, ?andb_false_r; [|reflexivity]. cbn [filter]. destruct (negb (x =? 13) && negb (x =? 10)); [rewrite <- app_assoc|]; reflexivity.
Qed.
Lemma line_loop_spec : forall fuel k bs doc acc L, spot k L -> (len - k < fuel)%nat ->
  exists w L', line_loop fuel bs doc acc L = Ok (acc ++ line_pushed doc w, L') /\ spot (k + List.length w) L' /\ (k + List.length w <= len)%nat /\ keeps L L' /\
    (if bs then esc_extent (skipn k content) w else line_extent (skipn k content) w).
Proof using Type.
  induction fuel as [|fuel IH]; intros k bs doc acc L H Hf; [lia|]. cbn [line_loop]. rd H b L1.
  - assert (Hk : (k < len)%nat) by (apply nth_error_Some; rewrite Hn; discriminate). rewrite (skipn_nth _ _ _ Hn).
    assert (R : forall bs' L2, inp L2 = inp L1 -> pending L2 = pending L1 -> at_line_head L2 = at_line_head L1 -> keeps L1 L2 ->
      exists w L', line_loop fuel bs' doc (if negb (b =? 13) && negb (b =? 10) && doc then acc ++ [b] else acc) L2 = Ok (acc ++ line_pushed doc (b :: w), L') /\
        spot (k + List.length (b :: w)) L' /\ (k + List.length (b :: w) <= len)%nat /\ keeps L L' /\
        (if bs' then esc_extent (skipn (S k) content) w else line_extent (skipn (S k) content) w)).
    { intros bs' L2 E1 E2 E3 Hkp. destruct (IH (S k) bs' doc (if negb (b =? 13) && negb (b =? 10) && doc then acc ++ [b] else acc) L2) as (w & L' & E' & A & A2 & B & C).
      - eapply spot_inp; [apply at_spot; exact Hat | exact E1 | exact E2 | exact E3].
      - lia.
      - exists w, L'. rewrite E', line_pushed_cons. split; [reflexivity|]. cbn [List.length]. rewrite Nat.add_succ_r. split; [exact A|]. split; [lia|]. split; [|exact C].
        eapply keeps_trans; [exact (same_keeps _ _ Hs)|]. eapply keeps_trans; eassumption. }
    destruct (N.eqb_spec b 13) as [->|N13].
    { destruct (R bs L1 eq_refl eq_refl eq_refl (keeps_refl _)) as (w & L' & A & B & B2 & C & D). exists (13 :: w), L'. split; [exact A|]. split; [exact B|]. split; [exact B2|]. split; [exact C|].
      destruct bs; [apply cr_esc; exact D | apply cr_line; exact D]. }
    destruct bs.
    { destruct (R false (if b =? 10 then error EBackslashComment L1 else L1)) as (w & L' & A & B & B2 & C & D); try (destruct (b =? 10); reflexivity); [destruct (b =? 10); unfold keeps; cbn; auto|].
      exists (b :: w), L'. split; [exact A|]. split; [exact B|]. split; [exact B2|]. split; [exact C|]. left. exists [], b, w, (skipn (S k) content). repeat split; auto. }
    destruct (N.eqb_spec b 10) as [->|N10].
    { destruct (put_back_spot _ _ _ _ Hn Hat) as (L2 & -> & H2 & Hs2 & _). cbn [bind]. exists [], L2. cbn [List.length]. rewrite Nat.add_0_r. unfold line_pushed.
      split; [destruct doc; cbn; rewrite app_nil_r; reflexivity|]. split; [exact H2|]. split; [lia|]. split; [eapply keeps_trans; [exact (same_keeps _ _ Hs) | exact (same_keeps _ _ Hs2)]|]. left. exists (skipn (S k) content). split; [reflexivity | constructor]. }
    destruct (R (b =? 92) L1 eq_refl eq_refl eq_refl (keeps_refl _)) as (w & L' & A & B & B2 & C & D). exists (b :: w), L'. split; [exact A|]. split; [exact B|]. split; [exact B2|]. split; [exact C|].
    destruct (N.eqb_spec b 92) as [->|N92]; [apply esc_line; exact D | apply other_line; assumption].
  - exists [], L1. cbn [List.length]. rewrite Nat.add_0_r. unfold line_pushed. split; [destruct doc; cbn; rewrite app_nil_r; reflexivity|]. split; [apply ended_spot; exact Hat|].
    split; [lia|]. split; [exact (same_keeps _ _ Hs)|]. rewrite Hk, skipn_all. destruct bs; [right; auto|]. right. split; [reflexivity|]. left. constructor.
Qed.

Variable F : Type.
Lemma skip_line_spec : forall k L, spot k L ->
  exists w L', skip_line_comment F L = Ok (mk_doc F KLine (line_doc w), L') /\ line_extent (skipn k content) w /\ (k + List.length w <= len)%nat /\ spot (k + List.length w) L' /\ keeps L L'.
Proof using Type.
  intros k L H. unfold skip_line_comment. rd H b L1.
  - assert (Hk : (k < len)%nat) by (apply nth_error_Some; rewrite Hn; discriminate). rewrite (skipn_nth _ _ _ Hn).
    destruct (N.eqb_spec b 10) as [->|N10].
    { destruct (put_back_spot _ _ _ _ Hn Hat) as (L2 & -> & H2 & Hs2 & _). cbn [bind]. exists [], L2. split; [reflexivity|]. cbn [List.length]. rewrite Nat.add_0_r.
      split; [left; exists (skipn (S k) content); split; [reflexivity | constructor]|]. split; [lia|]. split; [exact H2|]. eapply keeps_trans; [exact (same_keeps _ _ Hs) | exact (same_keeps _ _ Hs2)]. }
    cbv zeta.
    set (cm := if b =? 47 then Some Following else if b =? 33 then Some Enclosing else None).
    destruct (line_loop_spec (fuel_of L1) (S k) (b =? 92) (match cm with Some _ => true | None => false end) [] L1) as (w & L' & -> & A & A2 & B & C);
      [apply at_spot; exact Hat | rewrite (spot_fuel content (S k)) by (apply at_spot; exact Hat); lia|]. cbn [bind app].
    exists (b :: w), L'. cbn [List.length]. rewrite Nat.add_succ_r. split.
    + f_equal. f_equal. unfold cm, line_doc, line_pushed. destruct (b =? 47); [reflexivity|]. destruct (b =? 33); reflexivity.
    + split; [|split; [lia | split; [exact A | eapply keeps_trans; [apply same_keeps; exact Hs | exact B]]]].
      destruct (N.eqb_spec b 92) as [->|N92]; [apply esc_line; exact C|]. destruct (N.eq_dec b 13) as [->|N13]; [apply cr_line; exact C | apply other_line; assumption].
  - cbv zeta. destruct (line_loop_spec (fuel_of L1) k false false [] L1) as (w & L' & -> & A & A2 & B & C); [apply ended_spot; exact Hat | rewrite (spot_fuel content k) by (apply ended_spot; exact Hat); lia|].
    cbn [bind]. assert (w = []) by (destruct w; [reflexivity | cbn [List.length] in A2; lia]). subst w. exists [], L'. split; [reflexivity|]. split; [exact C|]. split; [exact A2|]. split; [exact A|].
    eapply keeps_trans; [apply same_keeps; exact Hs | exact B].
Qed.
End COMMENTS.

(** ** Extents are unique *)
Lemma closing_unique : forall r n m, closing r n -> closing r m -> n = m.
Proof.
  intros r n m (A1 & A2 & A3) (B1 & B2 & B3). destruct (Nat.lt_trichotomy n m) as [H|[H|H]]; [specialize (B3 _ H); lia | exact H | specialize (A3 _ H); lia].
Qed.
Theorem block_extent_unique : forall r n b n' b', block_extent r n b -> block_extent r n' b' -> n = n' /\ b = b'.
Proof.
  intros r n b n' b' [(A & ->)|(A & -> & ->)] [(B & ->)|(B & -> & ->)].
  - rewrite (closing_unique _ _ _ A B). auto.
  - destruct (B _ A).
  - destruct (A _ B).
  - auto.
Qed.

(** ** A scan that decides where a comment closes (an aid for the theorems below) *)
Fixpoint scan (p : byte) (d : nat) (l : list byte) : option nat :=
  match l with
  | [] => None
  | x :: l' =>
      if ((p =? 47) && (x =? 42))%N then option_map S (scan x (S d) l')
      else if ((p =? 42) && (x =? 47))%N then (if (d =? 1)%nat then Some 1%nat else option_map S (scan x (d - 1) l'))
      else option_map S (scan x d l')
  end.
Definition closing_from (p : byte) (d : nat) (l : list byte) (n : nat) : Prop :=
  (n <= List.length l)%nat /\ (d + opens (p :: firstn n l) <= closes (p :: firstn n l))%nat /\
  forall m, (m < n)%nat -> (closes (p :: firstn m l) < d + opens (p :: firstn m l))%nat.
Lemma occ_cons2 : forall a b p x l, occ a b (p :: x :: l) = ((if ((p =? a) && (x =? b))%N then 1 else 0) + occ a b (x :: l))%nat.
Proof. reflexivity. Qed.
Lemma scan_closing : forall l p d n, (1 <= d)%nat -> scan p d l = Some n -> closing_from p d l n.
Proof.
  induction l as [|x l IH]; intros p d n Hd E; [discriminate|]. cbn [scan] in E.
  assert (Step : forall d' n', scan x d' l = Some n' -> (1 <= d')%nat ->
     (d' + (if ((p =? 42) && (x =? 47))%N then 1 else 0) = d + (if ((p =? 47) && (x =? 42))%N then 1 else 0))%nat -> closing_from p d (x :: l) (S n')).
  { intros d' n' E' Hd' Heq. destruct (IH _ _ _ Hd' E') as (A & B & C). unfold closing_from, opens, closes in *. split; [cbn; lia|]. split.
    - cbn [firstn]. rewrite !occ_cons2. lia.
    - intros [|m] Hm; [cbn; lia|]. cbn [firstn]. rewrite !occ_cons2. specialize (C m ltac:(lia)). lia. }
  destruct ((p =? 47) && (x =? 42))%N eqn:T1.
  - destruct (scan x (S d) l) as [n'|] eqn:E'; [|discriminate]. injection E as <-. apply (Step _ _ E'); [lia|].
    apply andb_true_iff in T1. destruct T1 as [T1 _]. apply N.eqb_eq in T1. subst p. cbn [N.eqb andb]. cbn. lia.
  - destruct ((p =? 42) && (x =? 47))%N eqn:T2.
    + destruct (Nat.eqb_spec d 1) as [->|N1].
      * injection E as <-. split; [cbn; lia|]. split.
        -- cbn [firstn]. unfold opens, closes. rewrite !occ_cons2, T1, T2. cbn. lia.
        -- intros m Hm. assert (m = 0)%nat as -> by lia. cbn. lia.
      * destruct (scan x (d - 1) l) as [n'|] eqn:E'; [|discriminate]. injection E as <-. apply (Step _ _ E'); lia.
    + destruct (scan x d l) as [n'|] eqn:E'; [|discriminate]. injection E as <-. apply (Step _ _ E'); lia.
Qed.
Lemma scan_none : forall l p d, (1 <= d)%nat -> scan p d l = None -> forall n, ~ closing_from p d l n.
Proof.
  induction l as [|x l IH]; intros p d Hd E n (A & B & C).
  - assert (n = 0)%nat as -> by (cbn in A; lia). cbn in B. lia.
  - cbn [scan] in E. destruct n as [|n]; [cbn in B; lia|].
    assert (Step : forall d', scan x d' l = None -> (1 <= d')%nat ->
      (d' + (if ((p =? 42) && (x =? 47))%N then 1 else 0) = d + (if ((p =? 47) && (x =? 42))%N then 1 else 0))%nat -> False).
    { intros d' E' Hd' Heq. apply (IH _ _ Hd' E' n). unfold closing_from, opens, closes in *. split; [cbn in A; lia|]. split.
      - cbn [firstn] in B. rewrite !occ_cons2 in B. lia.
      - intros m Hm. specialize (C (S m) ltac:(lia)). cbn [firstn] in C. rewrite !occ_cons2 in C. lia. }
    destruct ((p =? 47) && (x =? 42))%N eqn:T1.
    + destruct (scan x (S d) l) as [n'|] eqn:E'; [discriminate|]. apply (Step _ E'); [lia|].
      apply andb_true_iff in T1. destruct T1 as [T1 _]. apply N.eqb_eq in T1. subst p. cbn. lia.
    + destruct ((p =? 42) && (x =? 47))%N eqn:T2.
      * destruct (Nat.eqb_spec d 1) as [->|N1]; [discriminate|]. destruct (scan x (d - 1) l) as [n'|] eqn:E'; [discriminate|]. apply (Step _ E'); lia.
      * destruct (scan x d l) as [n'|] eqn:E'; [discriminate|]. apply (Step _ E'); lia.
Qed.
Lemma closing_iff : forall b l n, closing (b :: l) n <-> exists n', n = S n' /\ closing_from b 1 l n'.
Proof.
  intros b l n. unfold closing, closing_from. split.
  - intros (A & B & C). destruct n as [|n]; [cbn in B; lia|]. exists n. split; [reflexivity|]. cbn [firstn List.length] in *. split; [lia|]. split; [lia|].
    intros m Hm. specialize (C (S m) ltac:(lia)). cbn [firstn] in C. lia.
  - intros (n' & -> & A & B & C). cbn [firstn List.length]. split; [lia|]. split; [lia|]. intros [|m] Hm; [cbn; lia|]. cbn [firstn]. specialize (C m ltac:(lia)). lia.
Qed.

(** ** Nested comments whose delimiters do not touch *)
Inductive chunk : Type := Plain (u : list byte) | Open | Close.
Definition chunk_bytes (c : chunk) : list byte := match c with Plain u => u | Open => [47; 42] | Close => [42; 47] end.
Definition render (cs : list chunk) : list byte := flat_map chunk_bytes cs.
Definition neutral (b : byte) : Prop := b <> 47 /\ b <> 42.
(** text without a delimiter, whose first and last byte are no part of one *)
Definition plain (u : list byte) : Prop := opens u = 0%nat /\ closes u = 0%nat /\ (exists b v, u = b :: v /\ neutral b) /\ neutral (last u 0).
(** [inside d cs]: inside [d] comments, [cs] opens and closes comments and ends with the outermost one still open *)
Inductive inside : nat -> list chunk -> Prop :=
  | in_end u : plain u -> inside 1 [Plain u]
  | in_open d u cs : plain u -> inside (S d) cs -> inside d (Plain u :: Open :: cs)
  | in_close d u cs : plain u -> (1 <= d)%nat -> inside d cs -> inside (S d) (Plain u :: Close :: cs).

Lemma scan_plain : forall u p d k, occ 47 42 (p :: u) = 0%nat -> occ 42 47 (p :: u) = 0%nat ->
  scan p d (u ++ k) = option_map (fun n => (List.length u + n)%nat) (scan (last u p) d k).
Proof.
  induction u as [|x u IH]; intros p d k H1 H2; [cbn; destruct (scan p d k); reflexivity|].
  cbn [app scan]. rewrite occ_cons2 in H1, H2. destruct ((p =? 47) && (x =? 42))%N; [lia|]. destruct ((p =? 42) && (x =? 47))%N; [lia|].
  rewrite IH by lia. assert (El : last (x :: u) p = last u x). { destruct u as [|y u]; [reflexivity|]. clear. revert y. cbn [last]. induction u as [|z u IH]; intro y; [reflexivity|]. cbn [last] in *. destruct u; [reflexivity|]. apply IH. exact z. }
  rewrite El. destruct (scan (last u x) d k); reflexivity.
Qed.
Lemma last_default : forall (u : list byte) a b, u <> [] -> last u a = last u b.
Proof. induction u as [|x u IH]; intros a b H; [congruence|]. destruct u; [reflexivity|]. cbn [last] in *. apply IH. discriminate. Qed.
Lemma occ_neutral : forall a b (p x : byte) v, neutral x -> (a = 47 \/ a = 42) -> (b = 47 \/ b = 42) -> occ a b (x :: v) = 0%nat -> occ a b (p :: x :: v) = 0%nat.
Proof.
  intros a b p x v (N1 & N2) Ha Hb H. rewrite occ_cons2. assert ((x =? b) = false) as -> by (apply N.eqb_neq; destruct Hb; subst; congruence). rewrite andb_false_r. exact H.
Qed.
Lemma scan_chunk : forall u p d k, plain u -> scan p d (u ++ k) = option_map (fun n => (List.length u + n)%nat) (scan (last u 0) d k).
Proof.
  intros u p d k (H1 & H2 & (b & v & -> & Hb) & Hl). rewrite scan_plain.
  - rewrite (last_default _ p 0) by discriminate. reflexivity.
  - apply occ_neutral; auto.
  - apply occ_neutral; auto.
Qed.
Lemma scan_inside : forall d cs, inside d cs -> forall p k, (1 <= d)%nat ->
  scan p d (render cs ++ 42 :: 47 :: k) = Some (List.length (render cs) + 2)%nat.
Proof.
  induction 1 as [u Hu|d u cs Hu Hin IH|d u cs Hu Hd Hin IH]; intros p k H1.
  - cbn [render flat_map chunk_bytes]. rewrite app_nil_r, scan_chunk by exact Hu. destruct Hu as (_ & _ & _ & (N1 & N2)).
    cbn [scan]. rewrite (proj2 (N.eqb_neq _ _) N1), (proj2 (N.eqb_neq _ _) N2). cbn [andb]. reflexivity.
  - cbn [render flat_map chunk_bytes]. fold (render cs). rewrite <- app_assoc, scan_chunk by exact Hu. destruct Hu as (_ & _ & _ & (N1 & N2)).
    cbn [app scan]. rewrite (proj2 (N.eqb_neq _ _) N1), (proj2 (N.eqb_neq _ _) N2). cbn [andb].
    change (47 =? 47) with true. change (42 =? 42) with true. cbn [andb]. rewrite IH by lia. cbn [option_map]. f_equal. rewrite app_length. cbn [List.length]. lia.
  - cbn [render flat_map chunk_bytes]. fold (render cs). rewrite <- app_assoc, scan_chunk by exact Hu. destruct Hu as (_ & _ & _ & (N1 & N2)).
    cbn [app scan]. rewrite (proj2 (N.eqb_neq _ _) N1), (proj2 (N.eqb_neq _ _) N2). cbn [andb].
    change (42 =? 47) with false. change (42 =? 42) with true. change (47 =? 47) with true. cbn [andb].
    destruct (Nat.eqb_spec (S d) 1) as [E|E]; [lia|]. replace (S d - 1)%nat with d by lia. rewrite IH by lia. cbn [option_map]. f_equal. rewrite app_length. cbn [List.length]. lia.
Qed.

(** ** C13 *)
Lemma skipn_skip : forall (A : Type) (l : list A) a b, skipn a (skipn b l) = skipn (b + a) l.
Proof. induction l as [|x l IH]; intros a [|b]; [destruct a; reflexivity | destruct a; reflexivity | reflexivity | cbn [skipn Nat.add]; apply IH]. Qed.
(** In any state in which the lexer has just read an opening delimiter and [r] is what remains: the comment takes exactly the bytes up to
    the first place where closing delimiters outnumber opening ones, and no error is reported; if there is none it takes everything,
    and one error is reported, at the end of the input. *)
Theorem C13_exact : forall F content s L, spot content s L ->
  let r := skipn s content in
  exists doc L', skip_block_comments F L = Ok (doc, L') /\
    ((exists n, closing r n /\ bytes L' = skipn n r /\ errs L' = errs L /\ doc = mk_doc F KBlock (block_doc r (firstn (n - 2) r))) \/
     ((forall n, ~ closing r n) /\ bytes L' = [] /\ errs L' = (end_place content, EUntermComment) :: errs L)).
Proof.
  intros F content s L H r. destruct (skip_block_spec content s F L H) as (n & body & L' & E & Hx & Hle & H' & _ & [(Hc & He)|(Hc & Hn & He)]).
  - eexists _, L'. split; [exact E|]. left. exists n. destruct Hx as [(_ & ->)|(Hno & _)]; [|destruct (Hno _ Hc)]. split; [exact Hc|]. split; [|auto].
    rewrite (spot_bytes _ _ _ H'). unfold r. rewrite skipn_skip. reflexivity.
  - eexists _, L'. split; [exact E|]. right. split; [exact Hc|]. split; [rewrite (spot_bytes _ _ _ H'), Hn; apply skipn_all | exact He].
Qed.
(** A line comment ends before the first newline that is not protected by a backslash. *)
Theorem C13_line : forall F content s L, spot content s L ->
  exists w L', skip_line_comment F L = Ok (mk_doc F KLine (line_doc w), L') /\ line_extent (skipn s content) w /\ bytes L' = skipn (List.length w) (skipn s content).
Proof.
  intros F content s L H. destruct (skip_line_spec content F s L H) as (w & L' & E & Hx & Hle & H' & _). exists w, L'. split; [exact E|]. split; [exact Hx|].
  rewrite (spot_bytes _ _ _ H'), skipn_skip. reflexivity.
Qed.
(** Well-nested comments are consumed up to the matching close, provided delimiters do not touch each other.  Missing: touching ones. *)
Theorem C13_nested_partial : forall cs k, inside 1 cs -> closing (render cs ++ 42 :: 47 :: k) (List.length (render cs) + 2).
Proof.
  intros cs k H. pose proof (scan_inside 1 cs H 0 k ltac:(lia)) as E.
  assert (Hb : exists b v, render cs = b :: v /\ neutral b).
  { inversion H; subst; match goal with [ Hp : plain ?u |- _ ] => destruct Hp as (_ & _ & (b & v & -> & Hb) & _) end; cbn [render flat_map chunk_bytes app]; eauto. }
  destruct Hb as (b & v & Er & Hb). rewrite Er in *. cbn [app List.length Nat.add scan] in *. change (0 =? 47) with false in E. change (0 =? 42) with false in E. cbn [andb] in E.
  apply closing_iff. exists (List.length v + 2)%nat. split; [reflexivity|]. apply scan_closing; [lia|].
  destruct (scan b 1 (v ++ 42 :: 47 :: k)) as [n|]; [|discriminate]. injection E as ->. reflexivity.
Qed.
(** ... and where they do touch it is false: of "/* /* x */*/ y" everything up to the end is taken for the comment. *)
Theorem C13_adjacent_refuted : forall n, ~ closing (32 :: 47 :: 42 :: 32 :: 120 :: 32 :: 42 :: 47 :: 42 :: 47 :: 32 :: 121 :: nil) n.
Proof. intros n H. apply closing_iff in H. destruct H as (n' & _ & H). revert H. apply scan_none; [lia | reflexivity]. Qed.
Example C13_demo : inside 1 [Plain (lit " a * b "); Open; Plain (lit " nested / "); Close; Plain (lit " ")].
Proof.
  assert (P1 : plain (lit " a * b ")) by (repeat split; try (vm_compute; congruence); do 2 eexists; split; [vm_compute; reflexivity | split; discriminate]).
  assert (P2 : plain (lit " nested / ")) by (repeat split; try (vm_compute; congruence); do 2 eexists; split; [vm_compute; reflexivity | split; discriminate]).
  assert (P3 : plain (lit " ")) by (repeat split; try (vm_compute; congruence); do 2 eexists; split; [vm_compute; reflexivity | split; discriminate]).
  apply in_open; [exact P1|]. apply in_close; [exact P2 | lia|]. apply in_end. exact P3.
Qed.
Print Assumptions C13_exact.
Print Assumptions C13_nested_partial.
