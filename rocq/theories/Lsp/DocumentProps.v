(** C26 positions and offsets, C27 document synchronisation. *)
From Coq Require Import List NArith ZArith Lia Bool.
From Verif Require Import Common.Text Lsp.Document.
Import ListNotations.
Open Scope N_scope.

(** ** Specification *)
(** number of line breaks in [s] *)
Definition newlines (s : text) : nat := length (filter (N.eqb NL) s).
(** the part of [s] after its last line break *)
Definition last_line (s : text) : text := fold_left (fun l c => if c =? NL then [] else l ++ [c]) s [].
(** the editor's name for the place in a document that has [pre] before it: how many line breaks, and how
    many UTF-16 units since the last *)
Definition position_of (pre : text) : nat * N := (newlines pre, utf16 (last_line pre)).
Definition pos_le (p q : nat * N) : Prop := (fst p < fst q)%nat \/ (fst p = fst q /\ snd p <= snd q).

(** ** Proofs *)
Lemma len8_pos : forall c, 0 < len_utf8 c.
Proof. intro c. unfold len_utf8. repeat (destruct (_ <? _)); lia. Qed.
Lemma len16_pos : forall c, 0 < len_utf16 c.
Proof. intro c. unfold len_utf16. destruct (_ <? _); lia. Qed.
Lemma blen_app : forall a b, blen (a ++ b) = blen a + blen b.
Proof. induction a as [|c a IH]; intro b; cbn [blen fold_right app]; [reflexivity|]. fold (blen (a ++ b)). rewrite IH. unfold blen. lia. Qed.
Lemma utf16_app : forall a b, utf16 (a ++ b) = utf16 a + utf16 b.
Proof. induction a as [|c a IH]; intro b; cbn [utf16 fold_right app]; [reflexivity|]. fold (utf16 (a ++ b)). rewrite IH. unfold utf16. lia. Qed.
Lemma blen_cons : forall c t, blen (c :: t) = len_utf8 c + blen t. Proof. reflexivity. Qed.
Lemma utf16_cons : forall c t, utf16 (c :: t) = len_utf16 c + utf16 t. Proof. reflexivity. Qed.
Lemma blen_zero : forall a, blen a = 0 -> a = [].
Proof. intros [|c a] H; [reflexivity|]. rewrite blen_cons in H. pose proof (len8_pos c). lia. Qed.

Lemma split_at_app : forall a b, split_at (blen a) (a ++ b) = Some (a, b).
Proof.
  induction a as [|c a IH]; intro b; [destruct b; reflexivity|].
  cbn [app split_at]. rewrite blen_cons. pose proof (len8_pos c).
  destruct (N.eqb_spec (len_utf8 c + blen a) 0); [lia|]. destruct (N.ltb_spec (len_utf8 c + blen a) (len_utf8 c)); [lia|].
  replace (len_utf8 c + blen a - len_utf8 c) with (blen a) by lia. rewrite IH. reflexivity.
Qed.
Lemma split_at_inv : forall t off a b, split_at off t = Some (a, b) -> t = a ++ b /\ off = blen a.
Proof.
  induction t as [|c t IH]; intros off a b; cbn [split_at]; destruct (N.eqb_spec off 0) as [->|Hne]; intro H; try discriminate;
    try (injection H as <- <-; split; reflexivity).
  destruct (N.ltb_spec off (len_utf8 c)); [discriminate|]. destruct (split_at (off - len_utf8 c) t) as [[a' b']|] eqn:E; [|discriminate].
  injection H as <- <-. destruct (IH _ _ _ E) as [-> He]. split; [reflexivity|]. rewrite blen_cons. lia.
Qed.
Lemma slice_app : forall a l b, slice (blen a) (blen (a ++ l)) (a ++ l ++ b) = Some l.
Proof.
  intros a l b. unfold slice. rewrite blen_app. destruct (N.ltb_spec (blen a + blen l) (blen a)); [lia|].
  rewrite split_at_app. replace (blen a + blen l - blen a) with (blen l) by lia. rewrite split_at_app. reflexivity.
Qed.

Lemma nl_len : len_utf8 NL = 1. Proof. reflexivity. Qed.
Lemma find_nl_some : forall l1 r, ~ In NL l1 -> find_nl (l1 ++ NL :: r) = Some (blen l1).
Proof.
  induction l1 as [|c l1 IH]; intros r H; cbn [app find_nl]; [reflexivity|].
  destruct (N.eqb_spec c NL) as [->|]; [contradiction H; left; reflexivity|]. rewrite IH by (intro; apply H; right; assumption). reflexivity.
Qed.
Lemma find_nl_after : forall l r p, ~ In NL l -> find_nl (l ++ r) = Some p -> blen l <= p.
Proof.
  induction l as [|c l IH]; intros r p H; cbn [app find_nl]; [cbn [blen fold_right]; lia|].
  destruct (N.eqb_spec c NL) as [->|]; [contradiction H; left; reflexivity|].
  destruct (find_nl (l ++ r)) as [q|] eqn:E; cbn [option_map]; intro Hp; [|discriminate]. injection Hp as <-.
  rewrite blen_cons. specialize (IH r q ltac:(intro; apply H; right; assumption) E). lia.
Qed.
Lemma find_nl_none : forall t, find_nl t = None <-> ~ In NL t.
Proof.
  induction t as [|c t IH]; cbn [find_nl]; [split; auto; intros _ []|].
  destruct (N.eqb_spec c NL) as [->|Hne]; [split; [discriminate | intro H; contradiction H; left; reflexivity]|].
  destruct (find_nl t); cbn [option_map]; split; intro H.
  - discriminate.
  - exfalso. assert (~ In NL t) as Hn by (intro; apply H; right; assumption). apply IH in Hn. discriminate.
  - intros [E|E]; [congruence | apply IH in E; auto].
  - reflexivity.
Qed.
Lemma newlines_app : forall a b, newlines (a ++ b) = (newlines a + newlines b)%nat.
Proof. intros a b. unfold newlines. rewrite filter_app, app_length. reflexivity. Qed.
Lemma newlines_none : forall l, newlines l = 0%nat <-> ~ In NL l.
Proof.
  intro l. unfold newlines. induction l as [|c l IH]; cbn [filter In]; [split; auto; intros _ []|].
  destruct (N.eqb_spec NL c) as [<-|Hne]; cbn [length]; [split; [discriminate | intro H; contradiction H; left; reflexivity]|].
  rewrite IH. split; [intros H [E|E]; [congruence | auto] | intros H E; apply H; right; exact E].
Qed.
Lemma newlines_cut : forall l n, newlines l = S n -> exists l1 l2, l = l1 ++ NL :: l2 /\ ~ In NL l1 /\ newlines l2 = n.
Proof.
  induction l as [|c l IH]; intros n H; [discriminate|]. unfold newlines in H. cbn [filter] in H.
  destruct (N.eqb_spec NL c) as [<-|Hne].
  - cbn [length] in H. injection H as H. exists [], l. split; [reflexivity|]. split; [intros [] | exact H].
  - fold (newlines l) in H. destruct (IH n H) as (l1 & l2 & -> & H1 & H2). exists (c :: l1), l2. split; [reflexivity|].
    split; [intros [E|E]; [congruence | auto] | exact H2].
Qed.
Lemma last_line_gen : forall l acc, ~ In NL l -> fold_left (fun l c => if c =? NL then [] else l ++ [c]) l acc = acc ++ l.
Proof.
  induction l as [|c l IH]; intros acc H; cbn [fold_left]; [symmetry; apply app_nil_r|].
  destruct (N.eqb_spec c NL) as [->|]; [contradiction H; left; reflexivity|]. rewrite IH by (intro; apply H; right; assumption). rewrite <- app_assoc. reflexivity.
Qed.
Lemma last_line_id : forall l, ~ In NL l -> last_line l = l.
Proof. intros l H. apply (last_line_gen l [] H). Qed.
Lemma last_line_cut : forall a l2, last_line (a ++ NL :: l2) = last_line l2.
Proof. intros a l2. unfold last_line. rewrite fold_left_app. reflexivity. Qed.
Lemma last_line_no : forall l, ~ In NL (last_line l).
Proof.
  intro l. induction l as [|c l IH] using rev_ind; [intros []|]. unfold last_line. rewrite fold_left_app. cbn [fold_left].
  fold (last_line l). destruct (N.eqb_spec c NL); [intros []|]. intro H. apply in_app_or in H. destruct H as [H|[H|[]]]; [auto | congruence].
Qed.

(** the text up to the start of the last line of [l] *)
Lemma cut_last : forall l, exists h, l = h ++ last_line l /\ newlines h = newlines l.
Proof.
  intro l. remember (newlines l) as n eqn:En. symmetry in En. revert l En. induction n as [|n IH]; intros l En.
  - exists []. rewrite last_line_id by (apply newlines_none; exact En). split; reflexivity.
  - destruct (newlines_cut l n En) as (l1 & l2 & -> & H1 & H2). destruct (IH l2 H2) as (h & Eh & Hh).
    exists (l1 ++ NL :: h). rewrite last_line_cut. split; [rewrite <- app_assoc; cbn [app]; rewrite <- Eh; reflexivity|].
    rewrite newlines_app in *. unfold newlines in *. cbn [filter] in *. rewrite N.eqb_refl in *. cbn [length] in *. lia.
Qed.

Lemma line_offset_spec : forall n t a h l, t = a ++ h ++ l -> newlines h = n -> (h = [] \/ exists h', h = h' ++ [NL]) ->
  line_offset_from n t (blen a) = Ok (blen (a ++ h)).
Proof.
  induction n as [|n IH]; intros t a h l -> Hn Hend; cbn [line_offset_from].
  - apply newlines_none in Hn. destruct Hend as [->|[h' ->]]; [rewrite app_nil_r; reflexivity|]. contradiction Hn. apply in_or_app. right. left. reflexivity.
  - rewrite split_at_app. destruct (newlines_cut h n Hn) as (l1 & l2 & -> & H1 & H2).
    rewrite <- app_assoc. cbn [app]. rewrite (find_nl_some l1 (l2 ++ l) H1).
    replace (blen a + (blen l1 + 1)) with (blen (a ++ l1 ++ [NL])) by (rewrite !blen_app, blen_cons, nl_len; cbn [blen fold_right]; lia).
    rewrite (IH _ (a ++ l1 ++ [NL]) l2 l).
    + rewrite <- !app_assoc. reflexivity.
    + rewrite <- !app_assoc. reflexivity.
    + exact H2.
    + destruct Hend as [E|[h' E]]; [destruct l1; discriminate|]. destruct l2 as [|c l2] using rev_ind; [left; reflexivity|]. right. exists l2.
      clear IHl2. rewrite app_comm_cons, app_assoc in E. apply app_inj_tail in E. destruct E as [_ ->]. reflexivity.
Qed.
Lemma line_offset_err : forall n t a l, t = a ++ l -> (newlines l < n)%nat -> line_offset_from n t (blen a) = Err.
Proof.
  induction n as [|n IH]; intros t a l -> Hn; [lia|]. cbn [line_offset_from]. rewrite split_at_app.
  destruct (newlines l) as [|k] eqn:Ek.
  - apply newlines_none in Ek. destruct (find_nl l) eqn:E; [|reflexivity]. apply find_nl_none in Ek. congruence.
  - destruct (newlines_cut l k Ek) as (l1 & l2 & -> & H1 & H2). rewrite (find_nl_some l1 l2 H1).
    replace (blen a + (blen l1 + 1)) with (blen (a ++ l1 ++ [NL])) by (rewrite !blen_app, blen_cons, nl_len; cbn [blen fold_right]; lia).
    apply IH with l2; [rewrite <- !app_assoc; reflexivity | lia].
Qed.

(** where a line starts *)
Definition starts_line (n : nat) (h : text) : Prop := newlines h = n /\ (h = [] \/ exists h', h = h' ++ [NL]).
Lemma line_exists : forall n t, (n <= newlines t)%nat -> exists h r, t = h ++ r /\ starts_line n h.
Proof.
  induction n as [|n IH]; intros t Hn; [exists [], t; repeat split; left; reflexivity|].
  destruct (newlines t) as [|k] eqn:Ek; [lia|]. destruct (newlines_cut t k Ek) as (l1 & l2 & -> & H1 & H2).
  destruct (IH l2 ltac:(lia)) as (h & r & -> & Hs & He). exists (l1 ++ NL :: h), r. split; [rewrite <- app_assoc; reflexivity|]. split.
  - apply newlines_none in H1. rewrite newlines_app, H1. unfold newlines in *. cbn [filter]. rewrite N.eqb_refl. cbn [length]. lia.
  - right. destruct He as [->|[h' ->]]; [exists l1; reflexivity | exists (l1 ++ NL :: h'); rewrite <- app_assoc; reflexivity].
Qed.
Lemma last_line_start : forall l, exists h, l = h ++ last_line l /\ starts_line (newlines l) h.
Proof.
  intro l. destruct (cut_last l) as (h & E & Hn). exists h. split; [exact E|]. split; [exact Hn|].
  destruct h as [|c h _] using rev_ind; [left; reflexivity|]. right. exists h. destruct (N.eq_dec c NL) as [->|Hne]; [reflexivity|]. exfalso.
  assert (Hl : last_line l = last_line (h ++ [c]) ++ last_line l).
  { rewrite E at 1. unfold last_line at 1. rewrite fold_left_app. fold (last_line (h ++ [c])). apply last_line_gen, last_line_no. }
  assert (Hz : last_line (h ++ [c]) = []). { apply (f_equal (@length _)) in Hl. rewrite app_length in Hl. destruct (last_line (h ++ [c])); [reflexivity | cbn in Hl; lia]. }
  unfold last_line in Hz. rewrite fold_left_app in Hz. cbn [fold_left] in Hz. destruct (N.eqb_spec c NL); [contradiction|].
  apply app_eq_nil in Hz. destruct Hz as [_ Hz]. discriminate.
Qed.

Lemma skip_units_spec : forall rest ch, exists b r, rest = b ++ r /\ skip_units ch rest = r /\
  (ch <= utf16 b \/ r = []) /\ (b = [] \/ exists b' c, b = b' ++ [c] /\ utf16 b' < ch).
Proof.
  induction rest as [|c rest IH]; intro ch; cbn [skip_units].
  - exists [], []. repeat split; auto.
  - destruct (N.eqb_spec ch 0) as [->|Hne].
    + exists [], (c :: rest). repeat split; [left; cbn; lia | left; reflexivity].
    + destruct (IH (ch - len_utf16 c)) as (b & r & -> & Hs & H1 & H2). exists (c :: b), r. split; [reflexivity|]. split; [exact Hs|]. rewrite utf16_cons. split.
      * destruct H1 as [H1|H1]; [left; lia | right; exact H1].
      * right. destruct H2 as [->|(b' & c' & -> & H2)]; [exists [], c; split; [reflexivity | cbn [utf16 fold_right]; lia]|].
        exists (c :: b'), c'. split; [reflexivity | rewrite utf16_cons; lia].
Qed.
Lemma skip_units_exact : forall b r, skip_units (utf16 b) (b ++ r) = r.
Proof.
  induction b as [|c b IH]; intro r; [destruct r; reflexivity|]. cbn [app skip_units]. rewrite utf16_cons. pose proof (len16_pos c).
  destruct (N.eqb_spec (len_utf16 c + utf16 b) 0); [lia|]. replace (len_utf16 c + utf16 b - len_utf16 c) with (utf16 b) by lia. apply IH.
Qed.

Lemma total_offset_at : forall n h r ch, starts_line n h -> total_offset (h ++ r) n ch = Ok (blen (h ++ r) - blen (skip_units ch r)).
Proof.
  intros n h r ch [Hn He]. unfold total_offset, line_offset. change 0 with (blen []) at 1.
  rewrite (line_offset_spec n (h ++ r) [] h r eq_refl Hn He). cbn [bind app]. rewrite split_at_app. reflexivity.
Qed.

Lemma find_line_spec : forall fuel a l post line, (newlines l < fuel)%nat ->
  exists h, l = h ++ last_line l /\ find_line fuel (a ++ l ++ post) (blen (a ++ l)) line (blen a) = Ok ((line + newlines l)%nat, blen (a ++ h)).
Proof.
  induction fuel as [|f IH]; intros a l post line Hf; [lia|]. cbn [find_line]. rewrite split_at_app.
  destruct (newlines l) as [|k] eqn:Ek.
  - apply newlines_none in Ek. exists []. rewrite last_line_id by exact Ek. split; [reflexivity|]. rewrite app_nil_r, Nat.add_0_r.
    destruct (find_nl (l ++ post)) as [p|] eqn:E; [|reflexivity]. apply find_nl_after in E; [|exact Ek]. rewrite blen_app.
    destruct (N.ltb_spec (blen a + p) (blen a + blen l)); [lia | reflexivity].
  - destruct (newlines_cut l k Ek) as (l1 & l2 & -> & H1 & H2). rewrite <- app_assoc. cbn [app]. rewrite (find_nl_some l1 (l2 ++ post) H1).
    rewrite !blen_app, blen_cons, nl_len. destruct (N.ltb_spec (blen a + blen l1) (blen a + (blen l1 + (1 + blen l2)))); [|lia].
    destruct (IH (a ++ l1 ++ [NL]) l2 post (S line) ltac:(lia)) as (h & Eh & E).
    exists (l1 ++ NL :: h). rewrite last_line_cut. split; [rewrite <- app_assoc; cbn [app]; rewrite <- Eh; reflexivity|].
    rewrite !blen_app, !blen_cons, nl_len in *. rewrite <- !app_assoc in E. cbn [app blen fold_right] in E.
    replace (blen a + (blen l1 + 1)) with (blen a + (blen l1 + (1 + 0))) by lia.
    replace (blen a + (blen l1 + (1 + blen l2))) with (blen a + (blen l1 + (1 + 0)) + blen l2) by lia. rewrite E. f_equal. f_equal; [lia|]. lia.
Qed.
Lemma newlines_le : forall t, (newlines t <= length t)%nat.
Proof. intro t. unfold newlines. induction t as [|c t IH]; cbn [filter length]; [lia|]. destruct (NL =? c); cbn [length]; lia. Qed.

Lemma offset_to_position_at : forall pre post, offset_to_position (pre ++ post) (blen pre) = Ok (position_of pre).
Proof.
  intros pre post. unfold offset_to_position.
  destruct (find_line_spec (S (length (pre ++ post))) [] pre post 0) as (h & Eh & E).
  { pose proof (newlines_le pre). rewrite app_length. lia. }
  change (blen []) with 0 in E. cbn [app] in E. rewrite E. cbn [bind fst snd].
  rewrite Eh at 1 2. rewrite <- app_assoc, slice_app. reflexivity.
Qed.

Lemma total_offset_position : forall pre post, total_offset (pre ++ post) (fst (position_of pre)) (snd (position_of pre)) = Ok (blen pre).
Proof.
  intros pre post. destruct (last_line_start pre) as (h & E & Hs). cbn [position_of fst snd].
  assert (E2 : pre ++ post = h ++ last_line pre ++ post) by (rewrite app_assoc, <- E; reflexivity).
  rewrite E2, (total_offset_at _ h _ _ Hs), skip_units_exact. f_equal.
  rewrite (app_assoc h), <- E, blen_app. lia.
Qed.

Lemma newlines_cons : forall c t, newlines (c :: t) = ((if N.eqb NL c then 1 else 0) + newlines t)%nat.
Proof. intros c t. unfold newlines. cbn [filter]. destruct (NL =? c); reflexivity. Qed.
Lemma last_line_snoc : forall l c, last_line (l ++ [c]) = if c =? NL then [] else last_line l ++ [c].
Proof. intros l c. unfold last_line. rewrite fold_left_app. reflexivity. Qed.
Lemma pos_step : forall pre c, pos_le (position_of pre) (position_of (pre ++ [c])) /\ position_of pre <> position_of (pre ++ [c]).
Proof.
  intros pre c. unfold pos_le, position_of. cbn [fst snd]. rewrite newlines_app, newlines_cons. change (newlines []) with 0%nat. rewrite last_line_snoc, (N.eqb_sym c NL). pose proof (len16_pos c). destruct (N.eqb_spec NL c) as [<-|Hne].
  - split; [left; lia|]. intro E. apply (f_equal fst) in E. cbn [fst] in E. lia.
  - rewrite utf16_app, utf16_cons. change (utf16 []) with 0. split; [right; lia|]. intro E. apply (f_equal snd) in E. cbn [snd] in E. lia.
Qed.
Lemma pos_le_trans : forall p q r, pos_le p q -> pos_le q r -> pos_le p r.
Proof. intros p q r. unfold pos_le. lia. Qed.
Lemma pos_antisym : forall p q, pos_le p q -> pos_le q p -> p = q.
Proof. intros [a b] [c d]. unfold pos_le. cbn [fst snd]. intros. f_equal; lia. Qed.
Lemma pos_mono : forall l pre, pos_le (position_of pre) (position_of (pre ++ l)) /\ (l <> [] -> position_of pre <> position_of (pre ++ l)).
Proof.
  induction l as [|c l IH]; intro pre; [rewrite app_nil_r; split; [right; lia | congruence]|].
  destruct (pos_step pre c) as [A B]. destruct (IH (pre ++ [c])) as [C _]. rewrite <- app_assoc in C. cbn [app] in C. split; [eapply pos_le_trans; eassumption|].
  intros _ E. rewrite <- E in C. apply B, pos_antisym; assumption.
Qed.

(** C26.  At every character boundary of every document the offset converts to the editor's position and back. *)
Theorem C26_round_trip :
  forall pre post, offset_to_position (pre ++ post) (blen pre) = Ok (position_of pre) /\
    total_offset (pre ++ post) (fst (position_of pre)) (snd (position_of pre)) = Ok (blen pre).
Proof. intros. split; [apply offset_to_position_at | apply total_offset_position]. Qed.
Print Assumptions C26_round_trip.

(** later offsets have later positions *)
Theorem C26_monotone :
  forall pre mid, mid <> [] -> pos_le (position_of pre) (position_of (pre ++ mid)) /\ position_of pre <> position_of (pre ++ mid).
Proof. intros pre mid H. destruct (pos_mono mid pre). auto. Qed.
Print Assumptions C26_monotone.

(** offset_to_position answers exactly at character boundaries and panics elsewhere *)
Theorem C26_boundaries :
  forall t off, (exists pre post, t = pre ++ post /\ off = blen pre) \/ offset_to_position t off = Panic.
Proof.
  intros t off. unfold offset_to_position.
  destruct (find_line (S (length t)) t off 0 0) as [[line ls]| |] eqn:E; cbn [bind fst snd]; [|exfalso|right; reflexivity].
  - unfold slice. destruct (N.ltb_spec off ls) as [|Hle]; [right; reflexivity|].
    destruct (split_at ls t) as [[a r]|] eqn:Es; [|right; reflexivity]. apply split_at_inv in Es. destruct Es as [-> ->].
    destruct (split_at (off - blen a) r) as [[l b]|] eqn:El; cbn [option_map fst]; [|right; reflexivity]. apply split_at_inv in El. destruct El as [-> Ho].
    left. exists (a ++ l), b. split; [rewrite app_assoc; reflexivity | rewrite blen_app; lia].
  - revert E. generalize (S (length t)) 0%nat 0. induction n as [|n IH]; intros line ls; cbn [find_line]; [discriminate|].
    destruct (split_at ls t) as [[? rest]|]; [|discriminate]. destruct (find_nl rest); [|discriminate]. destruct (_ <? _); [apply IH | discriminate].
Qed.
Print Assumptions C26_boundaries.

(** What a position means to the server, in full: it is refused exactly when the document has fewer lines;
    otherwise the offset is that of the first character boundary at least [ch] UTF-16 units after the start of
    the line (or the end of the document). *)
Theorem C26_resolution_partial :
  forall t n ch,
  (total_offset t n ch = Err <-> (newlines t < n)%nat) /\
  ((n <= newlines t)%nat -> exists h b r, t = h ++ b ++ r /\ starts_line n h /\ total_offset t n ch = Ok (blen (h ++ b)) /\
     (ch <= utf16 b \/ r = []) /\ (b = [] \/ exists b' c, b = b' ++ [c] /\ utf16 b' < ch)).
Proof.
  intros t n ch.
  assert (G : (n <= newlines t)%nat -> exists h b r, t = h ++ b ++ r /\ starts_line n h /\ total_offset t n ch = Ok (blen (h ++ b)) /\
     (ch <= utf16 b \/ r = []) /\ (b = [] \/ exists b' c, b = b' ++ [c] /\ utf16 b' < ch)).
  { intro Hn. destruct (line_exists n t Hn) as (h & rest & -> & Hs). destruct (skip_units_spec rest ch) as (b & r & -> & E & H1 & H2).
    exists h, b, r. split; [reflexivity|]. split; [exact Hs|]. split; [|auto]. rewrite (total_offset_at n h _ ch Hs), E. f_equal. rewrite !blen_app. lia. }
  split; [split|exact G].
  - intro E. destruct (Nat.lt_ge_cases (newlines t) n) as [|Hn]; [assumption|]. destruct (G Hn) as (h & b & r & _ & _ & E' & _). congruence.
  - intro Hn. unfold total_offset, line_offset. change 0 with (blen []) at 1. rewrite (line_offset_err n t [] t eq_refl Hn). reflexivity.
Qed.
Print Assumptions C26_resolution_partial.

(** Refuted clause: a column past the end of its line is not clamped to that line, it reaches into the next
    ("ab" newline "cd": line 0, column 4 resolves to the place after the c). *)
Theorem C26_past_end_refuted :
  exists t n ch h l r, t = h ++ l ++ NL :: r /\ starts_line n h /\ ~ In NL l /\ utf16 l < ch /\
    total_offset t n ch <> Ok (blen (h ++ l)).
Proof.
  exists [97; 98; NL; 99; 100], 0%nat, 4, [], [97; 98], [99; 100]. repeat split; try (vm_compute; congruence).
  - left. reflexivity.
  - intros [H|[H|[]]]; discriminate.
Qed.
Print Assumptions C26_past_end_refuted.

Example C26_demo : (* a 4-byte character (2 UTF-16 units), a newline, an e-acute *)
  offset_to_position [97; 0x1F600; NL; 0xE9; 98] 8 = Ok (1%nat, 1) /\ total_offset [97; 0x1F600; NL; 0xE9; 98] 1 1 = Ok 8 /\
  total_offset [97; 0x1F600; NL; 0xE9; 98] 0 2 = Ok 5 /\ offset_to_position [97; 0x1F600; NL] 3 = Panic.
Proof. repeat split. Qed.

(** ** C27 *)
(** get_range returns the text between the two places *)
Theorem C27_get_range :
  forall pre mid post, get_range (pre ++ mid ++ post) (position_of pre, position_of (pre ++ mid)) = Ok mid.
Proof.
  intros pre mid post. unfold get_range. cbn [fst snd]. pose proof (total_offset_position pre (mid ++ post)) as A. pose proof (total_offset_position (pre ++ mid) post) as B.
  rewrite <- app_assoc in B. rewrite A. cbn [bind]. rewrite B. cbn [bind]. rewrite slice_app. reflexivity.
Qed.
Print Assumptions C27_get_range.

(** What the client does to its own copy: it replaces the text between two places, or everything. *)
Inductive client_edit : text -> change -> text -> Prop :=
| edit_range : forall pre mid post new,
    client_edit (pre ++ mid ++ post) {| ch_range := Some (position_of pre, position_of (pre ++ mid)); ch_text := new |} (pre ++ new ++ post)
| edit_full : forall old new, client_edit old {| ch_range := None; ch_text := new |} new.
Inductive client_edits : text -> list change -> text -> Prop :=
| edits_nil : forall t, client_edits t [] t
| edits_cons : forall t c t1 cs t2, client_edit t c t1 -> client_edits t1 cs t2 -> client_edits t (c :: cs) t2.

Lemma apply_change_correct : forall t c t', client_edit t c t' -> apply_change t c = Ok t'.
Proof.
  intros t c t' [pre mid post new | old new]; [|reflexivity]. unfold apply_change. cbn [ch_range ch_text fst snd].
  pose proof (total_offset_position pre (mid ++ post)) as A. pose proof (total_offset_position (pre ++ mid) post) as B.
  rewrite <- app_assoc in B. rewrite A. cbn [bind]. rewrite B. cbn [bind].
  destruct (N.ltb_spec (blen (pre ++ mid)) (blen pre)) as [L|_]; [rewrite blen_app in L; lia|].
  rewrite split_at_app. rewrite (app_assoc pre mid post), split_at_app. reflexivity.
Qed.

(** The whole session, for every client that follows the protocol: opens documents that are closed, changes and
    closes documents that are open, never lowers a version.  [client] is what the client shows. *)
Section Session.
  Context {url : Type} (ueqb : url -> url -> bool) (ueqb_spec : forall a b, reflect (a = b) (ueqb a b)).
  Inductive session : (url -> option (Z * text)) -> list (event url) -> (url -> option (Z * text)) -> Prop :=
  | ses_nil : forall w w', (forall v, w v = w' v) -> session w [] w'
  | ses_open : forall w u v t es w', w u = None ->
      session (fun x => if ueqb x u then Some (v, t) else w x) es w' -> session w (Open u v t :: es) w'
  | ses_change : forall w u v0 t0 v cs t es w', w u = Some (v0, t0) -> (v0 <= v)%Z -> client_edits t0 cs t ->
      session (fun x => if ueqb x u then Some (v, t) else w x) es w' -> session w (Change u v cs :: es) w'
  | ses_close : forall w u d es w', w u = Some d ->
      session (fun x => if ueqb x u then None else w x) es w' -> session w (Close u :: es) w'.

  Definition agrees (w : url -> option (Z * text)) (s : store url) : Prop :=
    forall u, option_map (fun d => (version d, doc_text d)) (s u) = w u.

  Lemma apply_changes_correct : forall cs t t', client_edits t cs t' -> apply_changes t cs = Ok (t', true).
  Proof.
    induction cs as [|c cs IH]; intros t t' H; inversion H as [|t0 c0 t1 cs0 t2 He Hr]; subst; [reflexivity|].
    cbn [apply_changes]. rewrite (apply_change_correct _ _ _ He). apply IH. exact Hr.
  Qed.

  Lemma session_lemma : forall es w w' s, session w es w' -> agrees w s ->
    exists s', handle_all ueqb s es = Ok (s', repeat true (length es)) /\ agrees w' s'.
  Proof.
    intros es w w' s H. revert s. induction H as [w w' Hw | w u v t es w' Hn Hs IH | w u v0 t0 v cs t es w' Hu Hv He Hs IH | w u d es w' Hu Hs IH]; intros s Ha.
    - exists s. split; [reflexivity|]. intro u. rewrite Ha. auto.
    - cbn [handle_all handle bind fst snd]. assert (E0 : s u = None) by (specialize (Ha u); rewrite Hn in Ha; destruct (s u); [discriminate | reflexivity]). rewrite E0.
      destruct (IH (set_doc ueqb s u (Some {| version := v; doc_text := t |}))) as (s' & E & Ha').
      { intro x. unfold set_doc. destruct (ueqb x u); [reflexivity | apply Ha]. }
      rewrite E. cbn [bind fst snd]. exists s'. split; [reflexivity | exact Ha'].
    - cbn [handle_all handle bind fst snd]. pose proof (Ha u) as E0. rewrite Hu in E0. destruct (s u) as [d|]; [|discriminate]. cbn in E0. injection E0 as Ev Et.
      rewrite Ev, Et. destruct (Z.ltb_spec v v0); [lia|]. rewrite (apply_changes_correct _ _ _ He). cbn [bind fst snd].
      destruct (IH (set_doc ueqb s u (Some {| version := v; doc_text := t |}))) as (s' & E & Ha').
      { intro x. unfold set_doc. destruct (ueqb x u); [reflexivity | apply Ha]. }
      rewrite E. cbn [bind fst snd]. exists s'. split; [reflexivity | exact Ha'].
    - cbn [handle_all handle bind fst snd]. pose proof (Ha u) as E0. rewrite Hu in E0. destruct (s u) as [d0|]; [|discriminate]. cbn [bind fst snd].
      destruct (IH (set_doc ueqb s u None)) as (s' & E & Ha').
      { intro x. unfold set_doc. destruct (ueqb x u); [reflexivity | apply Ha]. }
      rewrite E. cbn [bind fst snd]. exists s'. split; [reflexivity | exact Ha'].
  Qed.
End Session.

(** C27.  After any protocol-following session the server holds for every document exactly the client's text and
    version, and every notification was accepted. *)
Theorem C27_synchronised :
  forall (url : Type) (ueqb : url -> url -> bool), (forall a b, reflect (a = b) (ueqb a b)) ->
  forall es w', session ueqb (fun _ => None) es w' ->
  exists s', handle_all ueqb (fun _ => None) es = Ok (s', repeat true (length es)) /\
    forall u, option_map (fun d => (version d, doc_text d)) (s' u) = w' u.
Proof. intros url ueqb Hu es w' H. exact (session_lemma ueqb es _ w' (fun _ => None) H (fun _ => eq_refl)). Qed.
Print Assumptions C27_synchronised.

(** Whatever the client sends, only the document named is touched, an unopened document and a lower version are
    refused without effect, and versions of an open document never go down except by opening it again. *)
Theorem C27_isolation :
  forall (url : Type) (ueqb : url -> url -> bool), (forall a b, reflect (a = b) (ueqb a b)) ->
  forall (s : store url) e s' ok, handle ueqb s e = Ok (s', ok) ->
  let u := match e with Open u _ _ => u | Change u _ _ => u | Close u => u end in
  (forall u', u' <> u -> s' u' = s u') /\
  (match e with Open _ _ _ => False | _ => s u = None end -> ok = false /\ forall u', s' u' = s u') /\
  (forall v cs d, e = Change u v cs -> s u = Some d -> (v < version d)%Z -> ok = false /\ forall u', s' u' = s u') /\
  (forall v cs d d', e = Change u v cs -> s u = Some d -> s' u = Some d' -> (version d <= version d')%Z).
Proof.
  intros url ueqb Hu s e s' ok H u.
  assert (Hset : forall d v, v <> u -> set_doc ueqb s u d v = s v) by (intros d v Hv; unfold set_doc; destruct (Hu v u); [contradiction | reflexivity]).
  assert (Hself : forall d, set_doc ueqb s u d u = d) by (intro d; unfold set_doc; destruct (Hu u u); [reflexivity | contradiction]).
  destruct e as [u0 v t | u0 v cs | u0]; subst u; cbn [handle] in H.
  - injection H as <- <-. split; [auto|]. split; [intros []|]. split; discriminate.
  - destruct (s u0) as [d|] eqn:Es.
    + destruct (Z.ltb_spec v (version d)) as [L|L].
      * injection H as <- <-. split; [auto|]. split; [discriminate|]. split.
        -- intros; split; [reflexivity | auto].
        -- intros v1 cs1 d1 d2 _ E1 E2. replace d2 with d1 by congruence. lia.
      * destruct (apply_changes (doc_text d) cs) as [q| |]; try discriminate. cbn [bind] in H. injection H as <- <-. split; [auto|]. split; [discriminate|]. split.
        -- intros v1 cs1 d1 E E1 Hlt. injection E as <- <-. replace d1 with d in Hlt by congruence. lia.
        -- intros v1 cs1 d1 d2 _ E1 E2. rewrite Hself in E2. injection E2 as <-. cbn [version]. replace d1 with d by congruence. exact L.
    + injection H as <- <-. split; [auto|]. split; [auto|]. split; intros; congruence.
  - destruct (s u0) as [d|] eqn:Es; injection H as <- <-; (split; [auto|]); (split; [try discriminate; auto|]); split; intros; discriminate.
Qed.
Print Assumptions C27_isolation.

(** A change is refused (and its text left alone) exactly when one of its lines does not exist, and the server
    panics exactly when both exist and the end resolves before the start. *)
Theorem C27_bad_ranges :
  forall t new a b,
  let c := {| ch_range := Some (a, b); ch_text := new |} in
  (apply_change t c = Err <-> (newlines t < fst a)%nat \/ (newlines t < fst b)%nat) /\
  (apply_change t c = Panic <-> exists oa ob, total_offset t (fst a) (snd a) = Ok oa /\ total_offset t (fst b) (snd b) = Ok ob /\ ob < oa).
Proof.
  intros t new [la ca] [lb cb]. cbv zeta. unfold apply_change. cbn [ch_range ch_text fst snd].
  destruct (C26_resolution_partial t la ca) as [Ea Ra]. destruct (C26_resolution_partial t lb cb) as [Eb Rb].
  destruct (Nat.lt_ge_cases (newlines t) la) as [La|La].
  { apply Ea in La as E. rewrite E. cbn [bind]. split; [tauto|]. split; [discriminate | intros (x & y & H & _); discriminate]. }
  destruct (Ra La) as (h1 & b1 & r1 & E1 & _ & T1 & _). rewrite T1. cbn [bind].
  destruct (Nat.lt_ge_cases (newlines t) lb) as [Lb|Lb].
  { apply Eb in Lb as E. rewrite E. cbn [bind]. split; [tauto|]. split; [discriminate | intros (x & y & _ & H & _); discriminate]. }
  destruct (Rb Lb) as (h2 & b2 & r2 & E2 & _ & T2 & _). rewrite T2. cbn [bind].
  assert (S1 : split_at (blen (h1 ++ b1)) t = Some (h1 ++ b1, r1)) by (rewrite E1, app_assoc; apply split_at_app).
  assert (S2 : split_at (blen (h2 ++ b2)) t = Some (h2 ++ b2, r2)) by (rewrite E2, app_assoc; apply split_at_app).
  rewrite S1, S2. destruct (N.ltb_spec (blen (h2 ++ b2)) (blen (h1 ++ b1))) as [L|L].
  - split; [split; [discriminate | lia]|]. split; [intros _; exists (blen (h1 ++ b1)), (blen (h2 ++ b2)); auto | reflexivity].
  - split; [split; [discriminate | lia]|]. split; [discriminate | intros (x & y & Hx & Hy & Hl)]. injection Hx as <-. injection Hy as <-. lia.
Qed.
Print Assumptions C27_bad_ranges.

Example C27_demo :
  handle_all Nat.eqb (fun _ => None)
    [Open 1%nat 1%Z [97; NL; 0x1F600; 98];
     Change 1%nat 2%Z [{| ch_range := Some ((1%nat, 0), (1%nat, 2)); ch_text := [99] |}; {| ch_range := Some ((0%nat, 1), (1%nat, 0)); ch_text := [] |}]]
  = Ok (set_doc Nat.eqb (set_doc Nat.eqb (fun _ => None) 1%nat (Some {| version := 1; doc_text := [97; NL; 0x1F600; 98] |}))
          1%nat (Some {| version := 2; doc_text := [97; 99; 98] |}), [true; true]).
Proof. reflexivity. Qed.
Example C27_demo_session : session Nat.eqb (fun _ => None)
    [Open 1%nat 1%Z [97; NL; 98]; Change 1%nat 2%Z [{| ch_range := Some (position_of [97; NL], position_of ([97; NL] ++ [98])); ch_text := [99] |}]]
    (fun u => if Nat.eqb u 1 then Some (2%Z, [97; NL; 99]) else None).
Proof.
  apply ses_open; [reflexivity|]. apply (ses_change _ _ 1%nat 1%Z [97; NL; 98] 2%Z _ [97; NL; 99]); [reflexivity | lia| |].
  - apply (edits_cons _ _ [97; NL; 99]); [apply (edit_range [97; NL] [98] [] [99]) | apply edits_nil].
  - apply ses_nil. intro v. destruct (Nat.eqb v 1); reflexivity.
Qed.
