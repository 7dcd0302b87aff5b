(** The location tracker.  Models crates/dreammaker/src/lexer.rs:520-620 (LocationTracker).  Property C10. *)
From Coq Require Import List NArith ZArith Lia Bool.
From Verif Require Import Loc.Model.
Import ListNotations.
Open Scope N_scope.

Notation byte := N (only parsing).
Definition NL : byte := 10.

(** lexer.rs:528-534.  [rest] is what [remaining()] returns; the file number never changes and is left out. *)
Record tracker := { rest : list byte; line : N; col : N; at_line_end : bool }.
Definition LINE_MAX : N := 2 ^ 32 - 1.
Definition COL_MAX : N := 2 ^ 16 - 1.

(** lexer.rs:543-560 new: a leading UTF-8 byte order mark is skipped *)
Definition skip_bom (l : list byte) : list byte :=
  match l with 0xEF :: 0xBB :: 0xBF :: r => r | _ => l end.
Definition new (inner : list byte) : tracker := {| rest := skip_bom inner; line := 0; col := 0; at_line_end := true |}.

(** lexer.rs:562-570 from_location; [None] = the panic of Location::pred *)
Definition from_location (l : loc) (inner : list byte) : option tracker :=
  match pred l with
  | Some p => Some {| rest := inner; line := Z.to_N (lline p); col := Z.to_N (lcol p); at_line_end := Z.to_N (lcol p) =? COL_MAX |}
  | None => None
  end.

(** lexer.rs:595-619 Iterator::next without the limits *)
Definition step (t : tracker) : option byte * tracker :=
  let l := if at_line_end t then line t + 1 else line t in
  let c := if at_line_end t then 0 else col t in
  match rest t with
  | [] => (None, {| rest := []; line := l; col := c; at_line_end := false |})
  | ch :: r => (Some ch, {| rest := r; line := l; col := c + 1; at_line_end := (ch =? NL) |})
  end.
(** lexer.rs:595-619 Iterator::next; [None] = one of its two panics *)
Definition next (t : tracker) : option (option byte * tracker) :=
  let '(r, t') := step t in
  if (line t' <=? LINE_MAX) && (col t' <=? COL_MAX) then Some (r, t') else None.

(** [n] calls of next: the bytes returned and the tracker after them *)
Fixpoint nexts (n : nat) (t : tracker) : option (list (option byte) * tracker) :=
  match n with
  | O => Some ([], t)
  | S n' => match next t with
            | None => None
            | Some (r, t') => match nexts n' t' with None => None | Some (rs, t'') => Some (r :: rs, t'') end
            end
  end.

(** lexer.rs:537-541 count_location: reads to the end *)
Definition count_location (inner : list byte) : option (N * N) :=
  option_map (fun q => (line (snd q), col (snd q))) (nexts (S (length (skip_bom inner))) (new inner)).

(** ** Specification *)
(** the text of a file: what follows its byte order mark, if it begins with one *)
Definition file_text (inner content : list byte) : Prop :=
  inner = [239; 187; 191] ++ content \/ ((forall r, inner <> [239; 187; 191] ++ r) /\ content = inner).
Definition newlines (l : list byte) : N := N.of_nat (length (filter (N.eqb NL) l)).
(** bytes since the last newline *)
Fixpoint since_nl (l : list byte) : N :=
  match l with [] => 0 | b :: l' => if existsb (N.eqb NL) l then since_nl l' else 1 + since_nl l' end.
(** the place of the byte that follows [before] *)
Definition place (before : list byte) : N * N := (1 + newlines before, 1 + since_nl before).
(** where a file ends: the place of its last byte, or column 0 of the line that its last newline begins *)
Definition end_place (content : list byte) : N * N :=
  match rev content with
  | [] => (1, 0)
  | b :: d => if b =? NL then (1 + newlines content, 0) else place (rev d)
  end.
Definition place_ok (p : N * N) : Prop := fst p <= LINE_MAX /\ snd p <= COL_MAX.
Definition place_lt (p q : N * N) : Prop := fst p < fst q \/ (fst p = fst q /\ snd p < snd q).

(** ** Proofs *)
Lemma newlines_snoc : forall l b, newlines (l ++ [b]) = newlines l + (if b =? NL then 1 else 0).
Proof. intros l b. unfold newlines. rewrite filter_app, app_length, Nat2N.inj_add. cbn [filter]. rewrite N.eqb_sym. destruct (b =? NL); reflexivity. Qed.
Lemma since_nl_snoc : forall l b, since_nl (l ++ [b]) = if b =? NL then 0 else since_nl l + 1.
Proof.
  induction l as [|x l IH]; intro b.
  - cbn [app since_nl existsb]. rewrite (N.eqb_sym NL b). destruct (b =? NL); reflexivity.
  - cbn [app since_nl]. change (x :: l ++ [b]) with ((x :: l) ++ [b]). rewrite existsb_app. cbn [existsb]. rewrite (N.eqb_sym NL b), orb_false_r, IH. destruct (N.eqb b NL).
    + rewrite orb_true_r. reflexivity.
    + rewrite orb_false_r. destruct ((NL =? x) || existsb (N.eqb NL) l); lia.
Qed.

(** after reading [done] (nonempty or not) from a file that starts with [done ++ todo] *)
Definition reached (done todo : list byte) (t : tracker) : Prop :=
  rest t = todo /\
  ((done = [] /\ line t = 0 /\ at_line_end t = true) \/
   (exists d b, done = d ++ [b] /\ (line t, col t) = place d /\ at_line_end t = (b =? NL))).
Lemma reached_step : forall done b todo t, reached done (b :: todo) t ->
  fst (step t) = Some b /\ (line (snd (step t)), col (snd (step t))) = place done /\ reached (done ++ [b]) todo (snd (step t)).
Proof.
  intros done b todo t [Hr Hs]. unfold step. rewrite Hr. cbn [fst snd rest line col at_line_end].
  assert (P : (if at_line_end t then line t + 1 else line t, (if at_line_end t then 0 else col t) + 1) = place done).
  { destruct Hs as [(-> & -> & ->)|(d & c & -> & E & ->)]; [reflexivity|]. pose proof (f_equal fst E) as E1. pose proof (f_equal snd E) as E2. unfold place in *. cbn [fst snd] in E1, E2. rewrite E1, E2, newlines_snoc, since_nl_snoc.
    destruct (c =? NL); apply f_equal2; try reflexivity; lia. }
  split; [reflexivity|]. split; [exact P|]. split; [reflexivity|]. right. exists done, b. auto.
Qed.
Lemma step_end : forall done t, reached done [] t -> fst (step t) = None /\
  (line (snd (step t)), col (snd (step t))) = end_place done.
Proof. unfold end_place.
  intros done t [Hr Hs]. unfold step. rewrite Hr. cbn [fst snd line col]. split; [reflexivity|].
  destruct Hs as [(-> & -> & ->)|(d & c & -> & E & ->)]; [reflexivity|]. rewrite rev_app_distr. cbn [rev app]. rewrite rev_involutive. pose proof (f_equal fst E) as E1. pose proof (f_equal snd E) as E2. unfold place in *. cbn [fst snd] in E1, E2. rewrite E1, E2.
  rewrite newlines_snoc. destruct (c =? NL); unfold place; apply f_equal2; try reflexivity; lia.
Qed.

Lemma nexts_reached : forall todo done t, reached done todo t -> forall n, (n <= length todo)%nat ->
  (forall k, (k < n)%nat -> place_ok (place (done ++ firstn k todo))) ->
  exists t', nexts n t = Some (map Some (firstn n todo), t') /\ reached (done ++ firstn n todo) (skipn n todo) t' /\
    (n <> 0%nat -> (line t', col t') = place (done ++ firstn (n - 1) todo)).
Proof.
  induction todo as [|b todo IH]; intros done t R n Hn Hok.
  - cbn [length] in Hn. assert (n = 0)%nat as -> by lia. exists t. cbn. rewrite app_nil_r. split; [reflexivity|]. split; [exact R | congruence].
  - destruct n as [|n]; [exists t; cbn; rewrite app_nil_r; split; [reflexivity|]; split; [exact R | congruence]|].
    destruct (reached_step _ _ _ _ R) as (E1 & E2 & R'). cbn [nexts next]. unfold next. destruct (step t) as [r t1] eqn:Es. cbn [fst snd] in *. subst r.
    assert (P0 : place_ok (place done)) by (specialize (Hok 0%nat ltac:(lia)); cbn in Hok; rewrite app_nil_r in Hok; exact Hok).
    rewrite <- E2 in P0. destruct P0 as [P1 P2]. cbn [fst snd] in P1, P2. apply N.leb_le in P1, P2. rewrite P1, P2. cbn [andb].
    destruct (IH (done ++ [b]) t1 R' n) as (t' & En & R'' & L).
    + cbn [length] in Hn. lia.
    + intros k Hk. specialize (Hok (S k) ltac:(lia)). cbn [firstn] in Hok. rewrite <- app_assoc. exact Hok.
    + rewrite En. exists t'. cbn [firstn skipn map]. rewrite <- app_assoc in R''. cbn [app] in R''. split; [reflexivity|]. split; [exact R''|]. intros _.
      destruct n as [|n]; [cbn in *; injection En as <-; rewrite app_nil_r; exact E2|].
      rewrite L by discriminate. replace (S (S n) - 1)%nat with (S n) by lia. replace (S n - 1)%nat with n by lia. cbn [firstn]. rewrite <- app_assoc. reflexivity.
Qed.
Lemma file_text_skip : forall inner content, file_text inner content -> content = skip_bom inner.
Proof.
  intros inner content [->|(Hn & ->)]; [reflexivity|]. unfold skip_bom.
  repeat match goal with |- context [match ?p with _ => _ end] => destruct p; try reflexivity end. exfalso. eapply Hn. reflexivity.
Qed.
Lemma file_text_exists : forall inner, file_text inner (skip_bom inner).
Proof.
  intro inner. destruct (list_eq_dec N.eq_dec (firstn 3 inner) [239; 187; 191]) as [E|E].
  - left. destruct inner as [|a [|b [|c r]]]; try discriminate. cbn in E. injection E as -> -> ->. reflexivity.
  - assert (Hn : forall r, inner <> [239; 187; 191] ++ r) by (intros r ->; apply E; reflexivity). right. split; [exact Hn|]. symmetry. apply (file_text_skip inner inner). right. auto.
Qed.
Lemma new_reached : forall inner, reached [] (skip_bom inner) (new inner).
Proof. intro inner. split; [reflexivity|]. left. auto. Qed.
Lemma place_mono : forall l b m, place_lt (place l) (place (l ++ b :: m)).
Proof.
  intros l b m. revert l b. induction m as [|c m IH]; intros l b.
  - unfold place_lt, place. cbn [fst snd]. rewrite newlines_snoc, since_nl_snoc. destruct (b =? NL); lia.
  - assert (H1 : place_lt (place l) (place (l ++ [b]))) by (unfold place_lt, place; cbn [fst snd]; rewrite newlines_snoc, since_nl_snoc; destruct (b =? NL); lia).
    specialize (IH (l ++ [b]) c). rewrite <- app_assoc in IH. cbn [app] in IH. unfold place_lt in *. lia.
Qed.
Lemma nexts_panic : forall todo done t, reached done todo t -> forall n, (n <= length todo)%nat ->
  (exists k, (k < n)%nat /\ ~ place_ok (place (done ++ firstn k todo))) -> nexts n t = None.
Proof.
  induction todo as [|b todo IH]; intros done t R n Hn (k & Hk & Hbad); [cbn [length] in Hn; lia|].
  destruct n as [|n]; [lia|]. destruct (reached_step _ _ _ _ R) as (E1 & E2 & R'). cbn [nexts]. unfold next. destruct (step t) as [r t1] eqn:Es. cbn [fst snd] in *. subst r.
  destruct ((line t1 <=? LINE_MAX) && (col t1 <=? COL_MAX)) eqn:Eok; [|reflexivity].
  rewrite andb_true_iff, !N.leb_le in Eok.
  destruct k as [|k]; [cbn in Hbad; rewrite app_nil_r, <- E2 in Hbad; exfalso; apply Hbad; exact Eok|].
  rewrite (IH (done ++ [b]) t1 R' n); [reflexivity | cbn [length] in Hn; lia|]. exists k. split; [lia|]. rewrite <- app_assoc. exact Hbad.
Qed.

(** ** C10 *)
(** Reading a file: the [n]-th call returns the [n]-th byte after any byte order mark, and the location is then that
    byte's line and column; the tracker panics exactly if a byte lies beyond line 2^32-1 or column 65535. *)
Theorem C10_locations :
  forall inner content n, file_text inner content -> (n < length content)%nat ->
  ((forall k, (k <= n)%nat -> place_ok (place (firstn k content))) ->
     exists rs t, nexts (S n) (new inner) = Some (rs, t) /\ rs = map Some (firstn (S n) content) /\
       (line t, col t) = place (firstn n content) /\ rest t = skipn (S n) content) /\
  ((exists k, (k <= n)%nat /\ ~ place_ok (place (firstn k content))) -> nexts (S n) (new inner) = None).
Proof.
  intros inner content n Ht Hn. pose proof (new_reached inner) as R. rewrite <- (file_text_skip _ _ Ht) in R. split.
  - intro Hok. destruct (nexts_reached content [] (new inner) R (S n)) as (t & E & [Hr _] & L); [lia | intros k Hk; apply Hok; lia |].
    exists (map Some (firstn (S n) content)), t. split; [exact E|]. split; [reflexivity|]. split; [|exact Hr]. rewrite L by discriminate. replace (S n - 1)%nat with n by lia. reflexivity.
  - intros (k & Hk & Hbad). apply (nexts_panic content [] (new inner) R (S n)); [lia|]. exists k. split; [lia | exact Hbad].
Qed.
Print Assumptions C10_locations.

(** locations strictly increase along the file *)
Theorem C10_monotone : forall content i j, (i < j)%nat -> (j < length content)%nat -> place_lt (place (firstn i content)) (place (firstn j content)).
Proof.
  intros content i j Hij Hj.
  assert (E : exists b m, firstn j content = firstn i content ++ b :: m).
  { rewrite <- (firstn_skipn i (firstn j content)). rewrite firstn_firstn, Nat.min_l by lia.
    destruct (skipn i (firstn j content)) as [|b m] eqn:Es; [|exists b, m; reflexivity].
    apply (f_equal (@length _)) in Es. rewrite skipn_length, firstn_length, Nat.min_l in Es by lia. cbn in Es. lia. }
  destruct E as (b & m & ->). apply place_mono.
Qed.
Print Assumptions C10_monotone.

(** the end of the file, as reported by count_location *)
Theorem C10_count_location :
  forall inner content, file_text inner content ->
  (forall k, (k <= length content)%nat -> place_ok (place (firstn k content))) ->
  count_location inner = Some (end_place content).
Proof.
  intros inner content Ht Hok. pose proof (new_reached inner) as R. unfold count_location. rewrite <- (file_text_skip _ _ Ht) in R |- *.
  destruct (nexts_reached content [] (new inner) R (length content)) as (t & E & Rt & L); [lia | intros k Hk; apply Hok; lia |].
  rewrite firstn_all, skipn_all in *. cbn [app] in *. destruct (step_end _ _ Rt) as [S1 S2]. unfold end_place in *.
  assert (Hsplit : forall n m t0, nexts (n + m) t0 = match nexts n t0 with None => None | Some (rs, t1) => match nexts m t1 with None => None | Some (rs', t2) => Some (rs ++ rs', t2) end end).
  { induction n as [|n IH]; intros m t0; cbn [Nat.add nexts]; [destruct (nexts m t0) as [[? ?]|]; reflexivity|].
    destruct (next t0) as [[r t1]|]; [|reflexivity]. rewrite IH. destruct (nexts n t1) as [[rs t2]|]; [|reflexivity]. destruct (nexts m t2) as [[rs' t3]|]; reflexivity. }
  replace (S (length content)) with (length content + 1)%nat by lia. rewrite Hsplit, E. cbn [nexts]. unfold next. destruct (step t) as [r t'] eqn:Es. cbn [fst snd] in S1, S2. subst r.
  assert (Hb : (line t' <=? LINE_MAX) && (col t' <=? COL_MAX) = true).
  { specialize (Hok (length content) ltac:(lia)). rewrite firstn_all in Hok. destruct Hok as [H1 H2]. unfold place in *. cbn [fst snd] in H1, H2.
    rewrite andb_true_iff, !N.leb_le. destruct (rev content) as [|b d] eqn:Er.
    - injection S2 as -> ->. unfold LINE_MAX, COL_MAX in *. lia.
    - assert (Ec : content = rev d ++ [b]) by (rewrite <- (rev_involutive content), Er; reflexivity). rewrite Ec, newlines_snoc in H1. rewrite Ec, since_nl_snoc in H2. rewrite Ec, newlines_snoc in S2.
      pose proof (f_equal fst S2) as E1; pose proof (f_equal snd S2) as E2; cbn [fst snd] in E1, E2; destruct (b =? NL); cbn [fst snd] in E1, E2; rewrite E1, E2; unfold LINE_MAX, COL_MAX in *; lia. }
  rewrite Hb. cbn [option_map snd fst]. rewrite S2. reflexivity.
Qed.
Print Assumptions C10_count_location.

(** A tracker started at a location reports that location for its first byte (a column of 0 is reported as 1). *)
Theorem C10_from_location :
  forall (l : loc) b inner t, loc_ok l -> (1 <= lline l)%Z -> from_location l (b :: inner) = Some t ->
  fst (step t) = Some b /\ line (snd (step t)) = Z.to_N (lline l) /\ col (snd (step t)) = Z.to_N (Z.max 1 (lcol l)).
Proof.
  intros [f [ln cl]] b inner t (H1 & H2 & H3) Hl E. cbn [lline lcol lfile fst snd] in *. unfold from_location, pred in E. cbn [lline lcol lfile fst snd] in E.
  destruct (Z.eqb_spec cl 0) as [->|Hc]; cbn [negb] in E.
  - destruct (Z.eqb_spec ln 0) as [|Hn]; [lia|]. cbn [negb lline lcol fst snd] in E. injection E as <-. unfold step. cbn [rest at_line_end line col fst snd].
    change (Z.to_N (2 ^ 16 - 1) =? COL_MAX) with true. split; [reflexivity|]. cbn. split; lia.
  - cbn [lline lcol fst snd] in E. injection E as <-. unfold step. cbn [rest at_line_end line col fst snd].
    destruct (N.eqb_spec (Z.to_N (cl - 1)) COL_MAX) as [E|_]; [unfold COL_MAX in E; lia|]. split; [reflexivity|]. split; lia.
Qed.
Print Assumptions C10_from_location.

Example C10_demo : let inner := [0xEF; 0xBB; 0xBF; 97; 98; NL; NL; 99] in
  option_map (fun q => (fst q, line (snd q), col (snd q))) (nexts 5 (new inner)) = Some ([Some 97; Some 98; Some NL; Some NL; Some 99], 3, 1) /\
  count_location inner = Some (3, 1) /\ count_location [97; NL] = Some (2, 0) /\
  place_ok (place [97; 98; NL; NL]) /\ place [97; 98; NL] = (2, 1).
Proof. repeat split; vm_compute; discriminate. Qed.
