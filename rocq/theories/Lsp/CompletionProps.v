(** C72: what the language server offers. *)
From Coq Require Import List Arith NArith Bool String Lia Relations.
From Verif Require Import Common.Text Parse.Ast Objtree.Ispath Objtree.Model Objtree.Lemmas Objtree.Spec Objtree.Wf Objtree.Assign Objtree.Paths Objtree.Inherit Objtree.Calls.
From Verif Require Import Lsp.Completion Lsp.CompletionSpec.
Import ListNotations.
Open Scope nat_scope.

(** ** Lists *)
Lemma split_last_none {A : Type} (l : list A) : split_last l = None <-> l = [].
Proof.
  unfold split_last. destruct (rev l) as [|x r] eqn:E.
  - split; [intros _|reflexivity]. rewrite <- (rev_involutive l), E. reflexivity.
  - split; [discriminate|]. intros ->. discriminate.
Qed.
Lemma split_last_some {A : Type} (l : list A) rest x : split_last l = Some (rest, x) <-> l = rest ++ [x].
Proof.
  unfold split_last. destruct (rev l) as [|y r] eqn:E.
  - split; [discriminate|]. intros ->. rewrite rev_app_distr in E. discriminate.
  - split.
    + intro Q. injection Q as <- <-. rewrite <- (rev_involutive l), E. reflexivity.
    + intros ->. rewrite rev_app_distr in E. cbn [rev app] in E. injection E as <- <-. rewrite rev_involutive. reflexivity.
Qed.
Lemma mem_iff (x : text) l : existsb (text_eqb x) l = true <-> In x l.
Proof.
  rewrite existsb_exists. split.
  - intros (y & Hy & E). destruct (text_eqb_spec x y) as [->|]; [exact Hy|discriminate].
  - intro H. exists x. split; [exact H|apply text_eqb_refl].
Qed.
Lemma trimmed_iff ws path path' : trimmed ws path path' <-> path' = without_last ws path.
Proof.
  unfold trimmed, without_last. destruct (split_last path) as [[rest w]|] eqn:E.
  - apply split_last_some in E. subst path. destruct (existsb (text_eqb w) ws) eqn:M.
    + apply mem_iff in M. split.
      * intros [(w' & _ & Q)|(_ & Q)]; [apply app_inj_tail in Q; symmetry; tauto|destruct (Q rest w eq_refl M)].
      * intros ->. left. exists w. auto.
    + assert (N : ~ In w ws) by (intro Q; apply mem_iff in Q; congruence). split.
      * intros [(w' & Hw & Q)|(Q & _)]; [apply app_inj_tail in Q; destruct Q as [_ <-]; tauto|exact Q].
      * intros ->. right. split; [reflexivity|]. intros r w' Q. apply app_inj_tail in Q. destruct Q as [_ <-]. exact N.
  - apply split_last_none in E. subst path. split.
    + intros [(w & _ & Q)|(Q & _)]; [destruct path'; discriminate|exact Q].
    + intros ->. right. split; [reflexivity|]. intros r w Q. destruct r; discriminate.
Qed.
Lemma first_with_fun P notes n n' : first_with P notes n -> first_with P notes n' -> n = n'.
Proof.
  intros (a & b & E & Hn & Ha) (a' & b' & E' & Hn' & Ha'). subst notes. revert a' E' Ha'. induction a as [|x a IH]; intros [|y a'] E' Ha'.
  - injection E' as -> _. reflexivity.
  - injection E' as -> _. destruct (Ha' y (or_introl eq_refl) Hn).
  - injection E' as -> _. destruct (Ha n' (or_introl eq_refl) Hn').
  - injection E' as -> E'. apply (IH (fun m Hm => Ha m (or_intror Hm)) a' E' (fun m Hm => Ha' m (or_intror Hm))).
Qed.
Lemma first_with_none P notes n : first_with P notes n -> ~ none_with P notes.
Proof. intros (a & b & -> & Hn & _) Q. apply (Q n); [apply in_or_app; right; left; reflexivity|exact Hn]. Qed.
Lemma first_spec {A : Type} (f : note -> option A) (P : note -> Prop) : (forall n, P n <-> f n <> None) -> forall notes,
  match first f notes with Some a => exists n, first_with P notes n /\ f n = Some a | None => none_with P notes end.
Proof.
  intros HP notes. induction notes as [|n notes IH]; cbn [first]; [intros m []|]. destruct (f n) as [a|] eqn:E.
  - exists n. split; [|exact E]. exists [], notes. split; [reflexivity|]. split; [apply HP; congruence|intros m []].
  - assert (N : ~ P n) by (rewrite HP; congruence). destruct (first f notes) as [a|].
    + destruct IH as (m & (pre & post & -> & Hm & Hpre) & F). exists m. split; [|exact F]. exists (n :: pre), post. split; [reflexivity|]. split; [exact Hm|]. intros k [<-|Hk]; auto.
    + intros m [<-|Hm]; auto.
Qed.
Lemma body_none n : is_body n <-> proc_body n <> None.
Proof. unfold is_body, proc_body. destruct n; split; intros H; try discriminate; try (destruct H as (a & b & Q); discriminate Q); try congruence; eauto. Qed.
Lemma block_none n : is_block n <-> tree_block n <> None.
Proof. unfold is_block, tree_block. destruct n; split; intros H; try discriminate; try (destruct H as (a & Q); discriminate Q); try congruence; eauto. Qed.
Lemma sequence_none n : is_sequence n <-> in_sequence n <> None.
Proof. unfold is_sequence, in_sequence. destruct n; split; intros H; try discriminate; try (destruct H as (a & Q); discriminate Q); try congruence; eauto. Qed.
Lemma local_none x n : local_x x n <-> local_named x n <> None.
Proof.
  unfold local_x, local_named. destruct n; split; intros H; try discriminate; try (destruct H as (a & Q); discriminate Q); try congruence.
  - destruct H as (p & Q). injection Q as <- <-. rewrite text_eqb_refl. discriminate.
  - revert H. destruct (text_eqb_spec name x) as [E|E]; [subst; eauto|congruence].
Qed.
Lemma body_some n path idx : proc_body n = Some (path, idx) -> n = ProcBody path idx.
Proof. destruct n; cbn [proc_body]; try discriminate. intro Q. congruence. Qed.
Lemma block_some n path : tree_block n = Some path -> n = TreeBlock path.
Proof. destruct n; cbn [tree_block]; try discriminate. intro Q. congruence. Qed.
Lemma sequence_some n idx : in_sequence n = Some idx -> n = InSequence idx.
Proof. destruct n; cbn [in_sequence]; try discriminate. intro Q. congruence. Qed.
Lemma local_some x n path : local_named x n = Some path -> n = LocalVarScope path x.
Proof. destruct n; cbn [local_named]; try discriminate. destruct (text_eqb_spec name x) as [->|]; [congruence|discriminate]. Qed.
Lemma cut_iff {A : Type} notes (parts parts' : list A) : cut notes parts parts' <-> parts' = selected notes parts.
Proof.
  unfold cut, selected. pose proof (first_spec in_sequence is_sequence sequence_none notes) as F. destruct (first in_sequence notes) as [idx|].
  - destruct F as (n & Hn & Q). apply sequence_some in Q. subst n. split.
    + intros [(k & Hk & ->)|(N & _)]; [|destruct (first_with_none _ _ _ Hn N)]. pose proof (first_with_fun _ _ _ _ Hn Hk) as Q. injection Q as <-. reflexivity.
    + intros ->. left. exists idx. auto.
  - split.
    + intros [(k & Hk & _)|(_ & Q)]; [destruct (first_with_none _ _ _ Hk F)|exact Q].
    + intros ->. right. auto.
Qed.
Lemma after_var_spec parts : match after_var parts with Some rest => beyond_var parts rest | None => ~ In (lit "var") parts end.
Proof.
  induction parts as [|w ps IH]; cbn [after_var]; [intros []|]. destruct (text_eqb_spec w (lit "var")) as [->|N]; [exists []; split; [reflexivity|intros []]|].
  destruct (after_var ps) as [rest|].
  - destruct IH as (pre & -> & Hp). exists (w :: pre). split; [reflexivity|]. intros [Q|Q]; auto.
  - intros [Q|Q]; auto.
Qed.
Lemma beyond_iff parts rest : beyond_var parts rest <-> after_var parts = Some rest.
Proof.
  split.
  - intros (pre & -> & N). induction pre as [|w pre IH]; cbn [app after_var]; [rewrite text_eqb_refl; reflexivity|]. destruct (text_eqb_spec w (lit "var")) as [->|]; [destruct N; left; reflexivity|]. apply IH. intro Q. apply N. right. exact Q.
  - intro E. pose proof (after_var_spec parts) as H. rewrite E in H. exact H.
Qed.
Lemma no_var_iff parts : ~ In (lit "var") parts <-> after_var parts = None.
Proof.
  split; intro H; [|pose proof (after_var_spec parts) as Q; rewrite H in Q; exact Q]. destruct (after_var parts) as [rest|] eqn:E; [|reflexivity]. apply beyond_iff in E. destruct E as (pre & -> & _). destruct H. apply in_or_app. right. left. reflexivity.
Qed.
Lemma without_lists_iff parts parts' : without_lists parts parts' <-> parts' = drop_lists parts.
Proof.
  split.
  - intros (n & -> & N). induction n as [|n IH]; cbn [repeat app]; [|cbn [drop_lists]; rewrite text_eqb_refl; exact IH]. destruct parts' as [|w ps]; [reflexivity|]. cbn [drop_lists]. destruct (text_eqb_spec w (lit "list")) as [->|]; [destruct (N ps eq_refl)|reflexivity].
  - intros ->. induction parts as [|w ps IH]; [exists 0; split; [reflexivity|discriminate]|]. cbn [drop_lists]. destruct (text_eqb_spec w (lit "list")) as [->|N].
    + destruct IH as (n & E & H). exists (S n). split; [cbn [repeat app]; rewrite <- E; reflexivity|exact H].
    + exists 0. split; [reflexivity|]. intros rest Q. congruence.
Qed.
Lemma full_path_iff notes absolute parts path : full_path notes absolute parts path <-> path = combine_tree_path notes absolute parts.
Proof.
  unfold combine_tree_path. pose proof (proj2 (cut_iff notes parts (selected notes parts)) eq_refl) as C. split.
  - intros [a b c Ha Hb Hc|a c Ha Hv Hab Hc|a c pre Ha Hv Hab Hc Hp]; apply cut_iff in Ha; subst a; apply without_lists_iff in Hc; subst c.
    + apply beyond_iff in Hb. rewrite Hb. reflexivity.
    + apply no_var_iff in Hv. rewrite Hv. subst absolute. reflexivity.
    + apply no_var_iff in Hv. rewrite Hv. subst absolute. cbn [app]. f_equal. pose proof (first_spec tree_block is_block block_none notes) as F. destruct (first tree_block notes) as [p|].
      * destruct F as (n & Hn & Q). apply block_some in Q. subst n. destruct Hp as [N|q rest Hq Hr|q Hq Hr]; [destruct (first_with_none _ _ _ Hn N)| |]; pose proof (first_with_fun _ _ _ _ Hn Hq) as Q; injection Q as <-.
        -- apply beyond_iff in Hr. rewrite Hr. reflexivity.
        -- apply no_var_iff in Hr. rewrite Hr. reflexivity.
      * destruct Hp as [N|q rest Hq Hr|q Hq Hr]; [reflexivity| |]; destruct (first_with_none _ _ _ Hq F).
  - intros ->. destruct (after_var (selected notes parts)) as [ps|] eqn:E.
    + apply beyond_iff in E. eapply fp_var; [exact C|exact E|apply without_lists_iff; reflexivity].
    + apply no_var_iff in E. destruct absolute; [eapply fp_absolute; [exact C|exact E|reflexivity|apply without_lists_iff; reflexivity]|].
      eapply fp_relative; [exact C|exact E|reflexivity|apply without_lists_iff; reflexivity|]. pose proof (first_spec tree_block is_block block_none notes) as F. destruct (first tree_block notes) as [p|]; [|constructor; exact F].
      destruct F as (n & Hn & Q). apply block_some in Q. subst n. destruct (after_var p) as [ps|] eqn:Ep; [eapply ph_var; [exact Hn|apply beyond_iff; exact Ep]|eapply ph_block; [exact Hn|apply no_var_iff; exact Ep]].
Qed.
(** The text of an override *)
Lemma joined_snoc sep l a : joined sep (l ++ [a]) = match l with [] => a | _ => joined sep l ++ sep ++ a end.
Proof. induction l as [|b l IH]; [reflexivity|]. destruct l as [|c l]; [reflexivity|]. change (joined sep ((b :: c :: l) ++ [a])) with (b ++ sep ++ joined sep ((c :: l) ++ [a])). rewrite IH. change (joined sep (b :: c :: l)) with (b ++ sep ++ joined sep (c :: l)). rewrite <- !app_assoc. reflexivity. Qed.
Lemma words_joined (x : text) ws : forall sep : text,
  (fix words (sep : text) (ws : list text) : text := match ws with [] => sep ++ x | w :: ws' => sep ++ w ++ words (lit "/") ws' end) sep ws = sep ++ joined (lit "/") (ws ++ [x]).
Proof.
  induction ws as [|w ws IH]; intro sep; [reflexivity|]. cbn beta iota. rewrite IH. f_equal. change ((w :: ws) ++ [x]) with (w :: (ws ++ [x])). destruct (ws ++ [x]) as [|a l] eqn:E; [destruct ws; discriminate|]. reflexivity.
Qed.
Lemma signature_joined ps : forall sep : text, signature sep ps = match ps with [] => [] | _ => sep ++ joined (lit ", ") (map (fun e : text * list text => joined (lit "/") (snd e ++ [fst e])) ps) end.
Proof.
  induction ps as [|[x path] ps IH]; intro sep; [reflexivity|]. cbn [signature]. rewrite words_joined, IH. destruct ps as [|e ps]; [cbn [map joined snd fst]; rewrite app_nil_r; reflexivity|]. cbn [map]. cbn [joined]. cbn [snd fst]. rewrite <- !app_assoc. reflexivity.
Qed.

Section PROPS.
Variables V D : Type.
Variable t : objtree V D.
Variable vars : nat -> list (text * option (list text)).
Variable params : V -> list (text * list text).
Variable is_verb : D -> bool.
Variable macros : list text.
Variable fits : text -> text -> bool.
Hypothesis T : tidy V D t.
Hypothesis AC : acyclic t.
Notation size := (S (List.length (graph t))).
Notation listed := (listed V D t).
Notation reach := (reach V D t).
Notation has := (has V D t vars).
Notation closest := (closest V D t vars).
Notation declared := (declared V D t vars).
Local Lemma W : wf V D t. Proof using T. exact (td_wf V D t T). Qed.
Lemma root_at : at_ t 0 [].
Proof using T. apply (at_zero V D t W). reflexivity. Qed.
Lemma find_at path i : names path -> (find t (render path) = Some i <-> at_ t i path).
Proof using T.
  intro Hn. unfold find. destruct (render path) as [|c r] eqn:E.
  - apply render_nil in E. subst path. rewrite (at_zero V D t W). split; congruence.
  - rewrite <- E. apply (at_types V D t W); [exact Hn|]. intros ->. discriminate.
Qed.

(** ** Paths *)
Lemma by_path_any cs : forall cur pre first, at_ t cur pre -> (first = true <-> pre = []) -> (first = true -> forall cs', cs <> lit "list" :: cs') ->
  exists k, at_ t (snd (by_path t cur first cs)) (pre ++ firstn k cs) /\
    if fst (by_path t cur first cs) then firstn k cs = cs else k < List.length cs /\ forall j, ~ at_ t j (pre ++ firstn (S k) cs).
Proof using T.
  induction cs as [|c cs IH]; intros cur pre first H Hfi Hl; [exists 0; cbn; rewrite app_nil_r; auto|]. cbn [by_path]. destruct (child t cur c) as [j|] eqn:E.
  - assert (Q : text_eqb c (lit "list") && first = false) by (destruct first; [destruct (text_eqb_spec c (lit "list")) as [->|]; [destruct (Hl eq_refl cs eq_refl)|reflexivity]|apply andb_false_r]). rewrite Q.
    apply (at_child V D t W cur pre c j H) in E. destruct (IH j (pre ++ [c]) false E) as (k & K1 & K2).
    + split; [discriminate|]. intro R. destruct pre; discriminate.
    + discriminate.
    + exists (S k). cbn [firstn]. rewrite <- app_assoc in K1. split; [exact K1|]. destruct (fst (by_path t j false cs)); [congruence|]. destruct K2 as [K2 K3]. split; [cbn; lia|]. intros z Hz. apply (K3 z). rewrite <- app_assoc. exact Hz.
  - exists 0. cbn [fst snd firstn]. rewrite app_nil_r. split; [exact H|]. split; [cbn; lia|]. intros j Hj. exact (child_none V D t W cur pre c H E j Hj).
Qed.
Lemma at_firstn i cs k : at_ t i cs -> exists j, at_ t j (firstn k cs).
Proof using T.
  revert i k. induction cs as [|x cs IH] using rev_ind; intros i k H; [exists i; rewrite firstn_nil; exact H|]. destruct (at_prefix V D t W i cs x H) as (p & Hp & _).
  destruct (Nat.le_gt_cases k (List.length cs)) as [L|L].
  - rewrite firstn_app. replace (k - List.length cs) with 0 by lia. cbn [firstn]. rewrite app_nil_r. apply (IH p). exact Hp.
  - exists i. rewrite firstn_all2; [exact H|]. rewrite app_length. cbn. lia.
Qed.
Lemma list_dec (cs : list text) : (exists rest, cs = lit "list" :: rest) \/ (forall rest, cs <> lit "list" :: rest).
Proof using Type. destruct cs as [|w rest]; [right; discriminate|]. destruct (text_eqb_spec w (lit "list")) as [->|N]; [left; eauto|right; congruence]. Qed.
Lemma nearly_approx path : let '(exact, i) := type_by_path_approx t path in nearly V D t path exact i.
Proof using T.
  destruct (list_dec path) as [(rest & ->)|N].
  - unfold type_by_path_approx. cbn [by_path]. destruct (child t 0 (lit "list")) as [j|] eqn:E.
    + rewrite text_eqb_refl. cbn [andb]. cbn [nearly]. left. split; [eauto|]. exact (proj1 (at_child V D t W 0 [] _ j root_at) E).
    + assert (Q : forall j, ~ at_ t j [lit "list"]) by (intro j; exact (child_none V D t W 0 [] _ root_at E j)). cbn [nearly]. split.
      * intros j [(_ & H)|(H & _)]; [exact (Q j H)|destruct (H rest eq_refl)].
      * exists 0. cbn [firstn]. split; [exact root_at|]. split; [cbn; lia|]. intro j. apply Q.
  - destruct (by_path_any path 0 [] true root_at) as (k & K1 & K2); [tauto|intros _; exact N|]. unfold type_by_path_approx. destruct (by_path t 0 true path) as [exact i]. cbn [fst snd app] in K1, K2. destruct exact; cbn [nearly].
    + right. split; [exact N|]. rewrite K2 in K1. exact K1.
    + destruct K2 as [K2 K3]. split.
      * intros j [((r & E) & _)|(_ & H)]; [destruct (N r E)|]. destruct (at_firstn j path (S k) H) as (j' & Hj'). exact (K3 j' Hj').
      * exists k. auto.
Qed.
Lemma listed_fun path i j : listed path i -> listed path j -> i = j.
Proof using T. intros [((r & E) & H)|(N & H)] [((r' & E') & H')|(N' & H')]; subst; try (destruct (N _ eq_refl)); try (destruct (N' _ eq_refl)); eapply (at_fun V D t W); eauto. Qed.
Lemma nearly_iff path exact i : nearly V D t path exact i <-> type_by_path_approx t path = (exact, i).
Proof using T.
  pose proof (nearly_approx path) as H. destruct (type_by_path_approx t path) as [e k] eqn:E. split; [|intro Q; injection Q as <- <-; exact H].
  destruct exact, e; cbn [nearly] in *.
  - intro L. f_equal. eapply listed_fun; eauto.
  - intro L. destruct (proj1 H i L).
  - intros (N & _). destruct (N k H).
  - intros (_ & a & A1 & A2 & A3). destruct H as (_ & b & B1 & B2 & B3). assert (a = b).
    { destruct (Nat.lt_trichotomy a b) as [L|[L|L]]; [|exact L|]; exfalso.
      - destruct (at_firstn k (firstn b path) (S a) B1) as (j & Hj). rewrite firstn_firstn, Nat.min_l in Hj by lia. exact (A3 j Hj).
      - destruct (at_firstn i (firstn a path) (S b) A1) as (j & Hj). rewrite firstn_firstn, Nat.min_l in Hj by lia. exact (B3 j Hj). }
    subst b. f_equal. eapply (at_fun V D t W); eauto.
Qed.
Lemma listed_iff path i : listed path i <-> type_by_path t path = Some i.
Proof using T.
  unfold type_by_path. pose proof (nearly_iff path true i) as H. cbn [nearly] in H. rewrite H. destruct (type_by_path_approx t path) as [[|] k]; split; congruence.
Qed.

(** ** The place *)
Lemma proc_type_fun notes i j : proc_type V D t notes i -> proc_type V D t notes j -> i = j.
Proof using T.
  intros [path name idx owner i' P Tr L|idx P] [path' name' idx' owner' j' P' Tr' L'|idx' P']; pose proof (first_with_fun _ _ _ _ P P') as Q; injection Q; intros; subst.
  - apply app_inj_tail in H0. destruct H0 as [<- <-]. apply trimmed_iff in Tr, Tr'. subst. eapply listed_fun; eauto.
  - destruct path; discriminate.
  - destruct path'; discriminate.
  - reflexivity.
Qed.
Lemma context_spec notes : let '(ty, proc) := find_type_context V D t notes in
  (forall i, ty = Some i <-> around V D t notes i) /\ (forall name idx, proc = Some (name, idx) <-> exists path, in_proc notes path name idx).
Proof using T.
  unfold find_type_context. pose proof (first_spec proc_body is_body body_none notes) as F. pose proof (first_spec tree_block is_block block_none notes) as B.
  (* the part that comes from the block *)
  assert (Block : (forall j, ~ proc_type V D t notes j) -> forall i,
    match first tree_block notes with Some path => type_by_path t (without_last [lit "proc"; lit "verb"; lit "var"] path) | None => None end = Some i <-> around V D t notes i).
  { intros N i. split.
    - intro H. destruct (first tree_block notes) as [path|]; [|discriminate]. destruct B as (n & Hn & Q). apply block_some in Q. subst n. eapply around_block; [exact N|exact Hn|apply trimmed_iff; reflexivity|apply listed_iff; exact H].
    - intros [i' P|path owner i' _ Hn Tr L]; [destruct (N _ P)|]. destruct (first tree_block notes) as [path'|]; [|destruct (first_with_none _ _ _ Hn B)]. destruct B as (n & Hn' & Q). apply block_some in Q. subst n.
      pose proof (first_with_fun _ _ _ _ Hn Hn') as Q. injection Q as <-. apply trimmed_iff in Tr. subst owner. apply listed_iff. exact L. }
  destruct (first proc_body notes) as [[path idx]|].
  - destruct F as (n & Hn & Q). apply body_some in Q. subst n. destruct (split_last path) as [[rest name]|] eqn:E.
    + apply split_last_some in E. subst path. cbn beta iota zeta. remember (type_by_path t (without_last [lit "proc"; lit "verb"] rest)) as found eqn:Ef. destruct found as [i|].
      * cbn beta iota zeta. split.
        -- intro j. assert (P : proc_type V D t notes i) by (eapply pt_proc; [exact Hn|apply trimmed_iff; reflexivity|apply listed_iff; symmetry; exact Ef]). split; [intro Q; injection Q as <-; constructor; exact P|].
           intros [j' P'|path owner j' N _ _ _]; [f_equal; eapply proc_type_fun; eauto|destruct (N _ P)].
        -- intros nm k. split; [intro Q; injection Q as <- <-; exists rest; exact Hn|]. intros (p & Hp). pose proof (first_with_fun _ _ _ _ Hn Hp) as Q. injection Q; intros <- Q'. apply app_inj_tail in Q'. destruct Q' as [_ <-]. reflexivity.
      * cbn beta iota zeta. split.
        -- apply Block. intros j [p nm k owner j' P Tr L|k P]; pose proof (first_with_fun _ _ _ _ Hn P) as Q; injection Q; intros; subst; [|destruct rest; discriminate]. apply app_inj_tail in H0. destruct H0 as [<- <-]. apply trimmed_iff in Tr. subst owner. apply listed_iff in L. congruence.
        -- intros nm k. split; [intro Q; injection Q as <- <-; exists rest; exact Hn|]. intros (p & Hp). pose proof (first_with_fun _ _ _ _ Hn Hp) as Q. injection Q; intros <- Q'. apply app_inj_tail in Q'. destruct Q' as [_ <-]. reflexivity.
    + apply split_last_none in E. subst path. assert (R : type_by_path t (without_last [lit "proc"; lit "verb"] []) = Some 0) by reflexivity. rewrite R. cbn beta iota zeta. split.
      * intro j. assert (P : proc_type V D t notes 0) by (eapply pt_empty; exact Hn). split; [intro Q; injection Q as <-; constructor; exact P|]. intros [j' P'|path owner j' N _ _ _]; [f_equal; eapply proc_type_fun; eauto|destruct (N _ P)].
      * intros nm k. split; [discriminate|]. intros (p & Hp). pose proof (first_with_fun _ _ _ _ Hn Hp) as Q. injection Q; intros _ Q'. destruct p; discriminate.
  - cbn beta iota zeta. split.
    + apply Block. intros j [p nm k owner j' P Tr L|k P]; exact (first_with_none _ _ _ P F).
    + intros nm k. split; [discriminate|]. intros (p & Hp). destruct (first_with_none _ _ _ Hp F).
Qed.
Lemma here_iff notes i : here V D t notes i <-> i = match fst (find_type_context V D t notes) with Some j => j | None => 0 end.
Proof using T.
  pose proof (context_spec notes) as C. destruct (find_type_context V D t notes) as [ty proc]. destruct C as [C _]. cbn [fst]. unfold here. destruct ty as [k|].
  - pose proof (proj1 (C k) eq_refl) as A. split; [intros [H|[N _]]; [apply C in H; congruence|destruct (N _ A)]|]. intros ->. left. exact A.
  - assert (N : forall j, ~ around V D t notes j) by (intros j H; apply C in H; discriminate). split; [intros [H|[_ H]]; [destruct (N _ H)|exact H]|]. intros ->. right. auto.
Qed.
Lemma parameters_iff notes x path : (exists ps, parameters_here V D t params notes ps /\ In (x, path) ps) <->
  In (x, path) (parameters V D t params (match fst (find_type_context V D t notes) with Some j => j | None => 0 end) (snd (find_type_context V D t notes))).
Proof using T.
  pose proof (context_spec notes) as C. pose proof (here_iff notes) as H. destruct (find_type_context V D t notes) as [ty proc]. destruct C as [_ C]. cbn [fst snd] in *. set (i := match ty with Some j => j | None => 0 end) in *. unfold parameters. split.
  - intros (ps & (p & name & idx & i' & pr & v & Hp & Hi & Hr & Hv & ->) & Hin). apply H in Hi. subst i'. assert (E : proc = Some (name, idx)) by (apply C; eauto). rewrite E, Hr, Hv. exact Hin.
  - destruct proc as [[name idx]|]; [|intros []]. destruct (procs_of t i name) as [pr|] eqn:Hr; [|intros []]. destruct (nth_error (p_values pr) idx) as [v|] eqn:Hv; [|intros []]. intro Hin. destruct (proj1 (C name idx) eq_refl) as (p & Hp).
    exists (params v). split; [|exact Hin]. exists p, name, idx, i, pr, v. repeat split; try assumption. apply H. reflexivity.
Qed.
Lemma parameters_here_eq notes ps : parameters_here V D t params notes ps ->
  ps = parameters V D t params (match fst (find_type_context V D t notes) with Some j => j | None => 0 end) (snd (find_type_context V D t notes)).
Proof using T.
  pose proof (context_spec notes) as C. pose proof (here_iff notes) as H. destruct (find_type_context V D t notes) as [ty proc]. destruct C as [_ C]. cbn [fst snd] in *.
  intros (p & name & idx & i' & pr & v & Hp & Hi & Hr & Hv & ->). apply H in Hi. subst i'. assert (E : proc = Some (name, idx)) by (apply C; eauto). rewrite E. unfold parameters. rewrite Hr, Hv. reflexivity.
Qed.

(** ** Variables *)
Lemma declared_iff i x path : declared i x path <-> declaration V D t vars i x = Some path.
Proof using T AC.
  unfold CompletionSpec.declared, declaration. destruct (search_fuel V D t T AC (fun j => match get x (vars j) with Some d => d | None => None end) i size) as (r & E & N); [lia|]. rewrite E. split.
  - intro H. exact (nearest_fun V D t _ _ _ _ N H).
  - intros ->. exact N.
Qed.
Lemma declared_owner i x r : nearest t (fun j => match get x (vars j) with Some _ => Some j | None => None end) i r ->
  forall path, declared i x path <-> exists j, r = Some j /\ declared j x path.
Proof using Type.
  unfold CompletionSpec.declared. remember (fun j => match get x (vars j) with Some _ => Some j | None => None end) as f eqn:Ef.
  intros H path. induction H as [i a F|i p r F P N IH|i F P].
  - subst f. cbn beta in F. destruct (get x (vars i)); [|discriminate]. injection F as <-. split; [eauto|]. intros (j & Q & H). injection Q as <-. exact H.
  - rewrite <- IH. subst f. cbn beta in F. destruct (get x (vars i)) as [d|] eqn:G; [discriminate|]. split; intro H.
    + inversion H as [k a Fk|k q s Fk Pk Nk|k Fk Pk]; subst; [rewrite G in Fk; discriminate|]. rewrite P in Pk. injection Pk as <-. exact Nk.
    + eapply nearest_up; [rewrite G; reflexivity|exact P|exact H].
  - split; [|intros (j & Q & _); discriminate]. subst f. cbn beta in F. destruct (get x (vars i)) as [d|] eqn:G; [discriminate|]. intro H. inversion H as [k a Fk|k q s Fk Pk Nk|k Fk Pk]; subst; [rewrite G in Fk; discriminate|congruence].
Qed.
Lemma find_first (ps : list (text * list text)) x : match List.find (fun e => text_eqb (fst e) x) ps with
  | Some e => exists pre post, ps = pre ++ e :: post /\ fst e = x /\ ~ In x (map fst pre)
  | None => ~ In x (map fst ps) end.
Proof using Type.
  induction ps as [|e ps IH]; [intros []|]. cbn [List.find]. destruct (text_eqb_spec (fst e) x) as [E|N]; [exists [], ps; split; [reflexivity|]; split; [exact E|intros []]|]. destruct (List.find _ ps) as [e'|].
  - destruct IH as (pre & post & -> & E & H). exists (e :: pre), post. split; [reflexivity|]. split; [exact E|]. cbn [map]. intros [Q|Q]; auto.
  - cbn [map]. intros [Q|Q]; auto.
Qed.
Lemma first_occurrence (x : text) (a a' b b' : list (text * list text)) p p' : a ++ (x, p) :: b = a' ++ (x, p') :: b' -> ~ In x (map fst a) -> ~ In x (map fst a') -> p = p'.
Proof using Type.
  revert a'. induction a as [|e a IH]; intros [|e' a'] E N N'; cbn [app] in E; injection E; intros; subst.
  - reflexivity.
  - destruct N'. left. reflexivity.
  - destruct N. left. reflexivity.
  - eapply IH; [eassumption|intro Q; apply N; right; exact Q|intro Q; apply N'; right; exact Q].
Qed.
Lemma var_type_iff notes x i : var_type V D t vars params notes x i <->
  unscoped_type V D t vars params notes (fst (find_type_context V D t notes)) (snd (find_type_context V D t notes)) x = Some i.
Proof using T AC.
  unfold unscoped_type. set (k := match fst (find_type_context V D t notes) with Some j => j | None => 0 end). set (ps := parameters V D t params k (snd (find_type_context V D t notes))).
  pose proof (first_spec (local_named x) (local_x x) (local_none x) notes) as L. destruct (first (local_named x) notes) as [path|].
  - destruct L as (n & Hn & Q). apply local_some in Q. subst n. rewrite <- listed_iff. split; [|intro H; eapply vt_local; eauto].
    intros [path' i' Hn' H|pre path' post i' N _ _ _|i' path' j N _ _ _ _]; [|destruct (first_with_none _ _ _ Hn N)|destruct (first_with_none _ _ _ Hn N)]. pose proof (first_with_fun _ _ _ _ Hn Hn') as Q. injection Q as <-. exact H.
  - assert (P : forall ps', parameters_here V D t params notes ps' -> ps' = ps) by (intros ps' H; apply parameters_here_eq; exact H).
    pose proof (find_first ps x) as F. destruct (List.find (fun e => text_eqb (fst e) x) ps) as [[y path]|].
    + destruct F as (pre & post & E & Ey & Np). cbn [fst] in Ey. subst y. cbn [snd]. rewrite <- listed_iff.
      assert (H : parameters_here V D t params notes ps).
      { destruct (proj2 (parameters_iff notes x path)) as (ps' & H & _); [change (In (x, path) ps); rewrite E; apply in_or_app; right; left; reflexivity|]. rewrite <- (P ps' H). exact H. }
      split.
      * intros [path' i' Hn' _|pre' path' post' i' _ H' N' H''|i' path' j _ N' _ _ _].
        -- destruct (first_with_none _ _ _ Hn' L).
        -- apply P in H'. rewrite E in H'. rewrite (first_occurrence x _ _ _ _ _ _ (eq_sym H') Np N'). exact H''.
        -- destruct (N' ps H). rewrite E, map_app. apply in_or_app. right. left. reflexivity.
      * intro Hl. eapply vt_param; [exact L|rewrite <- E; exact H|exact Np|exact Hl].
    + assert (Hk : here V D t notes k) by (apply here_iff; reflexivity).
      destruct (search_fuel V D t T AC (fun j => match get x (vars j) with Some _ => Some j | None => None end) k size) as (r & E & N); [lia|]. rewrite E. pose proof (declared_owner k x r N) as O. clear E N.
      assert (R : var_type V D t vars params notes x i <-> exists path, declared k x path /\ listed path i).
      { split.
        - intros [path' i' Hn' _|pre' path' post' i' _ H' N' H''|i' path' j _ N' Hh Hd Hl].
          + destruct (first_with_none _ _ _ Hn' L).
          + apply P in H'. destruct F. rewrite <- H', map_app. apply in_or_app. right. left. reflexivity.
          + apply here_iff in Hh. subst i'. exists path'. auto.
        - intros (path & Hd & Hl). eapply vt_field; [exact L| |exact Hk|exact Hd|exact Hl]. intros ps' H'. rewrite (P ps' H'). exact F. }
      rewrite R. clear R. destruct r as [j|].
      * destruct (declaration V D t vars j x) as [path|] eqn:Ed.
        -- rewrite <- listed_iff. split; [|intro H; exists path; split; [|exact H]; apply O; exists j; split; [reflexivity|apply declared_iff; exact Ed]].
           intros (path' & Hd & Hl). apply O in Hd. destruct Hd as (j' & Q & Hd). injection Q as <-. apply declared_iff in Hd. rewrite Ed in Hd. injection Hd as <-. exact Hl.
        -- split; [|discriminate]. intros (path' & Hd & Hl). apply O in Hd. destruct Hd as (j' & Q & Hd). injection Q as <-. apply declared_iff in Hd. congruence.
      * split; [|discriminate]. intros (path' & Hd & Hl). apply O in Hd. destruct Hd as (j' & Q & _). discriminate.
Qed.
Lemma field_iff i x j : (exists path, declared i x path /\ listed path j) <-> match declaration V D t vars i x with Some path => type_by_path t path | None => None end = Some j.
Proof using T AC.
  destruct (declaration V D t vars i x) as [path|] eqn:E.
  - rewrite <- listed_iff. split; [intros (p & Hd & Hl); apply declared_iff in Hd; congruence|]. intro H. exists path. split; [apply declared_iff; exact E|exact H].
  - split; [|discriminate]. intros (p & Hd & _). apply declared_iff in Hd. congruence.
Qed.
Lemma fields_app next a b : fields V D t vars next (a ++ b) = fields V D t vars (fields V D t vars next a) b.
Proof using Type.
  revert next. induction a as [|x a IH]; intro next; [reflexivity|]. cbn [app fields]. destruct next as [i|]; [apply IH|]. destruct b; reflexivity.
Qed.
Lemma names_lit (x : string) : existsb (N.eqb SLASH) (lit x) = false -> names [lit x].
Proof using Type.
  intros E c [<-|[]]. unfold slash_free. intro H. assert (Q : existsb (N.eqb SLASH) (lit x) = true); [|congruence]. apply existsb_exists. exists SLASH. split; [exact H|apply N.eqb_refl].
Qed.
Lemma begins_iff notes x i : begins V D t vars params notes x i <->
  (let '(next, proc_name) := find_type_context V D t notes in
   if text_eqb x (lit "args") then find t (lit "/list")
   else if text_eqb x (lit "global") then Some 0
   else if text_eqb x (lit "src") then next
   else if text_eqb x (lit "usr") then find t (lit "/mob")
   else if text_eqb x (lit "caller") || text_eqb x (lit "callee") then find t (lit "/callee")
   else unscoped_type V D t vars params notes next proc_name x) = Some i.
Proof using T AC.
  pose proof (var_type_iff notes x i) as U. pose proof (context_spec notes) as C. destruct (find_type_context V D t notes) as [next proc_name]. destruct C as [C _]. cbn [fst snd] in U. unfold begins.
  assert (L : find t (lit "/list") = Some i <-> at_ t i [lit "list"]) by (apply (find_at [lit "list"]), (names_lit "list"); reflexivity).
  assert (M : find t (lit "/mob") = Some i <-> at_ t i [lit "mob"]) by (apply (find_at [lit "mob"]), (names_lit "mob"); reflexivity).
  assert (K : find t (lit "/callee") = Some i <-> at_ t i [lit "callee"]) by (apply (find_at [lit "callee"]), (names_lit "callee"); reflexivity).
  specialize (C i). clear - L M K C U. cbn [map In].
  assert (D0 : forall a b : string, lit a = lit b -> a = b \/ True) by (intros; right; exact I). clear D0.
  destruct (text_eqb_spec x (lit "args")) as [->|N1]; [rewrite L; split; [|tauto]; intros [(_ & H)|[(Q & _)|[(Q & _)|[(Q & _)|[([Q|Q] & _)|(Q & _)]]]]]; try discriminate Q; tauto|].
  destruct (text_eqb_spec x (lit "global")) as [->|N2]; [split; [|intro Q; injection Q as <-; tauto]; intros [(Q & _)|[(_ & H)|[(Q & _)|[(Q & _)|[([Q|Q] & _)|(Q & _)]]]]]; try discriminate Q; [congruence|tauto]|].
  destruct (text_eqb_spec x (lit "src")) as [->|N3]; [rewrite C; split; [|tauto]; intros [(Q & _)|[(Q & _)|[(_ & H)|[(Q & _)|[([Q|Q] & _)|(Q & _)]]]]]; try discriminate Q; tauto|].
  destruct (text_eqb_spec x (lit "usr")) as [->|N4]; [rewrite M; split; [|tauto]; intros [(Q & _)|[(Q & _)|[(Q & _)|[(_ & H)|[([Q|Q] & _)|(Q & _)]]]]]; try discriminate Q; tauto|].
  destruct (text_eqb_spec x (lit "caller")) as [->|N5]; [cbn [orb]; rewrite K; split; [|tauto]; intros [(Q & _)|[(Q & _)|[(Q & _)|[(Q & _)|[([_|Q] & H)|(Q & _)]]]]]; try discriminate Q; tauto|].
  destruct (text_eqb_spec x (lit "callee")) as [->|N6]; [cbn [orb]; rewrite K; split; [|tauto]; intros [(Q & _)|[(Q & _)|[(Q & _)|[(Q & _)|[([Q|_] & H)|(Q & _)]]]]]; try discriminate Q; tauto|].
  cbn [orb]. rewrite <- U. split; [intros [(Q & _)|[(Q & _)|[(Q & _)|[(Q & _)|[([Q|Q] & H)|(_ & Q)]]]]]; try (destruct (N1 Q)); try (destruct (N2 Q)); try (destruct (N3 Q)); try (destruct (N4 Q)); try (destruct (N5 Q)); try (destruct (N6 Q)); exact Q|].
  intro H. do 5 right. split; [|exact H]. intros [Q|[Q|[Q|[Q|[Q|[Q|[]]]]]]]; congruence.
Qed.
Lemma scoped_iff notes priors i : scoped V D t vars params notes priors i <-> find_scoped_type V D t vars params notes priors = Some i.
Proof using T AC.
  unfold find_scoped_type. split.
  - induction 1 as [i H|x i H|ps x i path j Hne H IH Hd Hl].
    + pose proof (context_spec notes) as C. destruct (find_type_context V D t notes) as [next proc_name]. apply C. exact H.
    + apply begins_iff in H. destruct (find_type_context V D t notes) as [next proc_name]. exact H.
    + destruct ps as [|y ps]; [congruence|]. cbn [app]. destruct (find_type_context V D t notes) as [next proc_name]. rewrite fields_app, IH. cbn [fields]. apply field_iff. eauto.
  - revert i. induction priors as [|x ps IH] using rev_ind; intro i.
    + pose proof (context_spec notes) as C. destruct (find_type_context V D t notes) as [next proc_name]. intro H. constructor. apply C. exact H.
    + destruct ps as [|y ps].
      * intro H. cbn [app] in *. constructor. apply begins_iff. destruct (find_type_context V D t notes) as [next proc_name]. exact H.
      * cbn [app]. destruct (find_type_context V D t notes) as [next proc_name]. rewrite fields_app. intro H. match type of H with fields _ _ _ _ ?o _ = _ => destruct o as [k|] eqn:E; [|discriminate H] end. cbn [fields] in H. apply field_iff in H. destruct H as (path & Hd & Hl).
        change (scoped V D t vars params notes ((y :: ps) ++ [x]) i). eapply sc_field; [discriminate|apply IH; reflexivity|exact Hd|exact Hl].
Qed.

(** ** Members *)
Lemma skipped_iff skip proc x : skipped skip proc x = true <-> In (proc, x) skip.
Proof using Type.
  unfold skipped. rewrite existsb_exists. split.
  - intros ([b y] & H & E). cbn [fst snd] in E. apply andb_true_iff in E. destruct E as [E1 E2]. apply eqb_prop in E1. destruct (text_eqb_spec y x); [|discriminate]. subst. exact H.
  - intro H. exists (proc, x). split; [exact H|]. cbn [fst snd]. rewrite eqb_reflx, text_eqb_refl. reflexivity.
Qed.
Lemma get_cons_iff {A : Type} (x y : text) (a : A) l : get x ((y, a) :: l) = if text_eqb y x then Some a else get x l.
Proof using Type. unfold get. cbn [List.find fst]. destruct (text_eqb y x); reflexivity. Qed.
Section EACH.
Variables (query : text) (var_insert : text -> option text) (proc_insert : text -> type_proc V D -> option text) (with_vars : bool) (wanted : type_proc V D -> bool).
Notation each_var := (each_var fits query var_insert).
Notation each_proc := (each_proc V D fits query proc_insert wanted).
Notation members := (members V D t vars fits query var_insert proc_insert with_vars wanted).
Lemma each_var_spec ty l : forall skip, let '(skip', es) := each_var ty l skip in
  (forall b x, In (b, x) skip' <-> In (b, x) skip \/ b = false /\ get x l <> None) /\
  (forall e, In e es <-> exists x, get x l <> None /\ ~ In (false, x) skip /\ fits x query = true /\ e = Member false ty x (var_insert x)).
Proof.
  induction l as [|[y d] l IH]; intro skip; cbn [Completion.each_var].
  - split; [intros b x; split; [auto|intros [H|[_ H]]; [exact H|destruct (H eq_refl)]]|]. intro e. split; [intros []|]. intros (x & H & _). destruct (H eq_refl).
  - destruct (skipped skip false y) eqn:S.
    + apply skipped_iff in S. specialize (IH skip). destruct (each_var ty l skip) as [skip' es]. destruct IH as [I1 I2]. split.
      * intros b x. rewrite I1, get_cons_iff. destruct (text_eqb_spec y x) as [->|N]; [|reflexivity]. destruct b; [split; intros [H|[H _]]; auto; discriminate|]. split; [auto|]. intros [H|_]; left; [exact H|exact S].
      * intro e. rewrite I2. split; intros (x & H1 & H2 & H3 & H4); exists x; rewrite get_cons_iff in *; destruct (text_eqb_spec y x) as [E|N]; subst; try tauto; repeat split; try assumption; discriminate.
    + assert (N : ~ In (false, y) skip) by (intro H; apply skipped_iff in H; congruence). specialize (IH ((false, y) :: skip)). destruct (each_var ty l ((false, y) :: skip)) as [skip' es]. destruct IH as [I1 I2]. split.
      * intros b x. rewrite I1, get_cons_iff. cbn [In]. destruct (text_eqb_spec y x) as [->|N']; split.
        -- intros [[Q|H]|H]; [injection Q as <-; right; split; [reflexivity|discriminate]|auto|right; split; [tauto|discriminate]].
        -- intros [H|[-> _]]; auto.
        -- intros [[Q|H]|H]; [injection Q as _ Q; congruence|auto|auto].
        -- intros [H|H]; auto.
      * intro e. rewrite in_app_iff, I2. split.
        -- intros [H|(x & H1 & H2 & H3 & H4)].
           ++ destruct (fits y query) eqn:F; [|destruct H]. destruct H as [<-|[]]. exists y. rewrite get_cons_iff, text_eqb_refl. split; [discriminate|auto].
           ++ exists x. rewrite get_cons_iff. destruct (text_eqb_spec y x) as [->|N']; [split; [discriminate|]|split; [exact H1|]]; (split; [intro Q; apply H2; right; exact Q|auto]).
        -- intros (x & H1 & H2 & H3 & H4). rewrite get_cons_iff in H1. destruct (text_eqb_spec y x) as [->|N'].
           ++ left. rewrite H3. left. auto.
           ++ right. exists x. split; [exact H1|]. split; [intros [Q|Q]; [injection Q as Q; congruence|auto]|auto].
Qed.
Lemma each_proc_spec ty l : forall skip, let '(skip', es) := each_proc ty l skip in
  (forall b x, In (b, x) skip' <-> In (b, x) skip \/ b = true /\ get x l <> None) /\
  (forall e, In e es <-> exists x p, get x l = Some p /\ ~ In (true, x) skip /\ wanted p = true /\ fits x query = true /\ e = Member true ty x (proc_insert x p)).
Proof.
  induction l as [|[y d] l IH]; intro skip; cbn [Completion.each_proc].
  - split; [intros b x; split; [auto|intros [H|[_ H]]; [exact H|destruct (H eq_refl)]]|]. intro e. split; [intros []|]. intros (x & p & H & _). discriminate.
  - destruct (skipped skip true y) eqn:S.
    + apply skipped_iff in S. specialize (IH skip). destruct (each_proc ty l skip) as [skip' es]. destruct IH as [I1 I2]. split.
      * intros b x. rewrite I1, get_cons_iff. destruct (text_eqb_spec y x) as [->|N]; [|reflexivity]. destruct b; [|split; intros [H|[H _]]; auto; discriminate]. split; [auto|]. intros [H|_]; left; [exact H|exact S].
      * intro e. rewrite I2. split; intros (x & p & H1 & H2 & H3); exists x, p; rewrite get_cons_iff in *; destruct (text_eqb_spec y x) as [E|N]; subst; tauto.
    + assert (N : ~ In (true, y) skip) by (intro H; apply skipped_iff in H; congruence). specialize (IH ((true, y) :: skip)). destruct (each_proc ty l ((true, y) :: skip)) as [skip' es]. destruct IH as [I1 I2]. split.
      * intros b x. rewrite I1, get_cons_iff. cbn [In]. destruct (text_eqb_spec y x) as [->|N']; split.
        -- intros [[Q|H]|H]; [injection Q as <-; right; split; [reflexivity|discriminate]|auto|right; split; [tauto|discriminate]].
        -- intros [H|[-> _]]; auto.
        -- intros [[Q|H]|H]; [injection Q as _ Q; congruence|auto|auto].
        -- intros [H|H]; auto.
      * intro e. rewrite in_app_iff, I2. split.
        -- intros [H|(x & p & H1 & H2 & H3 & H4 & H5)].
           ++ destruct (wanted d && fits y query) eqn:F; [|destruct H]. apply andb_true_iff in F. destruct H as [<-|[]]. exists y, d. rewrite get_cons_iff, text_eqb_refl. tauto.
           ++ exists x, p. rewrite get_cons_iff. destruct (text_eqb_spec y x) as [->|N']; [destruct H2; left; reflexivity|]. split; [exact H1|]. split; [intro Q; apply H2; right; exact Q|auto].
        -- intros (x & p & H1 & H2 & H3 & H4 & H5). rewrite get_cons_iff in H1. destruct (text_eqb_spec y x) as [->|N'].
           ++ left. injection H1 as ->. rewrite H3, H4. left. auto.
           ++ right. exists x, p. split; [exact H1|]. split; [intros [Q|Q]; [injection Q as Q; congruence|auto]|auto].
Qed.
Lemma procs_get ty x : get x (procs V D t ty) = procs_of t ty x.
Proof using Type. unfold procs, procs_of. destruct (node_at t ty); reflexivity. Qed.
(** What one type adds *)
Definition adds (skip : list (bool * text)) (ty : nat) (e : entry) : Prop :=
  (with_vars = true /\ exists x, get x (vars ty) <> None /\ ~ In (false, x) skip /\ fits x query = true /\ e = Member false ty x (var_insert x)) \/
  (exists x p, procs_of t ty x = Some p /\ ~ In (true, x) skip /\ wanted p = true /\ fits x query = true /\ e = Member true ty x (proc_insert x p)).
Lemma members_step ty tys skip : exists skip2 es, members skip (ty :: tys) = es ++ members skip2 tys /\
  (forall b x, In (b, x) skip2 <-> In (b, x) skip \/ (if b then procs_of t ty x <> None else with_vars = true /\ get x (vars ty) <> None)) /\
  (forall e, In e es <-> adds skip ty e).
Proof using Type.
  cbn [Completion.members]. unfold adds. destruct with_vars eqn:Wv.
  - pose proof (each_var_spec ty (vars ty) skip) as H1. destruct (each_var ty (vars ty) skip) as [skip1 es1]. destruct H1 as [A1 A2]. pose proof (each_proc_spec ty (procs V D t ty) skip1) as H2. destruct (each_proc ty (procs V D t ty) skip1) as [skip2 es2]. destruct H2 as [B1 B2].
    exists skip2, (es1 ++ es2). rewrite <- app_assoc. split; [reflexivity|]. split.
    + intros b x. rewrite B1, A1, procs_get. clear. destruct b; intuition discriminate.
    + intro e. rewrite in_app_iff, A2, B2. split.
      * intros [H|(x & p & E1 & E2 & E3)]; [auto|right; exists x, p; rewrite <- procs_get; split; [exact E1|]; split; [intro Q; apply E2, A1; auto|exact E3]].
      * intros [[_ H]|(x & p & E1 & E2 & E3)]; [auto|right; exists x, p; rewrite procs_get; split; [exact E1|]; split; [|exact E3]]. intro Q. apply A1 in Q. destruct Q as [Q|[Q _]]; [auto|discriminate].
  - pose proof (each_proc_spec ty (procs V D t ty) skip) as H2. destruct (each_proc ty (procs V D t ty) skip) as [skip2 es2]. destruct H2 as [B1 B2]. exists skip2, es2. split; [reflexivity|]. split.
    + intros b x. rewrite B1, procs_get. clear. destruct b; intuition discriminate.
    + intro e. rewrite B2. split; [intros (x & p & H); right; exists x, p; rewrite <- procs_get; exact H|]. intros [[Q _]|(x & p & H)]; [discriminate|]. exists x, p. rewrite procs_get. exact H.
Qed.
Lemma members_spec tys : forall skip e, In e (members skip tys) <-> exists pre ty post, tys = pre ++ ty :: post /\ adds skip ty e /\
  match e with Member proc _ x _ => forall k, In k pre -> ~ has proc k x | _ => True end.
Proof using Type.
  induction tys as [|ty tys IH]; intros skip e.
  - split; [intros []|]. intros (pre & ty & post & Q & _). destruct pre; discriminate.
  - destruct (members_step ty tys skip) as (skip2 & es & E & S2 & Es). rewrite E, in_app_iff, Es, IH. split.
    + intros [H|(pre & ty' & post & -> & H & N)].
      * exists [], ty, tys. split; [reflexivity|]. split; [exact H|]. destruct e; try exact I. intros k [].
      * exists (ty :: pre), ty', post. split; [reflexivity|]. destruct H as [(Wv & x & G & Ns & F & ->)|(x & p & G & Ns & Wa & F & ->)].
        -- split; [left; split; [exact Wv|]; exists x; split; [exact G|]; split; [intro Q; apply Ns, S2; auto|auto]|]. intros k [<-|Hk]; [|exact (N k Hk)]. cbn [CompletionSpec.has]. intro Q. apply Ns, S2. right. auto.
        -- split; [right; exists x, p; split; [exact G|]; split; [intro Q; apply Ns, S2; auto|auto]|]. intros k [<-|Hk]; [|exact (N k Hk)]. cbn [CompletionSpec.has]. intro Q. apply Ns, S2. right. exact Q.
    + intros (pre & ty' & post & Q & H & N). destruct pre as [|k pre]; cbn [app] in Q; injection Q as -> ->; [left; exact H|]. right. exists pre, ty', post. split; [reflexivity|]. destruct H as [(Wv & x & G & Ns & F & ->)|(x & p & G & Ns & Wa & F & ->)].
      * split; [left; split; [exact Wv|]; exists x; split; [exact G|]; split; [|auto]|intros j Hj; apply N; right; exact Hj]. intro Q. apply S2 in Q. destruct Q as [Q|[_ Q]]; [exact (Ns Q)|exact (N k (or_introl eq_refl) Q)].
      * split; [right; exists x, p; split; [exact G|]; split; [|auto]|intros j Hj; apply N; right; exact Hj]. intro Q. apply S2 in Q. destruct Q as [Q|Q]; [exact (Ns Q)|exact (N k (or_introl eq_refl) Q)].
Qed.
End EACH.

(** ** Going up *)
Section UP.
Variable rootless : bool.
Definition above : nat -> option nat := if rootless then parent_without_root V D t else parent_type t.
Lemma above_iff i p : above i = Some p <-> inherits t i p /\ (rootless = true -> p <> 0).
Proof using Type.
  unfold above, inherits. destruct rootless; [|split; [intro E; split; [exact E|discriminate]|intros [Q _]; exact Q]]. unfold parent_without_root. destruct (parent_type t i) as [[|q]|]; split.
  - discriminate.
  - intros [Q N]. injection Q as <-. destruct (N eq_refl eq_refl).
  - intro E. split; [exact E|]. intros _ ->. discriminate.
  - intros [Q _]. exact Q.
  - discriminate.
  - intros [Q _]. discriminate.
Qed.
Lemma upwards_spec i : exists l, upwards V D t above i = l /\ NoDup l /\ (forall pre j post, l = pre ++ j :: post -> forall k, In k (j :: post) <-> reach rootless j k) /\ exists rest, l = i :: rest.
Proof using T AC.
  destruct (up_fuel V D t T AC i) as (u & Hu & Hb).
  assert (G : forall fuel, List.length u <= fuel -> exists l, line fuel above i = Some l /\ incl l u /\ NoDup l /\ (forall pre j post, l = pre ++ j :: post -> forall k, In k (j :: post) <-> reach rootless j k) /\ exists rest, l = i :: rest).
  { clear Hb. pose proof (up_nodup V D t AC i u Hu) as Nu. induction Hu as [i E|i p u E H IH]; intros [|fuel] Hf; cbn [List.length] in Hf; try lia; cbn [line].
    - assert (Q : above i = None) by (destruct (above i) as [p|] eqn:Q; [apply above_iff in Q; destruct Q as [Q _]; unfold inherits in Q; congruence|reflexivity]). rewrite Q. exists [i]. split; [reflexivity|]. split; [intros k H; exact H|]. split; [constructor; [intros []|constructor]|]. split; [|eauto].
      intros pre j post Ql k. destruct pre as [|a pre]; [|destruct pre; discriminate]. injection Ql as <- <-. split; [intros [<-|[]]; apply rt_refl|]. intro R. apply clos_rt_rt1n in R. destruct R as [|y z R1 _]; [left; reflexivity|]. destruct R1 as [R1 _]. unfold inherits in R1. congruence.
    - inversion Nu as [|? ? N1 N2]; subst. destruct (above i) as [q|] eqn:Q.
      + pose proof (proj1 (above_iff i q) Q) as [Qi Qr]. unfold inherits in Qi. rewrite E in Qi. injection Qi as <-. destruct (IH N2 fuel) as (l & L1 & L2 & L3 & L4 & L5); [lia|]. rewrite L1. exists (i :: l). split; [reflexivity|]. split; [intros k [<-|Hk]; [left; reflexivity|right; apply L2; exact Hk]|].
        split; [constructor; [intro Hi; apply N1, L2; exact Hi|exact L3]|]. split; [|eauto]. intros pre j post Ql k. destruct pre as [|a pre]; [|injection Ql as <- Ql; exact (L4 pre j post Ql k)]. injection Ql as <- <-. destruct L5 as (rest & ->). cbn [In]. pose proof (L4 [] p rest eq_refl k) as L. cbn [In] in L. rewrite L. split.
        * intros [<-|R]; [apply rt_refl|]. eapply rt_trans; [apply rt_step; split; [exact E|exact Qr]|exact R].
        * intro R. apply clos_rt_rt1n in R. destruct R as [|y z R1 R2]; [left; reflexivity|]. right. destruct R1 as [R1 _]. unfold inherits in R1. rewrite E in R1. injection R1 as <-. apply clos_rt1n_rt. exact R2.
      + exists [i]. split; [reflexivity|]. split; [intros k [<-|[]]; left; reflexivity|]. split; [constructor; [intros []|constructor]|]. split; [|eauto].
        intros pre j post Ql k. destruct pre as [|a pre]; [|destruct pre; discriminate]. injection Ql as <- <-. split; [intros [<-|[]]; apply rt_refl|]. intro R. apply clos_rt_rt1n in R. destruct R as [|y z R1 _]; [left; reflexivity|]. apply above_iff in R1. congruence. }
  destruct (G size) as (l & L1 & _ & L2 & L3 & L4); [lia|]. exists l. unfold upwards. rewrite L1. auto.
Qed.
Lemma closest_iff proc i x j : closest rootless proc i x j <-> exists pre post, upwards V D t above i = pre ++ j :: post /\ has proc j x /\ forall k, In k pre -> ~ has proc k x.
Proof using T AC.
  destruct (upwards_spec i) as (l & -> & N & S & rest & Hl). split.
  - intros (R & H & M). apply (S [] i rest Hl) in R. rewrite <- Hl in R. apply in_split in R. destruct R as (pre & post & E). exists pre, post. split; [exact E|]. split; [exact H|]. intros k Hk Hx.
    assert (R : reach rootless j k) by (apply M; [|exact Hx]; apply (S [] i rest Hl); rewrite <- Hl, E; apply in_or_app; left; exact Hk). apply (S pre j post E) in R. rewrite E in N. clear - Hk R N. induction pre as [|a pre IH]; [destruct Hk|]. cbn [app] in N. inversion N as [|? ? N1 N2]; subst. destruct Hk as [<-|Hk]; [apply N1, in_or_app; right; exact R|auto].
  - intros (pre & post & E & H & M). split; [apply (S [] i rest Hl); rewrite <- Hl, E; apply in_or_app; right; left; reflexivity|]. split; [exact H|]. intros k R Hx. apply (S [] i rest Hl) in R. rewrite <- Hl, E in R. apply in_app_or in R. destruct R as [R|R]; [destruct (M k R Hx)|]. apply (S pre j post E). exact R.
Qed.
End UP.
(** What is offered from a type upwards *)
Lemma members_up query vi pi wv wanted rootless i e : In e (members V D t vars fits query vi pi wv wanted [] (upwards V D t (above rootless) i)) <->
  (wv = true /\ exists x j, closest rootless false i x j /\ fits x query = true /\ e = Member false j x (vi x)) \/
  (exists x j p, closest rootless true i x j /\ procs_of t j x = Some p /\ wanted p = true /\ fits x query = true /\ e = Member true j x (pi x p)).
Proof using T AC.
  rewrite members_spec. unfold adds. split.
  - intros (pre & ty & post & E & [(Wv & x & G & _ & F & ->)|(x & p & G & _ & Wa & F & ->)] & N).
    + left. split; [exact Wv|]. exists x, ty. split; [apply closest_iff; exists pre, post; auto|auto].
    + right. exists x, ty, p. split; [apply closest_iff; exists pre, post; split; [exact E|]; split; [cbn [CompletionSpec.has]; congruence|exact N]|auto].
  - intros [(Wv & x & j & C & F & ->)|(x & j & p & C & G & Wa & F & ->)]; apply closest_iff in C; destruct C as (pre & post & E & H & N); exists pre, j, post; (split; [exact E|]); (split; [|exact N]).
    + left. split; [exact Wv|]. exists x. cbn [CompletionSpec.has] in H. auto.
    + right. exists x, p. auto.
Qed.

(** ** What is offered *)
Notation unscoped_offer := (unscoped_offer V D t vars params macros fits).
Notation scoped_offer := (scoped_offer V D t vars params fits).
Notation tree_offer := (tree_offer V D t vars params fits).
Notation path_offer := (path_offer V D t vars is_verb fits).
Notation leads := (leads V D t).
Notation walks := (walks V D t).
Lemma named_in query make names e : In e (named fits query make names) <-> exists x, In x names /\ fits x query = true /\ e = make x.
Proof using Type.
  unfold named. rewrite in_map_iff. split.
  - intros (x & <- & H). apply filter_In in H. exists x. tauto.
  - intros (x & H & F & ->). exists x. split; [reflexivity|]. apply filter_In. auto.
Qed.
Lemma items_up query rootless i e : In e (items V D t vars fits query (upwards V D t (above rootless) i)) <->
  (exists x j, closest rootless false i x j /\ fits x query = true /\ e = Member false j x None) \/ (exists x j, closest rootless true i x j /\ fits x query = true /\ e = Member true j x (Some x)).
Proof using T AC.
  unfold items. rewrite members_up. split.
  - intros [(_ & H)|(x & j & p & C & _ & _ & F & E)]; [left; exact H|right; exists x, j; auto].
  - intros [H|(x & j & C & F & E)]; [left; split; [reflexivity|exact H]|right]. destruct C as (R & H & M). cbn [CompletionSpec.has] in H. destruct (procs_of t j x) as [p|] eqn:G; [|congruence]. exists x, j, p. split; [split; [exact R|]; split; [cbn [CompletionSpec.has]; congruence|exact M]|auto].
Qed.
Lemma words_iff x : In x proc_keywords <-> In x words.
Proof using Type. unfold proc_keywords, words. cbn [map In]. clear. tauto. Qed.
Lemma locals_in notes x : In x (flat_map (fun n => match n with LocalVarScope _ name => [name] | _ => [] end) notes) <-> exists path, In (LocalVarScope path x) notes.
Proof using Type.
  rewrite in_flat_map. split.
  - intros (n & Hn & H). destruct n; try (destruct H; fail). destruct H as [<-|[]]. eauto.
  - intros (path & H). exists (LocalVarScope path x). split; [exact H|left; reflexivity].
Qed.
Theorem unscoped_iff notes q e : In e (unscoped_completions V D t vars params macros fits notes q) <-> unscoped_offer notes q e.
Proof using T AC.
  unfold unscoped_completions. pose proof (context_spec notes) as C. pose proof (here_iff notes) as H. pose proof (fun x path => parameters_iff notes x path) as P. destruct (find_type_context V D t notes) as [ty proc]. destruct C as [_ C]. cbn [fst snd] in H, P.
  set (i := match ty with Some j => j | None => 0 end) in *. rewrite !in_app_iff, !named_in, (items_up q false i e). split.
  - intros [Hk|[Hl|[Hp|[Hm|[Hv|Hv]]]]].
    + destruct proc as [[name idx]|]; [|destruct Hk]. apply named_in in Hk. destruct Hk as (x & Hx & F & ->). destruct (proj1 (C name idx) eq_refl) as (path & Hp). eapply uo_word; [exact Hp|apply words_iff; exact Hx|exact F].
    + destruct Hl as (x & Hx & F & ->). apply locals_in in Hx. destruct Hx as (path & Hx). eapply uo_local; eauto.
    + destruct Hp as (x & Hx & F & ->). apply in_map_iff in Hx. destruct Hx as ([y path] & <- & Hx). apply P in Hx. destruct Hx as (ps & Hps & Hx). eapply uo_param; eauto.
    + destruct Hm as (x & Hx & F & ->). apply uo_macro; assumption.
    + destruct Hv as (x & j & Cl & F & ->). eapply uo_var; [apply H; reflexivity|exact Cl|exact F].
    + destruct Hv as (x & j & Cl & F & ->). eapply uo_proc; [apply H; reflexivity|exact Cl|exact F].
  - intros [path name idx x Hp Hx F|path x Hx F|ps path x Hps Hx F|x Hx F|k x j Hk Cl F|k x j Hk Cl F].
    + left. assert (E : proc = Some (name, idx)) by (apply C; eauto). rewrite E. apply named_in. exists x. split; [apply words_iff; exact Hx|auto].
    + right. left. exists x. split; [apply locals_in; eauto|auto].
    + right. right. left. exists x. split; [|auto]. apply in_map_iff. exists (x, path). split; [reflexivity|]. apply P. eauto.
    + right. right. right. left. exists x. auto.
    + apply H in Hk. subst k. right. right. right. right. left. exists x, j. auto.
    + apply H in Hk. subst k. right. right. right. right. right. exists x, j. auto.
Qed.
Theorem scoped_offer_iff notes priors q e : In e (scoped_completions V D t vars params fits notes priors q) <-> scoped_offer notes priors q e.
Proof using T AC.
  unfold scoped_completions. destruct (find_scoped_type V D t vars params notes priors) as [i|] eqn:E.
  - rewrite (items_up q true i e). apply scoped_iff in E. split.
    + intros [(x & j & C & F & ->)|(x & j & C & F & ->)]; [eapply so_var|eapply so_proc]; eauto.
    + intros [k x j S C F|k x j S C F]; apply scoped_iff in S; apply scoped_iff in E; rewrite E in S; injection S as <-; [left|right]; exists x, j; auto.
  - split; [intros []|]. intros [k x j S C F|k x j S C F]; apply scoped_iff in S; congruence.
Qed.
Lemma inner_iff i x : (exists cs, at_ t i cs) -> (inner V D t i x <-> In x (match node_at t i with Some n => map fst (n_children n) | None => [] end)).
Proof using T.
  intros (cs & Hcs). pose proof (at_child V D t W i cs x) as C. unfold child in C. unfold inner. destruct (node_at t i) as [n|] eqn:E.
  - split.
    + intros (cs' & j & H & Hj). rewrite (at_inj V D t i cs' cs H Hcs) in Hj. specialize (C j Hcs). apply C in Hj. apply get_in in Hj. apply in_map_iff. exists (x, j). auto.
    + intro H. destruct (get x (n_children n)) as [j|] eqn:G; [|destruct (get_none _ _ G H)]. exists cs, j. split; [exact Hcs|]. apply (C j Hcs). reflexivity.
  - split; [|intros []]. intros (cs' & j & H & Hj). rewrite (at_inj V D t i cs' cs H Hcs) in Hj. specialize (C j Hcs). apply C in Hj. discriminate.
Qed.
Lemma child_items_in i q e : (exists cs, at_ t i cs) -> (In e (child_items V D t fits i q) <-> exists x, inner V D t i x /\ fits x q = true /\ e = Subtype x).
Proof using T.
  intro Hi. unfold child_items. rewrite named_in. split; intros (x & H & F); exists x; (split; [apply (inner_iff i x Hi); exact H|exact F]).
Qed.
Lemma last_value (p : type_proc V D) : match last (map Some (p_values p)) None with Some v => exists vs, p_values p = vs ++ [v] | None => p_values p = [] end.
Proof using Type.
  destruct (p_values p) as [|a l] eqn:E using rev_ind; [reflexivity|]. clear. rewrite map_app. cbn [map]. rewrite last_last. eauto.
Qed.
Lemma override_iff x j p : procs_of t j x = Some p -> exists vs v, p_values p = vs ++ [v] /\ override_text V D params x p = override_of x (params v).
Proof using T.
  intro G. pose proof (last_value p) as L. unfold override_text, override_of. destruct (last (map Some (p_values p)) None) as [v|].
  - destruct L as (vs & E). exists vs, v. split; [exact E|]. rewrite signature_joined. destruct (params v); reflexivity.
  - exfalso. unfold procs_of, node_at in G. destruct (nth_error (graph t) j) as [n|] eqn:N; [|discriminate]. exact (wf_procs V D t W j n x p N G L).
Qed.
Theorem tree_offer_iff exact i q e : (exists cs, at_ t i cs) -> (In e (tree_completions V D t vars params fits exact i q) <-> tree_offer exact i q e).
Proof using T AC.
  intros Hi. unfold tree_completions. rewrite !in_app_iff, named_in.
  assert (R : match node_at t i with Some n => match n_path n with [] => true | _ => false end | None => true end = (i =? 0)).
  { destruct Hi as (cs & _ & n & Hn & _). unfold node_at. rewrite Hn. pose proof (path_root V D t W i n Hn) as P. destruct (n_path n), (Nat.eqb_spec i 0) as [E|E]; try reflexivity; [destruct (E (proj1 P eq_refl))|discriminate (proj2 P E)]. }
  rewrite R. split.
  - intros [(x & Hx & F & ->)|[Hc|Hm]].
    + apply to_word; assumption.
    + destruct exact; [|destruct Hc]. apply (child_items_in i q e Hi) in Hc. destruct Hc as (x & Hx & F & ->). apply to_type; auto.
    + destruct (Nat.eqb_spec i 0) as [_|N]; [destruct Hm|]. apply (members_up q _ _ true (fun _ => true) false) in Hm. destruct Hm as [(_ & x & j & C & F & ->)|(x & j & p & C & G & _ & F & ->)]; [apply to_var; assumption|].
      destruct (override_iff x j p G) as (vs & v & E & ->). eapply to_proc; eauto.
  - intros [x Hx F|x -> Hx F|x j N C F|x j p vs v N C G E F].
    + left. exists x. auto.
    + right. left. apply (child_items_in i q _ Hi). exists x. auto.
    + right. right. destruct (Nat.eqb_spec i 0) as [Q|_]; [congruence|]. apply (members_up q _ _ true (fun _ => true) false). left. split; [reflexivity|]. exists x, j. auto.
    + right. right. destruct (Nat.eqb_spec i 0) as [Q|_]; [congruence|]. apply (members_up q _ _ true (fun _ => true) false). right. exists x, j, p. split; [exact C|]. split; [exact G|]. split; [reflexivity|]. split; [exact F|]. destruct (override_iff x j p G) as (vs' & v' & E' & ->). rewrite E in E'. apply app_inj_tail in E'. destruct E' as [_ <-]. reflexivity.
Qed.

(** ** Paths of expressions *)
Definition after_walk (i : nat) (left : list (pathop * text)) : option (bool * option procref) :=
  match left with
  | (_, x) :: rest => match proc_kind x with Some kind => Some (kind, match rest with (_, name) :: _ => match get_proc t size i name with Some p => p | None => None end | [] => None end) | None => None end
  | [] => None
  end.
Lemma proc_kind_some x kind : proc_kind x = Some kind <-> x = (if kind then lit "verb" else lit "proc").
Proof using Type.
  unfold proc_kind. destruct (text_eqb_spec x (lit "proc")) as [->|N1]; [|destruct (text_eqb_spec x (lit "verb")) as [->|N2]]; destruct kind; split; try congruence; discriminate.
Qed.
Lemma proc_kind_none x : proc_kind x = None <-> x <> lit "proc" /\ x <> lit "verb".
Proof using Type.
  unfold proc_kind. destruct (text_eqb_spec x (lit "proc")) as [->|N1]; [|destruct (text_eqb_spec x (lit "verb")) as [->|N2]]; split; try discriminate; try (intros [A B]; congruence). auto.
Qed.
Lemma follow_spec parts : forall i cs, at_ t i cs -> exists es left j, walks cs parts es left /\ at_ t j es /\ follow V D t i parts = (j, after_walk j left).
Proof using T.
  induction parts as [|[op x] parts IH]; intros i cs H; [exists cs, [], i; split; [constructor|auto]|]. cbn [follow]. destruct (proc_kind x) as [kind|] eqn:K.
  - exists cs, ((op, x) :: parts), i. split; [apply walks_word; apply proc_kind_some in K; destruct kind; auto|]. split; [exact H|]. cbn [after_walk]. rewrite K. reflexivity.
  - apply proc_kind_none in K. destruct K as [K1 K2]. destruct (navigate_spec V D t W size i cs op x H) as (r & E & R); [lia|]. rewrite E. destruct r as [j|].
    + destruct (step_at V D t cs op x j R) as (ds & Hds). destruct (IH j ds Hds) as (es & left & k & Hw & Hk & F). exists es, left, k. split; [eapply walks_on; eauto|auto].
    + exists cs, ((op, x) :: parts), i. split; [apply walks_stop; assumption|]. split; [exact H|]. cbn [after_walk]. rewrite (proj2 (proc_kind_none x)) by auto. reflexivity.
Qed.
Lemma walks_fun cs parts es left : walks cs parts es left -> forall es' left', walks cs parts es' left' -> es = es' /\ left = left'.
Proof using T.
  induction 1 as [cs|cs op x rest E|cs op x rest N1 N2 N|cs op x j ds rest es left N1 N2 S A H IH]; intros es' left' H'.
  - inversion H'; auto.
  - inversion H' as [|? ? ? ? E'|? ? ? ? M1 M2 M|? ? ? j' ds' ? ? ? M1 M2 S' A' K]; subst; auto; destruct E; congruence.
  - inversion H' as [|? ? ? ? E'|? ? ? ? M1 M2 M|? ? ? j' ds' ? ? ? M1 M2 S' A' K]; subst; auto. destruct (N j' S').
  - inversion H' as [|? ? ? ? E'|? ? ? ? M1 M2 M|? ? ? j' ds' ? ? ? M1 M2 S' A' K]; subst.
    + destruct E'; congruence.
    + destruct (M j S).
    + assert (j' = j) by (eapply (step_fun V D t W); eauto). subst j'. assert (ds' = ds) by (eapply (at_inj V D t); eauto). subst ds'. apply IH. exact K.
Qed.
Lemma unlisted_iff parts parts' : unlisted parts parts' <->
  parts' = match parts with (PathSlash, w) :: ((_ :: _) as rest) => if text_eqb w (lit "list") then rest else parts | _ => parts end.
Proof using Type.
  unfold unlisted. assert (O : forall l : list (pathop * text), (forall rest, l = (PathSlash, lit "list") :: rest -> rest = []) -> forall l', (l = (PathSlash, lit "list") :: l' /\ l' <> []) \/ (l' = l /\ forall rest, l = (PathSlash, lit "list") :: rest -> rest = []) <-> l' = l).
  { intros l H l'. split; [intros [[Q N]|[Q _]]; [destruct (N (H l' Q))|exact Q]|]. intros ->. right. auto. }
  destruct parts as [|[op w] [|e rest]].
  - apply O. discriminate.
  - destruct op; (apply O; intros rest Q; inversion Q; reflexivity).
  - destruct op; try (apply O; discriminate). destruct (text_eqb_spec w (lit "list")) as [->|N].
    + split; [intros [[Q _]|[Q N]]; [injection Q; intros; subst; reflexivity|]|].
      * discriminate (N (e :: rest) eq_refl).
      * intros ->. left. split; [reflexivity|discriminate].
    + apply O. intros r Q. injection Q. congruence.
Qed.
Lemma here_at notes i : here V D t notes i -> exists cs, at_ t i cs.
Proof using T.
  assert (Li : forall path k, listed path k -> exists cs, at_ t k cs) by (intros path k [(_ & H)|(_ & H)]; eauto).
  intros [[k [path name idx owner k' _ _ H|idx _]|path owner k _ _ _ H]|(_ & ->)]; eauto; exists []; exact root_at.
Qed.
Lemma here_total notes : exists i, here V D t notes i.
Proof using T. eexists. apply here_iff. reflexivity. Qed.
Lemma follow_path_spec notes parts : match follow_type_path V D t notes parts with
  | Some r => exists i left, leads notes parts i left /\ r = (i, after_walk i left) | None => forall i left, ~ leads notes parts i left end.
Proof using T.
  unfold follow_type_path, CompletionSpec.leads. set (a := selected notes parts). assert (Ca : cut notes parts a) by (apply cut_iff; reflexivity).
  remember (match a with (PathSlash, w) :: ((_ :: _) as rest) => if text_eqb w (lit "list") then rest else a | _ => a end) as b eqn:Eb. pose proof (proj2 (unlisted_iff a b) Eb) as Ub.
  assert (G : forall cs i, at_ t i cs -> starts V D t notes b cs -> exists j left, (exists a0 b0 cs0 es, cut notes parts a0 /\ unlisted a0 b0 /\ starts V D t notes b0 cs0 /\ walks cs0 b0 es left /\ at_ t j es) /\ follow V D t i b = (j, after_walk j left)).
  { intros cs i Hi St. destruct (follow_spec b i cs Hi) as (es & left & j & Hw & Hj & F). exists j, left. split; [exists a, b, cs, es; auto|exact F]. }
  clear Eb. cbv zeta. destruct b as [|[[| |] x] rest].
  - destruct (G [] 0 root_at) as (j & lf & L & F); [constructor 1; split; reflexivity|]. cbn [follow] in F. exists j, lf. split; [exact L|exact F].
  - destruct (G [] 0 root_at) as (j & lf & L & F); [constructor 2; constructor 1; exists x, rest; split; reflexivity|]. exists j, lf. split; [exact L|]. rewrite F. reflexivity.
  - pose proof (proj2 (here_iff notes _) eq_refl) as Hh. set (k := match fst (find_type_context V D t notes) with Some i => i | None => 0 end) in *. destruct (here_at notes k Hh) as (cs & Hk). destruct (G cs k Hk) as (j & lf & L & F); [constructor 2; constructor 2; exists x, rest, k; auto|]. exists j, lf. split; [exact L|]. rewrite F. reflexivity.
  - intros i left (a' & b' & cs & es & Ca' & Ub' & St & _). apply cut_iff in Ca'. apply unlisted_iff in Ub'. apply unlisted_iff in Ub. fold a in Ca'. subst a' b'. rewrite <- Ub in St. destruct St as [(Q & _)|[(y & r & Q & _)|(y & r & k & Q & _)]]; discriminate.
Qed.
Lemma leads_fun notes parts i left i' left' : leads notes parts i left -> leads notes parts i' left' -> i = i' /\ left = left'.
Proof using T.
  intros (a & b & cs & es & Ca & Ub & St & Hw & Hi) (a' & b' & cs' & es' & Ca' & Ub' & St' & Hw' & Hi'). apply cut_iff in Ca, Ca'. subst a a'. apply unlisted_iff in Ub, Ub'. rewrite <- Ub in Ub'. subst b'.
  assert (cs = cs').
  { destruct St as [(Q & ->)|[(y & r & Q & ->)|(y & r & k & Q & Hk & Ak)]], St' as [(Q' & ->)|[(y' & r' & Q' & ->)|(y' & r' & k' & Q' & Hk' & Ak')]]; try reflexivity; try (rewrite Q in Q'; discriminate). apply here_iff in Hk, Hk'. subst k k'. eapply (at_inj V D t); eauto. }
  subst cs'. destruct (walks_fun _ _ _ _ Hw _ _ Hw') as [-> ->]. split; [eapply (at_fun V D t W); eauto|reflexivity].
Qed.
Lemma get_proc_none i name : get_proc t size i name = Some None <-> forall k, subtype t i k -> procs_of t k name = None.
Proof using T AC.
  unfold get_proc. destruct (up_fuel V D t T AC i) as (u & Hu & Hb). rewrite (search_up V D t _ i u Hu) by lia. pose proof (fun k => up_in V D t i u k Hu) as U. clear Hu Hb. split.
  - intros Q k Hk. apply U in Hk. clear U. injection Q as Q. induction u as [|a u IH]; [destruct Hk|]. cbn [first_of] in Q. unfold visible in Q at 1. destruct (procs_of t a name) eqn:P; [discriminate|]. destruct Hk as [<-|Hk]; [exact P|auto].
  - intro H. f_equal. assert (Hu : forall k, In k u -> procs_of t k name = None) by (intros k Hk; apply H, U, Hk). clear U H. induction u as [|a u IH]; [reflexivity|]. cbn [first_of]. unfold visible at 1. rewrite (Hu a (or_introl eq_refl)). apply IH. intros k Hk. apply Hu. right. exact Hk.
Qed.
Lemma not_word_iff i left : after_walk i left = None <-> ~ at_word (lit "proc") left /\ ~ at_word (lit "verb") left.
Proof.
  unfold after_walk, at_word. destruct left as [|[op x] rest]; [split; [intros _; split; intros (o & r & Q); discriminate|reflexivity]|]. destruct (proc_kind x) as [kind|] eqn:K.
  - apply proc_kind_some in K. split; [discriminate|]. intros [N1 N2]. destruct kind; [destruct N2|destruct N1]; subst; eauto.
  - apply proc_kind_none in K. split; [|reflexivity]. intros _. split; intros (o & r & Q); injection Q as _ Q _; tauto.
Qed.
Lemma word_iff i left kind : after_walk i left = Some (kind, None) <->
  exists op rest, left = (op, if kind then lit "verb" else lit "proc") :: rest /\ forall op' name rest' k, rest = (op', name) :: rest' -> subtype t i k -> procs_of t k name = None.
Proof using T AC.
  unfold after_walk. destruct left as [|[op x] rest]; [split; [discriminate|intros (o & r & Q & _); discriminate]|]. split.
  - destruct (proc_kind x) as [kd|] eqn:K; [|discriminate]. apply proc_kind_some in K. intro Q. injection Q as -> Q. exists op, rest. split; [rewrite K; reflexivity|]. intros op' name rest' k -> Hk.
    destruct (search_fuel V D t T AC (fun j => visible t j name) i size) as (r & E & _); [lia|]. unfold get_proc in Q. rewrite E in Q. subst r. exact (proj1 (get_proc_none i name) E k Hk).
  - intros (o & r & Q & N). pose proof (f_equal (fun l : list (pathop * text) => match l with (_, y) :: _ => y | _ => x end) Q) as Qx. pose proof (f_equal (@tl (pathop * text)) Q) as Qr. cbn beta iota delta [tl] in Qx, Qr. subst r. rewrite (proj2 (proc_kind_some x kind) Qx). do 2 f_equal. destruct rest as [|[op' name] rest']; [reflexivity|]. rewrite (proj2 (get_proc_none i name)); [reflexivity|]. intros k Hk. eapply N; eauto.
Qed.
Theorem path_offer_iff notes parts q e : In e (path_completions V D t vars is_verb fits notes parts q) <-> path_offer notes parts q e.
Proof using T AC.
  unfold path_completions. pose proof (follow_path_spec notes parts) as S. destruct (follow_type_path V D t notes parts) as [r|].
  2: { split; [intros []|]. intros [i left x L _ _ _ _|i left x L _ _ _ _|i op w rest x j p d L _ _ _ _ _ _ _]; destruct (S _ _ L). }
  destruct S as (i & left & L & ->). assert (At : exists cs, at_ t i cs) by (destruct L as (a & b & cs & es & _ & _ & _ & _ & H); eauto).
  assert (U : forall i' left', leads notes parts i' left' -> i' = i /\ left' = left) by (intros i' left' L'; eapply leads_fun; eauto).
  destruct (after_walk i left) as [[kind found]|] eqn:A.
  - assert (Nw : ~ (~ at_word (lit "proc") left /\ ~ at_word (lit "verb") left)) by (rewrite <- (not_word_iff i left); congruence). destruct found as [r|].
    + split; [intros []|]. intros [i' left' x L' H1 H2 _ _|i' left' x L' H1 H2 _ _|i' op w rest x j p d L' Hw N _ _ _ _ _]; destruct (U _ _ L') as [-> Q]; [subst left'; tauto|subst left'; tauto|].
      assert (Q' : exists kd, after_walk i left = Some (kd, None)); [|destruct Q' as (kd & Q'); congruence]. destruct Hw as [-> | ->]; [exists false|exists true]; apply word_iff; exists op, rest; (split; [symmetry; exact Q|exact N]).
    + apply word_iff in A. destruct A as (op & rest & El & N). rewrite (members_up q _ _ false _ true i e). split.
      * intros [(Q & _)|(x & j & p & C & G & Wa & F & ->)]; [discriminate|]. destruct (p_decl p) as [d|] eqn:Ed; [|discriminate]. apply eqb_prop in Wa. rewrite El in L. eapply po_proc; [exact L|destruct kind; auto|exact N|exact C|exact G|exact Ed| |exact F]. rewrite Wa. destruct kind; split; congruence || discriminate.
      * intros [i' left' x L' H1 H2 _ _|i' left' x L' H1 H2 _ _|i' op' w rest' x j p d L' Hw _ C G Ed Hd F]; destruct (U _ _ L') as [-> Q]; [subst left'; tauto|subst left'; tauto|]. right. exists x, j, p. split; [exact C|]. split; [exact G|]. split; [|auto]. rewrite Ed.
        rewrite El in Q. injection Q as _ Q _. rewrite Q in Hd. destruct (is_verb d), kind; try reflexivity; [discriminate (proj1 Hd eq_refl)|discriminate (proj2 Hd eq_refl)].
  - apply not_word_iff in A. destruct A as [N1 N2]. rewrite in_app_iff, named_in, (child_items_in i q e At). split.
    + intros [(x & Hx & F & ->)|(x & Hx & F & ->)]; [eapply po_word|eapply po_type]; eauto.
    + intros [i' left' x L' H1 H2 Hx F|i' left' x L' H1 H2 Hx F|i' op w rest x j p d L' Hw _ _ _ _ _ _]; destruct (U _ _ L') as [-> Q].
      * left. exists x. auto.
      * right. exists x. auto.
      * exfalso. destruct Hw as [-> | ->]; [apply N1|apply N2]; exists op, rest; symmetry; exact Q.
Qed.

(** ** The request *)
Notation note_offer := (note_offer V D t vars params is_verb macros fits).
Notation offered := (offered V D t vars params is_verb macros fits).
Lemma tree_answer_iff notes absolute parts q e : In e (tree_answer V D t vars params fits notes absolute parts q) <->
  exists path exact i, full_path notes absolute parts path /\ nearly V D t path exact i /\ tree_offer exact i q e.
Proof using T AC.
  unfold tree_answer. destruct (type_by_path_approx t (combine_tree_path notes absolute parts)) as [exact i] eqn:E. pose proof (proj2 (nearly_iff _ exact i) E) as N.
  assert (At : exists cs, at_ t i cs) by (destruct exact; cbn [nearly] in N; [destruct N as [(_ & N)|(_ & N)]|destruct N as (_ & k & N & _)]; eauto). rewrite (tree_offer_iff exact i q e At). split.
  - intro H. exists (combine_tree_path notes absolute parts), exact, i. split; [apply full_path_iff; reflexivity|auto].
  - intros (path & ex & k & Hp & Hn & H). apply full_path_iff in Hp. subst path. apply nearly_iff in Hn. rewrite E in Hn. injection Hn as <- <-. exact H.
Qed.
Lemma answer_spec notes n : match answer_to V D t vars params is_verb macros fits notes n with
  | Nothing_ => ~ usable n
  | Adds es => usable n /\ ~ urgent n /\ forall e, In e es <-> note_offer notes n e
  | Replaces es => urgent n /\ forall e, In e es <-> note_offer notes n e end.
Proof using T AC.
  unfold usable, urgent. destruct n as [p|p i|ty x|i|a ps|ps|q|ps q|ps|ps|a ps|]; cbn [answer_to].
  1-4,12: intros [[(? & Q)|[(? & Q)|(? & ? & Q)]]|[(? & ? & Q)|[(? & Q)|[(? & Q)|(? & ? & Q)]]]]; discriminate.
  1: destruct (split_last ps) as [[rest q]|] eqn:E.
  3: destruct (split_last ps) as [[rest [op q]]|] eqn:E.
  1,2,3,4,5,6: (split; [right; eauto 6|]); (split; [intros [(? & Q)|[(? & Q)|(? & ? & Q)]]; discriminate|]).
  - apply split_last_some in E. subst ps. intro e. rewrite tree_answer_iff. split; [intros (path & ex & k & H1 & H2 & H3); econstructor; eauto|]. intro H. remember (TreePath a (rest ++ [q])) as n eqn:En. destruct H as [ab ps q' path ex k e H1 H2 H3| | | | | |]; try discriminate En. injection En as -> En. apply app_inj_tail in En. destruct En as [-> ->]. exists path, ex, k. auto.
  - apply split_last_none in E. subst ps. intro e. split; [intros []|]. intro H. remember (TreePath a []) as n eqn:En. destruct H as [ab ps q' path ex k e H1 H2 H3| | | | | |]; try discriminate En. injection En as _ En. destruct ps; discriminate.
  - apply split_last_some in E. subst ps. intro e. rewrite path_offer_iff. split; [intro H; econstructor; eauto|]. intro H. remember (TypePath (rest ++ [(op, q)])) as n eqn:En. destruct H; try discriminate En. injection En as En. apply app_inj_tail in En. destruct En as [-> En]. injection En as -> ->. assumption.
  - apply split_last_none in E. subst ps. intro e. split; [intros []|]. intro H. remember (TypePath []) as n eqn:En. destruct H as [|ps o q' e H| | | | |]; try discriminate En. injection En as En. destruct ps; discriminate.
  - intro e. rewrite unscoped_iff. split; [apply no_unscoped|]. intro H. inversion H; subst; assumption.
  - intro e. rewrite scoped_offer_iff. split; [apply no_scoped|]. intro H. inversion H; subst; assumption.
  - split; [eauto|]. intro e. rewrite scoped_offer_iff. split; [apply no_missing|]. intro H. inversion H; subst; assumption.
  - split; [eauto|]. intro e. rewrite path_offer_iff. split; [apply no_incomplete_type|]. intro H. inversion H; subst; assumption.
  - split; [eauto|]. intro e. rewrite tree_answer_iff. split; [intros (path & ex & k & H1 & H2 & H3); econstructor; eauto|]. intro H. inversion H; subst; eauto 6.
Qed.
Lemma note_usable notes n e : note_offer notes n e -> usable n.
Proof using Type. unfold usable, urgent. destruct 1; eauto 8. Qed.
Lemma answers_spec notes ns : forall so_far, match answers V D t vars params is_verb macros fits notes so_far ns with
  | Some es => (exists n, first_with urgent ns n /\ forall e, In e es <-> note_offer notes n e) \/
      (none_with urgent ns /\ (so_far <> None \/ exists n, In n ns /\ usable n) /\ forall e, In e es <-> match so_far with Some l => In e l | None => False end \/ exists n, In n ns /\ note_offer notes n e)
  | None => so_far = None /\ none_with usable ns end.
Proof using T AC.
  induction ns as [|n ns IH]; intro so_far; cbn [answers].
  - destruct so_far as [l|]; [|split; [reflexivity|intros m []]]. right. split; [intros m []|]. split; [left; discriminate|]. intro e. split; [auto|]. intros [H|(n & [] & _)]; exact H.
  - pose proof (answer_spec notes n) as A. destruct (answer_to V D t vars params is_verb macros fits notes n) as [|es|es].
    + assert (Nu : ~ urgent n) by (intro Q; apply A; left; exact Q). specialize (IH so_far). destruct (answers V D t vars params is_verb macros fits notes so_far ns) as [es|].
      * destruct IH as [(m & (pre & post & -> & Hm & Hp) & H)|(Hn & Hs & H)].
        -- left. exists m. split; [|exact H]. exists (n :: pre), post. split; [reflexivity|]. split; [exact Hm|]. intros k [<-|Hk]; auto.
        -- right. split; [intros m [<-|Hm]; auto|]. split; [destruct Hs as [Hs|(m & Hm & Um)]; [auto|right; exists m; split; [right; exact Hm|exact Um]]|]. intro e. rewrite H. split; (intros [Hl|(m & Hm & Ho)]; [auto|right; exists m]); [split; [right; exact Hm|exact Ho]|]. split; [|exact Ho]. destruct Hm as [<-|Hm]; [destruct (A (note_usable _ _ _ Ho))|exact Hm].
      * destruct IH as [IH1 IH2]. split; [exact IH1|]. intros m [<-|Hm]; auto.
    + destruct A as (Un & Nu & A). specialize (IH (Some (match so_far with Some l => l ++ es | None => es end))). destruct (answers V D t vars params is_verb macros fits notes _ ns) as [rs|].
      * destruct IH as [(m & (pre & post & -> & Hm & Hp) & H)|(Hn & Hs & H)].
        -- left. exists m. split; [|exact H]. exists (n :: pre), post. split; [reflexivity|]. split; [exact Hm|]. intros k [<-|Hk]; auto.
        -- right. split; [intros m [<-|Hm]; auto|]. split; [right; exists n; split; [left; reflexivity|exact Un]|]. intro e. rewrite H. destruct so_far as [l|]; rewrite ?in_app_iff, A; split.
           ++ intros [[Hl|Hl]|(m & Hm & Ho)]; [auto|right; exists n; split; [left; reflexivity|exact Hl]|right; exists m; split; [right; exact Hm|exact Ho]].
           ++ intros [Hl|(m & [<-|Hm] & Ho)]; [auto|auto|right; eauto].
           ++ intros [Hl|(m & Hm & Ho)]; [right; exists n; split; [left; reflexivity|exact Hl]|right; exists m; split; [right; exact Hm|exact Ho]].
           ++ intros [[]|(m & [<-|Hm] & Ho)]; [auto|right; eauto].
      * destruct IH as [Q _]. discriminate.
    + destruct A as (Un & A). left. exists n. split; [|exact A]. exists [], ns. split; [reflexivity|]. split; [exact Un|intros m []].
Qed.
(** The answer to the request: exactly what is to be offered *)
Theorem completion_iff notes e : In e (completion V D t vars params is_verb macros fits notes) <-> offered notes e.
Proof using T AC.
  unfold completion. pose proof (answers_spec notes notes None) as A. destruct (answers V D t vars params is_verb macros fits notes None notes) as [es|].
  - destruct A as [(n & Hn & H)|(Hn & Hs & H)].
    + rewrite H. split; [intro Ho; eapply of_urgent; eauto|]. intros [m e' Hm Ho|m e' N _ _|path name idx e' N _ _|i e' N _ _ _].
      * rewrite (first_with_fun _ _ _ _ Hn Hm). exact Ho.
      * destruct (first_with_none _ _ _ Hn N).
      * destruct Hn as (pre & post & -> & U & _). destruct (N n); [apply in_or_app; right; left; reflexivity|left; exact U].
      * destruct Hn as (pre & post & -> & U & _). destruct (N n); [apply in_or_app; right; left; reflexivity|left; exact U].
    + rewrite H. destruct Hs as [Hs|(u & Hu & Uu)]; [congruence|]. split; [intros [[]|(n & Hin & Ho)]; eapply of_usable; eauto|]. intros [m e' Hm Ho|m e' N Hm Ho|path name idx e' N _ _|i e' N _ _ _].
      * destruct (first_with_none _ _ _ Hm Hn).
      * right. eauto.
      * destruct (N u Hu Uu).
      * destruct (N u Hu Uu).
  - destruct A as [_ Nu]. pose proof (context_spec notes) as C. pose proof (proj2 (here_iff notes _) eq_refl) as Hh. pose proof (here_iff notes) as Hi. destruct (find_type_context V D t notes) as [ty proc]. destruct C as [_ C]. cbn [fst] in Hh, Hi.
    assert (No : forall n e', In n notes -> ~ note_offer notes n e') by (intros n e' Hn Ho; exact (Nu n Hn (note_usable _ _ _ Ho))). destruct proc as [[name idx]|].
    + rewrite unscoped_iff. destruct (proj1 (C name idx) eq_refl) as (path & Hp). split; [intro H; eapply of_body; eauto|]. intros [m e' (pre & post & Q & U & _) Ho|m e' N Hm Ho|path' name' idx' e' _ _ H|i e' _ N _ _].
      * destruct (No m e'); [rewrite Q; apply in_or_app; right; left; reflexivity|exact Ho].
      * destruct (No m e' Hm Ho).
      * exact H.
      * destruct (N _ _ _ Hp).
    + rewrite (tree_offer_iff true _ [] e (here_at notes _ Hh)). split.
      * intro H. eapply of_tree; [exact Nu| |exact Hh|exact H]. intros path name idx Hp. assert (Q : None = Some (name, idx)) by (apply C; eauto). discriminate.
      * intros [m e' (pre & post & Q & U & _) Ho|m e' N Hm Ho|path' name' idx' e' _ Hp H|i e' _ N Hh' H].
        -- destruct (No m e'); [rewrite Q; apply in_or_app; right; left; reflexivity|exact Ho].
        -- destruct (No m e' Hm Ho).
        -- assert (Q : None = Some (name', idx')) by (apply C; eauto). discriminate.
        -- apply Hi in Hh'. subst i. exact H.
Qed.
(** ** Each name once *)
Definition member_name (e : entry) : list (bool * text) := match e with Member proc _ x _ => [(proc, x)] | _ => [] end.
Lemma nodup_app {A : Type} (a b : list A) : NoDup a -> NoDup b -> (forall x, In x a -> ~ In x b) -> NoDup (a ++ b).
Proof using Type.
  induction a as [|x a IH]; intros Na Nb H; [exact Nb|]. inversion Na as [|? ? N1 N2]; subst. cbn [app]. constructor; [|apply IH; [exact N2|exact Nb|intros y Hy; apply H; right; exact Hy]].
  intro Q. apply in_app_or in Q. destruct Q as [Q|Q]; [exact (N1 Q)|exact (H x (or_introl eq_refl) Q)].
Qed.
Definition once (skip skip' : list (bool * text)) (es : list entry) : Prop :=
  NoDup (flat_map member_name es) /\ (forall y, In y (flat_map member_name es) -> ~ In y skip /\ In y skip') /\ incl skip skip'.
Lemma once_app a b c es1 es2 : once a b es1 -> once b c es2 -> once a c (es1 ++ es2).
Proof using Type.
  intros (N1 & I1 & L1) (N2 & I2 & L2). unfold once. rewrite flat_map_app. split; [|split].
  - apply nodup_app; [exact N1|exact N2|]. intros y H1 H2. destruct (I1 y H1) as [_ H]. destruct (I2 y H2) as [H' _]. exact (H' H).
  - intros y H. apply in_app_or in H. destruct H as [H|H].
    + destruct (I1 y H) as [Q1 Q2]. split; [exact Q1|apply L2; exact Q2].
    + destruct (I2 y H) as [Q1 Q2]. split; [intro Q; apply Q1, L1; exact Q|exact Q2].
  - intros y H. apply L2, L1, H.
Qed.
Lemma once_one proc ty x ins (b : bool) skip : skipped skip proc x = false -> once skip ((proc, x) :: skip) (if b then [Member proc ty x ins] else []).
Proof using Type.
  intro S. assert (N : ~ In (proc, x) skip) by (intro H; apply skipped_iff in H; congruence). unfold once. split; [|split; [|intros y H; right; exact H]].
  - destruct b; cbn [flat_map member_name app]; repeat constructor; intros [].
  - destruct b; cbn [flat_map member_name app]; intros y []; [subst; split; [exact N|left; reflexivity]|destruct H].
Qed.
Lemma members_once query vi pi wv wanted tys : forall skip, NoDup (flat_map member_name (members V D t vars fits query vi pi wv wanted skip tys)) /\
  forall y, In y (flat_map member_name (members V D t vars fits query vi pi wv wanted skip tys)) -> ~ In y skip.
Proof using Type.
  assert (Ov : forall ty l skip, let '(skip', es) := each_var fits query vi ty l skip in once skip skip' es).
  { intros ty l. induction l as [|[x d] l IH]; intro skip; cbn [each_var]; [split; [constructor|split; [intros y []|intros y H; exact H]]|]. destruct (skipped skip false x) eqn:S; [apply IH|]. specialize (IH ((false, x) :: skip)).
    destruct (each_var fits query vi ty l ((false, x) :: skip)) as [skip' es]. eapply once_app; [apply once_one; exact S|exact IH]. }
  assert (Op : forall ty l skip, let '(skip', es) := each_proc V D fits query pi wanted ty l skip in once skip skip' es).
  { intros ty l. induction l as [|[x d] l IH]; intro skip; cbn [each_proc]; [split; [constructor|split; [intros y []|intros y H; exact H]]|]. destruct (skipped skip true x) eqn:S; [apply IH|]. specialize (IH ((true, x) :: skip)).
    destruct (each_proc V D fits query pi wanted ty l ((true, x) :: skip)) as [skip' es]. eapply once_app; [apply once_one; exact S|exact IH]. }
  induction tys as [|ty tys IH]; intro skip; [split; [constructor|intros y []]|]. cbn [members].
  assert (O1 : let '(skip1, es1) := if wv then each_var fits query vi ty (vars ty) skip else (skip, []) in once skip skip1 es1) by (destruct wv; [apply Ov|split; [constructor|split; [intros y []|intros y H; exact H]]]).
  destruct (if wv then each_var fits query vi ty (vars ty) skip else (skip, [])) as [skip1 es1]. pose proof (Op ty (procs V D t ty) skip1) as O2. destruct (each_proc V D fits query pi wanted ty (procs V D t ty) skip1) as [skip2 es2].
  destruct (once_app _ _ _ _ _ O1 O2) as (N & I & L). specialize (IH skip2). destruct IH as [IH1 IH2]. rewrite app_assoc, flat_map_app. split.
  - apply nodup_app; [exact N|exact IH1|]. intros y H Q. exact (IH2 y Q (proj2 (I y H))).
  - intros y H. apply in_app_or in H. destruct H as [H|H]; [exact (proj1 (I y H))|]. intro Q. exact (IH2 y H (L y Q)).
Qed.
Lemma named_once query make names : (forall x, member_name (make x) = []) -> flat_map member_name (named fits query make names) = [].
Proof using Type. intro H. unfold named. induction (filter (fun x => fits x query) names) as [|x l IH]; [reflexivity|]. cbn [map flat_map]. rewrite H. exact IH. Qed.
Theorem once_all notes parts priors exact i q :
  NoDup (flat_map member_name (unscoped_completions V D t vars params macros fits notes q)) /\ NoDup (flat_map member_name (scoped_completions V D t vars params fits notes priors q)) /\
  NoDup (flat_map member_name (tree_completions V D t vars params fits exact i q)) /\ NoDup (flat_map member_name (path_completions V D t vars is_verb fits notes parts q)).
Proof using Type.
  split; [|split; [|split]].
  - unfold unscoped_completions. destruct (find_type_context V D t notes) as [ty proc]. rewrite !flat_map_app, !named_once by reflexivity. destruct proc as [[name idx]|]; [rewrite named_once by reflexivity|]; cbn [flat_map app]; apply members_once.
  - unfold scoped_completions. destruct (find_scoped_type V D t vars params notes priors); [apply members_once|constructor].
  - unfold tree_completions, child_items. rewrite !flat_map_app, named_once by reflexivity. cbn [app]. destruct exact; [rewrite named_once by reflexivity|]; cbn [flat_map app]; (destruct (match node_at t i with Some n => match n_path n with [] => true | _ :: _ => false end | None => true end); [constructor|apply members_once]).
  - unfold path_completions. destruct (follow_type_path V D t notes parts) as [[k [[kind [r|]]|]]|]; [constructor|apply members_once| |constructor]. unfold child_items. rewrite flat_map_app, !named_once by reflexivity. constructor.
Qed.
End PROPS.

(** ** The theorems *)
Section THEOREMS.
Variables V D : Type.
Variable t : objtree V D.
Variable vars : nat -> list (text * option (list text)).
Variable params : V -> list (text * list text).
Variable is_verb : D -> bool.
Variable macros : list text.
Variable fits : text -> text -> bool.
(** The answer to the request consists of exactly the entries that are to be offered there. *)
Theorem C72_request : forall out notes e, finished t out -> acyclic t ->
  (In e (completion V D t vars params is_verb macros fits notes) <-> offered V D t vars params is_verb macros fits notes e).
Proof using Type. intros out notes e F AC. apply completion_iff; [exact (finished_tidy V D t out F)|exact AC]. Qed.
(** Each of the four kinds of answers *)
Theorem C72_unscoped : forall out notes q e, finished t out -> acyclic t ->
  (In e (unscoped_completions V D t vars params macros fits notes q) <-> unscoped_offer V D t vars params macros fits notes q e).
Proof using Type. intros out notes q e F AC. apply unscoped_iff; [exact (finished_tidy V D t out F)|exact AC]. Qed.
Theorem C72_scoped : forall out notes priors q e, finished t out -> acyclic t ->
  (In e (scoped_completions V D t vars params fits notes priors q) <-> scoped_offer V D t vars params fits notes priors q e).
Proof using Type. intros out notes priors q e F AC. apply scoped_offer_iff; [exact (finished_tidy V D t out F)|exact AC]. Qed.
Theorem C72_tree : forall out exact i cs q e, finished t out -> acyclic t -> at_ t i cs ->
  (In e (tree_completions V D t vars params fits exact i q) <-> tree_offer V D t vars params fits exact i q e).
Proof using Type. intros out exact i cs q e F AC H. apply tree_offer_iff; [exact (finished_tidy V D t out F)|exact AC|eauto]. Qed.
Theorem C72_path : forall out notes parts q e, finished t out -> acyclic t ->
  (In e (path_completions V D t vars is_verb fits notes parts q) <-> path_offer V D t vars is_verb fits notes parts q e).
Proof using Type. intros out notes parts q e F AC. apply path_offer_iff; [exact (finished_tidy V D t out F)|exact AC]. Qed.
(** The type of [a.b.c] at a place is the one that the declarations say, and there is at most one. *)
Theorem C72_type : forall out notes priors i, finished t out -> acyclic t ->
  (find_scoped_type V D t vars params notes priors = Some i <-> scoped V D t vars params notes priors i).
Proof using Type. intros out notes priors i F AC. symmetry. apply scoped_iff; [exact (finished_tidy V D t out F)|exact AC]. Qed.
(** No answer offers a variable or a procedure of the same name twice. *)
Theorem C72_once : forall notes parts priors exact i q,
  NoDup (flat_map member_name (unscoped_completions V D t vars params macros fits notes q)) /\ NoDup (flat_map member_name (scoped_completions V D t vars params fits notes priors q)) /\
  NoDup (flat_map member_name (tree_completions V D t vars params fits exact i q)) /\ NoDup (flat_map member_name (path_completions V D t vars is_verb fits notes parts q)).
Proof using Type. intros. apply once_all. Qed.
(** A member that is offered is the one that the name stands for: nothing nearer has such a member; and everything on the way up whose name fits
    is offered under its name. *)
Theorem C72_nearest : forall out notes q proc x, finished t out -> acyclic t -> fits x q = true ->
  (exists j ins, In (Member proc j x ins) (unscoped_completions V D t vars params macros fits notes q)) <->
  exists i k, here V D t notes i /\ subtype t i k /\ has V D t vars proc k x.
Proof using Type.
  intros out notes q proc x F AC Fi. split.
  - intros (j & ins & H). apply (C72_unscoped out notes q _ F AC) in H. inversion H as [| | | |i y j' Hi (R & Hx & _) _|i y j' Hi (R & Hx & _) _]; subst; exists i, j; (split; [exact Hi|]); (split; [|exact Hx]);
      (clear - R; induction R as [a b [R _]|a|a b c R1 IH1 R2 IH2]; [apply rt_step; exact R|apply rt_refl|eapply rt_trans; eauto]).
  - intros (i & k & Hi & S & Hx). pose proof (finished_tidy V D t out F) as T. destruct (upwards_spec V D t T AC false i) as (l & E & N & L & rest & El).
    assert (R : reach V D t false i k) by (clear - S; induction S as [a b S|a|a b c S1 IH1 S2 IH2]; [apply rt_step; split; [exact S|discriminate]|apply rt_refl|eapply rt_trans; eauto]).
    assert (C : exists j, closest V D t vars false proc i x j).
    { apply (L [] i rest El) in R. rewrite <- El in R. assert (Q : exists pre j post, l = pre ++ j :: post /\ has V D t vars proc j x /\ forall m, In m pre -> ~ has V D t vars proc m x).
      { clear - R Hx. induction l as [|a l IH]; [destruct R|]. assert (Dc : has V D t vars proc a x \/ ~ has V D t vars proc a x) by (unfold has; destruct proc; [destruct (procs_of t a x)|destruct (get x (vars a))]; [left; discriminate|right; congruence|left; discriminate|right; congruence]).
        destruct Dc as [Ha|Ha]; [exists [], a, l; split; [reflexivity|]; split; [exact Ha|intros m []]|]. destruct R as [<-|R]; [destruct (Ha Hx)|]. destruct (IH R) as (pre & j & post & -> & Hj & M). exists (a :: pre), j, post. split; [reflexivity|]. split; [exact Hj|]. intros m [<-|Hm]; auto. }
      destruct Q as (pre & j & post & Q & Hj & M). exists j. apply (closest_iff V D t vars T AC false). exists pre, post. rewrite E. auto. }
    destruct C as (j & C). destruct proc; [exists j, (Some x)|exists j, None]; apply (C72_unscoped out notes q _ F AC); [eapply uo_proc|eapply uo_var]; eauto.
Qed.
End THEOREMS.
Print Assumptions C72_request.
Print Assumptions C72_unscoped.
Print Assumptions C72_scoped.
Print Assumptions C72_tree.
Print Assumptions C72_path.
Print Assumptions C72_type.
Print Assumptions C72_once.
Print Assumptions C72_nearest.
