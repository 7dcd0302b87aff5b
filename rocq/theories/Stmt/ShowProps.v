(** C78: types of variables and input types, as shown, read back as what they are. *)
From Coq Require Import List Arith NArith Bool String Lia.
From Verif Require Import Common.Text Common.TextFacts Parse.Ast Stmt.Ast Stmt.Show Stmt.ShowSpec.
From Verif Require Stmt.Model.
Import ListNotations.
Open Scope N_scope.
Notation var_type := Model.var_type. Notation flag_of := Model.flag_of.

(** ** Bits *)
Lemma contains_iff b e : contains b e = true <-> subset e b.
Proof.
  unfold contains, subset. rewrite N.eqb_eq. split.
  - intros E k Hk. rewrite <- E, N.land_spec in Hk. apply andb_true_iff in Hk. tauto.
  - intro H. apply N.bits_inj. intro k. rewrite N.land_spec. specialize (H k). destruct (N.testbit e k); [rewrite H by reflexivity; reflexivity|apply andb_false_r].
Qed.
Lemma difference_iff b e : N.eqb (difference b e) 0 = true <-> subset b e.
Proof.
  unfold difference, subset. rewrite N.eqb_eq. split.
  - intros E k Hk. assert (Q : N.testbit (N.ldiff b e) k = false) by (rewrite E; apply N.bits_0). rewrite N.ldiff_spec, Hk in Q. destruct (N.testbit e k); [reflexivity|discriminate].
  - intro H. apply N.bits_inj. intro k. rewrite N.ldiff_spec, N.bits_0. specialize (H k). destruct (N.testbit b k); [rewrite H by reflexivity; reflexivity|reflexivity].
Qed.
Lemma union_fun sets b c : union sets b -> union sets c -> b = c.
Proof. intros H H'. apply N.bits_inj. intro k. specialize (H k). specialize (H' k). destruct (N.testbit b k), (N.testbit c k); try reflexivity; [destruct (proj1 H eq_refl) as (s & A); assert (Q : false = true) by (apply H'; exists s; exact A); discriminate|destruct (proj1 H' eq_refl) as (s & A); assert (Q : false = true) by (apply H; exists s; exact A); discriminate]. Qed.
Lemma fold_union sets : forall a, union (a :: sets) (fold_left N.lor sets a).
Proof.
  induction sets as [|s sets IH]; intros a k; cbn [fold_left].
  - split; [intro H; exists a; split; [left; reflexivity|exact H]|intros (s & [<-|[]] & H); exact H].
  - specialize (IH (N.lor a s) k). rewrite IH. split.
    + intros (s' & [<-|H] & B); [|exists s'; split; [right; right; exact H|exact B]]. rewrite N.lor_spec in B. apply orb_true_iff in B. destruct B as [B|B]; [exists a; split; [left; reflexivity|exact B]|exists s; split; [right; left; reflexivity|exact B]].
    + intros (s' & [<-|[<-|H]] & B); [exists (N.lor a s)|exists (N.lor a s)|exists s'; split; [right; exact H|exact B]]; (split; [left; reflexivity|rewrite N.lor_spec, B; try apply orb_true_r; reflexivity]).
Qed.
(** a union of entries of a table is the union of all entries of it that it contains *)
Lemma union_contained (table : list N) sets b : union sets b -> incl sets table -> union (filter (contains b) table) b.
Proof.
  intros U I k. split.
  - intro H. destruct (proj1 (U k) H) as (s & Hs & B). exists s. split; [|exact B]. apply filter_In. split; [exact (I s Hs)|]. apply contains_iff. intros j Hj. apply U. exists s. auto.
  - intros (s & Hs & B). apply filter_In in Hs. destruct Hs as [_ Hs]. apply contains_iff in Hs. exact (Hs k B).
Qed.
Lemma words_of_iff b table words : words_of b table words <-> words = map fst (filter (fun e => contains b (snd e)) table).
Proof.
  revert words. induction table as [|[w s] table IH]; intro words; cbn [filter map snd].
  - split; [intro H; inversion H; reflexivity|intros ->; constructor].
  - pose proof (contains_iff b s) as C. destruct (contains b s); cbn [map fst]; split.
    + intro H. inversion H as [|? ? ? ws Hs H'|? ? ? ws Hs H']; subst; [f_equal; apply IH; exact H'|destruct Hs; apply C; reflexivity].
    + intros ->. apply wo_in; [apply C; reflexivity|apply IH; reflexivity].
    + intro H. inversion H as [|? ? ? ws Hs H'|? ? ? ws Hs H']; subst; [apply C in Hs; discriminate|apply IH; exact H'].
    + intros ->. apply wo_out; [intro Q; apply C in Q; discriminate|apply IH; reflexivity].
Qed.

(** ** Flags *)
Definition names_in (f : N) : list text := map fst (filter (fun e => contains f (snd e)) flag_words).
Lemma show_flags_eq f : show_flags f = flat_map (fun w => w ++ [47]) (names_in f).
Proof. unfold show_flags, names_in, flag_words. cbn [filter snd]. destruct (contains f 1), (contains f 4), (contains f 8), (contains f 16), (contains f 32), (contains f 64); reflexivity. Qed.
Lemma small_flags f : subset f all_flags -> f < 128.
Proof.
  intro H. assert (E : f = f mod 2 ^ 7). { rewrite <- N.land_ones. apply N.bits_inj. intro k. rewrite N.land_spec. specialize (H k). destruct (N.testbit f k); [|reflexivity]. specialize (H eq_refl). destruct (N.ltb_spec k 7) as [L|L]; [rewrite N.ones_spec_low by exact L; reflexivity|].
    unfold all_flags in H. rewrite N.bits_above_log2 in H; [discriminate|]. vm_compute (N.log2 125). lia. }
  rewrite E. apply N.mod_upper_bound. discriminate.
Qed.
Lemma every_flags (P : N -> bool) : forallb (fun k => P (N.of_nat k)) (seq 0 256) = true -> forall f, f < 256 -> P f = true.
Proof. intros H f L. pose proof (proj1 (forallb_forall _ _) H (N.to_nat f)) as Q. cbv beta in Q. rewrite N2Nat.id in Q. apply Q. apply in_seq. lia. Qed.
Lemma read_flags f : subset f all_flags -> fold_left N.lor (map snd (filter (fun e => contains f (snd e)) flag_words)) 0 = f.
Proof.
  intro H. pose proof (small_flags f H) as L. apply contains_iff in H. revert H.
  assert (Q : (negb (contains all_flags f) || (fold_left N.lor (map snd (filter (fun e => contains f (snd e)) flag_words)) 0 =? f)) = true).
  { revert f L. intros f L. apply (every_flags (fun f => negb (contains all_flags f) || (fold_left N.lor (map snd (filter (fun e => contains f (snd e)) flag_words)) 0 =? f))); [vm_compute; reflexivity|lia]. }
  intro H. rewrite H in Q. cbn [negb orb] in Q. apply N.eqb_eq. exact Q.
Qed.
Lemma var_type_flags f path : forall acc, var_type acc (names_in f ++ path) = var_type (fold_left N.lor (map snd (filter (fun e => contains f (snd e)) flag_words)) acc) path.
Proof.
  intro acc. unfold names_in, flag_words. cbn [filter snd].
  destruct (contains f 1), (contains f 4), (contains f 8), (contains f 16), (contains f 32), (contains f 64); reflexivity.
Qed.
Definition path_ok (path : list text) : Prop := match path with [] => True | w :: _ => flag_of w = None end.
Lemma var_type_path acc path : path_ok path -> var_type acc path = {| v_flags := acc; v_path := path |}.
Proof. destruct path as [|w path]; [reflexivity|]. cbn [path_ok Model.var_type]. intros ->. reflexivity. Qed.
Lemma names_plain f w : In w (names_in f) -> ~ In 47 w.
Proof.
  unfold names_in. intros H Q. apply in_map_iff in H. destruct H as ([w' s] & <- & H). apply filter_In in H. destruct H as [H _]. cbn [fst] in Q.
  assert (C : forallb (fun e : text * N => negb (existsb (N.eqb 47) (fst e))) flag_words = true) by (vm_compute; reflexivity). pose proof (proj1 (forallb_forall _ _) C _ H) as N. cbn [fst] in N. apply negb_true_iff in N.
  assert (E : existsb (N.eqb 47) w' = true) by (apply existsb_exists; exists 47; split; [exact Q|reflexivity]). congruence.
Qed.
Lemma split_words sep words x : (forall w, In w words -> ~ In sep w) -> ~ In sep x -> split_char sep (flat_map (fun w => w ++ [sep]) words ++ x) = words ++ [x].
Proof.
  intros H Hx. induction words as [|w words IH]; cbn [flat_map app]; [apply split_char_none; exact Hx|]. rewrite <- !app_assoc. cbn [app]. rewrite split_char_app by (apply H; left; reflexivity). f_equal. apply IH. intros v Hv. apply H. right. exact Hv.
Qed.
(** The declaration that is shown, cut at the slashes: the flags, the path, the name; and reading the words before the name gives the type again *)
Theorem C78_variable : forall (ty : vartype) (x : text), subset (v_flags ty) all_flags -> (forall w, In w (v_path ty) -> ~ In 47 w) -> path_ok (v_path ty) -> ~ In 47 x ->
  exists flags, words_of (v_flags ty) flag_words flags /\ split_char 47 (show_var_type ty ++ x) = flags ++ v_path ty ++ [x] /\ var_type 0 (flags ++ v_path ty) = ty.
Proof.
  intros [f path] x Hf Hp Hok Hx. cbn [v_flags v_path] in *. exists (names_in f). split; [apply words_of_iff; reflexivity|]. split.
  - unfold show_var_type. cbn [v_flags v_path]. rewrite show_flags_eq. change (lit "/") with [47]. rewrite <- flat_map_app, (app_assoc (names_in f)). apply split_words; [|exact Hx]. intros w H. apply in_app_or in H. destruct H as [H|H]; [exact (names_plain f w H)|exact (Hp w H)].
  - rewrite var_type_flags, read_flags by exact Hf. apply var_type_path. exact Hok.
Qed.
Lemma flag_known w f : flag_of w = Some f -> subset f all_flags.
Proof. unfold Model.flag_of. intro H. apply contains_iff. repeat match type of H with (if ?c then _ else _) = _ => destruct c; [injection H as <-; vm_compute; reflexivity|] end. discriminate. Qed.
(** What is read is of that kind, whatever the words are, and with [list] before it for the square brackets as well. *)
Theorem C78_read : forall words sizes, (forall w, In w words -> ~ In 47 w) ->
  let ty := Model.with_suffix N (var_type 0 words) sizes in subset (v_flags ty) all_flags /\ (forall w, In w (v_path ty) -> ~ In 47 w) /\ path_ok (v_path ty).
Proof.
  intros words sizes H. assert (G : forall acc, subset acc all_flags -> let ty := var_type acc words in subset (v_flags ty) all_flags /\ (forall w, In w (v_path ty) -> In w words) /\ path_ok (v_path ty)).
  { clear H. induction words as [|w words IH]; intros acc Ha; cbn [Model.var_type]; cbv zeta; [cbn [v_flags v_path path_ok]; auto|]. destruct (flag_of w) as [f|] eqn:E.
    - destruct (IH (N.lor acc f)) as (A & B & C). { intros k Hk. rewrite N.lor_spec in Hk. apply orb_true_iff in Hk. destruct Hk as [Hk|Hk]; [exact (Ha k Hk)|exact (flag_known w f E k Hk)]. } split; [exact A|]. split; [intros v Hv; right; exact (B v Hv)|exact C].
    - cbn [v_flags v_path path_ok]. auto. }
  destruct (G 0) as (A & B & C). { intros k Hk. rewrite N.bits_0 in Hk. discriminate. } cbv zeta. destruct sizes as [|s sizes]; cbn [Model.with_suffix v_flags v_path].
  - split; [exact A|]. split; [intros w Hw; apply H, B; exact Hw|exact C].
  - split; [exact A|]. split; [|reflexivity]. intros w [<-|Hw]; [vm_compute; intros Q; repeat (destruct Q as [Q|Q]; [discriminate|]); exact Q|apply H, B; exact Hw].
Qed.
(** The iterator goes over the words that are shown. *)
Theorem C78_iterator : forall f, f < 256 -> words_of f flag_words (flag_names 8 f) /\ show_flags f = flat_map (fun w => w ++ lit "/") (flag_names 8 f).
Proof.
  intros f L. assert (E : flag_names 8 f = names_in f).
  { assert (Q : (if list_eq_dec (list_eq_dec N.eq_dec) (flag_names 8 f) (names_in f) then true else false) = true) by (apply (every_flags (fun f => if list_eq_dec (list_eq_dec N.eq_dec) (flag_names 8 f) (names_in f) then true else false)); [vm_compute; reflexivity|exact L]).
    destruct (list_eq_dec (list_eq_dec N.eq_dec) (flag_names 8 f) (names_in f)) as [E|]; [exact E|discriminate]. }
  rewrite E. split; [apply words_of_iff; reflexivity|apply show_flags_eq].
Qed.

(** ** Input types *)
Lemma show_entries_eq b entries : forall first, show_entries first b entries = match map fst (filter (fun e => contains b (snd e)) entries) with [] => if first then lit "()" else [] | ws => (if first then [] else [124]) ++ between 124 ws end.
Proof.
  induction entries as [|[w e] entries IH]; intro first; cbn [show_entries filter snd]; [reflexivity|]. destruct (contains b e); [|apply IH]. cbn [map fst]. rewrite IH. destruct (map fst (filter (fun e => contains b (snd e)) entries)) as [|v ws]; [|destruct first; reflexivity]. destruct first; cbn [between]; rewrite app_nil_r; reflexivity.
Qed.
Lemma split_between sep w words : (forall v, In v (w :: words) -> ~ In sep v) -> split_char sep (between sep (w :: words)) = w :: words.
Proof.
  revert w. induction words as [|v words IH]; intros w H; [apply split_char_none; apply H; left; reflexivity|]. change (between sep (w :: v :: words)) with (w ++ sep :: between sep (v :: words)). rewrite split_char_app by (apply H; left; reflexivity). f_equal. apply IH. intros u Hu. apply H. right. exact Hu.
Qed.
Lemma input_of_entry e : In e input_types -> input_type_of (fst e) = Some (snd e) /\ ~ In 124 (fst e).
Proof.
  intro H. assert (C : forallb (fun e : text * N => match input_type_of (fst e) with Some v => v =? snd e | None => false end && negb (existsb (N.eqb 124) (fst e))) input_types = true) by (vm_compute; reflexivity).
  pose proof (proj1 (forallb_forall _ _) C e H) as Q. apply andb_true_iff in Q. destruct Q as [Q1 Q2]. split.
  - destruct (input_type_of (fst e)) as [v|]; [apply N.eqb_eq in Q1; congruence|discriminate].
  - intro B. apply negb_true_iff in Q2. assert (E : existsb (N.eqb 124) (fst e) = true) by (apply existsb_exists; exists 124; split; [exact B|reflexivity]). congruence.
Qed.
Lemma input_entry w v : input_type_of w = Some v -> In (w, v) input_types.
Proof. unfold input_type_of. destruct (find _ _) as [[w' v']|] eqn:E; [|discriminate]. intro Q. injection Q as <-. apply find_some in E. destruct E as [E1 E2]. cbn [fst] in E2. apply text_eqb_eq in E2. subst w'. exact E1. Qed.
Lemma read_entries es : (forall e, In e es -> In e input_types) -> forall b ok, fold_left (fun r w => match input_type_of w with Some v => (N.lor (fst r) v, snd r) | None => (fst r, false) end) (map fst es) (b, ok) = (fold_left N.lor (map snd es) b, ok).
Proof.
  induction es as [|e es IH]; intros H b ok; [reflexivity|]. cbn [map fold_left]. destruct (input_of_entry e (H e (or_introl eq_refl))) as [-> _]. cbn [fst snd]. apply IH. intros e' He. apply H. right. exact He.
Qed.
(** sets of bits that can be written: unions of entries of the table *)
Definition written (b : N) : Prop := exists sets, incl sets (map snd input_types) /\ union sets b.
(** Whatever was written after [as], the words that are shown are those of the table that are in it; they read back as the same, without error. *)
Theorem C78_input : forall b, written b -> b <> 0 -> exists words, words_of b input_types words /\ split_char 124 (show_input_type b) = words /\ read_input_type words = (b, true).
Proof.
  intros b (sets & I & U) Nz. set (es := filter (fun e => contains b (snd e)) input_types). exists (map fst es). split; [apply words_of_iff; reflexivity|].
  assert (Es : forall e, In e es -> In e input_types) by (intros e He; unfold es in He; apply filter_In in He; tauto).
  assert (R : fold_left N.lor (map snd es) 0 = b).
  { pose proof (fold_union (map snd es) 0) as F. apply (union_fun (filter (contains b) (map snd input_types))); [|exact (union_contained _ sets b U I)]. intro k. rewrite (F k). assert (Em : map snd es = filter (contains b) (map snd input_types)).
    { unfold es. clear. induction input_types as [|e l IH]; [reflexivity|]. cbn [filter map]. destruct (contains b (snd e)); cbn [map]; rewrite IH; reflexivity. }
    rewrite Em. split; [intros (s & [<-|H] & B); [rewrite N.bits_0 in B; discriminate|eauto]|intros (s & H & B); exists s; split; [right; exact H|exact B]]. }
  split.
  - unfold show_input_type. rewrite show_entries_eq. fold es. destruct es as [|e es']; [destruct Nz; symmetry; exact R|]. cbn [map app]. apply split_between. intros v Hv. change (fst e :: map fst es') with (map fst (e :: es')) in Hv. apply in_map_iff in Hv. destruct Hv as (e' & <- & He). exact (proj2 (input_of_entry e' (Es e' He))).
  - unfold read_input_type. rewrite (read_entries es Es). rewrite R. reflexivity.
Qed.
Theorem C78_input_read : forall words, written (fst (read_input_type words)).
Proof.
  intro words. unfold read_input_type. assert (G : forall b ok, written b -> written (fst (fold_left (fun r w => match input_type_of w with Some v => (N.lor (fst r) v, snd r) | None => (fst r, false) end) words (b, ok)))).
  { induction words as [|w words IH]; intros b ok W; [exact W|]. cbn [fold_left]. destruct (input_type_of w) as [v|] eqn:E; cbn [fst snd]; [|apply IH; exact W]. apply IH. destruct W as (sets & I & U). exists (v :: sets). split.
    - intros s [<-|Hs]; [apply in_map_iff; exists (w, v); split; [reflexivity|exact (input_entry w v E)]|exact (I s Hs)].
    - intro k. rewrite N.lor_spec, orb_true_iff, (U k). split; [intros [(s & Hs & B)|B]; [exists s; split; [right; exact Hs|exact B]|exists v; split; [left; reflexivity|exact B]]|intros (s & [<-|Hs] & B); [right; exact B|left; eauto]]. }
  apply G. exists []. split; [intros s []|]. intro k. rewrite N.bits_0. split; [discriminate|intros (s & [] & _)].
Qed.
Theorem C78_nothing : show_input_type 0 = lit "()".
Proof. vm_compute. reflexivity. Qed.

(** ** Paths *)
Definition good (b : N) (e : text * N) : bool := contains (snd e) b && forallb (fun e' : text * N => negb (contains (snd e') b) || contains (snd e') (snd e)) stands_for.
Lemma approximates_iff b p : approximates b p <-> b <> 0 /\ exists c, In (p, c) stands_for /\ good b (p, c) = true.
Proof.
  unfold approximates, good. cbn [snd]. split; intros [Nz (c & Hc & H)]; (split; [exact Nz|]); exists c; (split; [exact Hc|]).
  - destruct H as [Hs Hm]. apply andb_true_iff. split; [apply contains_iff; exact Hs|]. apply forallb_forall. intros [p' c'] He. cbn [snd]. pose proof (contains_iff c' b) as C. destruct (contains c' b); [|reflexivity]. cbn [negb orb]. apply contains_iff. apply (Hm p' c' He). apply C. reflexivity.
  - apply andb_true_iff in H. destruct H as [Hs Hm]. split; [apply contains_iff; exact Hs|]. intros p' c' He Hb. pose proof (proj1 (forallb_forall _ _) Hm _ He) as Q. cbn [snd] in Q. apply contains_iff in Hb. rewrite Hb in Q. cbn [negb orb] in Q. apply contains_iff. exact Q.
Qed.
Lemma subset_small b : subset b 291 -> b < 512.
Proof.
  intro H. assert (E : b = b mod 2 ^ 9). { rewrite <- N.land_ones. apply N.bits_inj. intro k. rewrite N.land_spec. specialize (H k). destruct (N.testbit b k); [|reflexivity]. specialize (H eq_refl). destruct (N.ltb_spec k 9) as [L|L]; [rewrite N.ones_spec_low by exact L; reflexivity|].
    rewrite N.bits_above_log2 in H; [discriminate|]. vm_compute (N.log2 291). lia. }
  rewrite E. apply N.mod_upper_bound. discriminate.
Qed.
Lemma subset_one k b : subset b (2 ^ k) -> b = 0 \/ b = 2 ^ k.
Proof.
  intro H. destruct (N.testbit b k) eqn:E.
  - right. apply N.bits_inj. intro j. specialize (H j). rewrite N.pow2_bits_eqb in H |- *. destruct (N.eqb_spec k j) as [Q|Q]; [rewrite <- Q; exact E|]. destruct (N.testbit b j); [discriminate (H eq_refl)|reflexivity].
  - left. apply N.bits_inj. intro j. rewrite N.bits_0. pose proof (H j) as H1. clear H. rename H1 into H. rewrite N.pow2_bits_eqb in H. destruct (N.testbit b j) eqn:Ej; [|reflexivity]. specialize (H eq_refl). apply N.eqb_eq in H. subst j. congruence.
Qed.
Definition agrees (b : N) : bool :=
  match to_typepath b with
  | Some p => negb (b =? 0) && existsb (fun e => text_eqb (fst e) p && good b e) stands_for && forallb (fun e => negb (good b e) || text_eqb (fst e) p) stands_for
  | None => (b =? 0) || forallb (fun e => negb (good b e)) stands_for
  end.
Lemma agrees_iff b p : agrees b = true -> (to_typepath b = Some p <-> approximates b p).
Proof.
  unfold agrees. rewrite approximates_iff. destruct (to_typepath b) as [q|].
  - intro H. apply andb_true_iff in H. destruct H as [H H3]. apply andb_true_iff in H. destruct H as [H1 H2]. apply negb_true_iff, N.eqb_neq in H1. split.
    + intro Q. injection Q as <-. split; [exact H1|]. apply existsb_exists in H2. destruct H2 as ([q' c] & Hc & G). apply andb_true_iff in G. destruct G as [G1 G2]. cbn [fst] in G1. apply text_eqb_eq in G1. subst q'. eauto.
    + intros [_ (c & Hc & G)]. pose proof (proj1 (forallb_forall _ _) H3 _ Hc) as Q. cbv beta in Q. rewrite G in Q. cbn [negb orb fst] in Q. apply text_eqb_eq in Q. congruence.
  - intro H. split; [discriminate|]. intros [Nz (c & Hc & G)]. apply orb_true_iff in H. destruct H as [H|H]; [apply N.eqb_eq in H; destruct (Nz H)|]. pose proof (proj1 (forallb_forall _ _) H _ Hc) as Q. cbv beta in Q. rewrite G in Q. discriminate.
Qed.
(** The path for an input type is the smallest one that includes it, if there is one. *)
Theorem C78_typepath : forall b p, to_typepath b = Some p <-> approximates b p.
Proof.
  intros b p. pose proof (difference_iff b 291) as S. destruct (N.eqb (difference b 291) 0) eqn:E.
  - apply agrees_iff. pose proof (subset_small b (proj1 S eq_refl)) as L. assert (C : forallb (fun k => agrees (N.of_nat k)) (seq 0 512) = true) by (vm_compute; reflexivity). pose proof (proj1 (forallb_forall _ _) C (N.to_nat b)) as Q. cbv beta in Q. rewrite N2Nat.id in Q. apply Q. apply in_seq. lia.
  - destruct (N.eqb_spec b 2147483648) as [->|Nl]; [apply agrees_iff; vm_compute; reflexivity|].
    assert (Ns : forall c, subset c 291 -> ~ subset b c). { intros c Hc Hb. assert (Q : false = true) by (apply S; intros k Hk; apply Hc, Hb; exact Hk). discriminate. }
    assert (Q : forall q c, In (q, c) stands_for -> subset b c -> b = 0).
    { intros q c Hc Hb. unfold stands_for in Hc. cbn [In] in Hc. destruct Hc as [Q|[Q|[Q|[Q|[Q|[Q|[Q|[]]]]]]]]; injection Q as _ <-.
      5: { change 2147483648 with (2 ^ 31) in Hb. apply subset_one in Hb. destruct Hb as [Hb|Hb]; [exact Hb|]. destruct Nl. rewrite Hb. reflexivity. }
      all: exfalso; refine (Ns _ _ Hb); apply contains_iff; vm_compute; reflexivity. }
    split.
    + intro H. exfalso. unfold to_typepath in H. destruct (N.eqb_spec b 0); [discriminate|]. destruct (N.eqb_spec b 1) as [->|]; [vm_compute in E; discriminate|]. destruct (N.eqb_spec b 2) as [->|]; [vm_compute in E; discriminate|]. destruct (N.eqb_spec b 32) as [->|]; [vm_compute in E; discriminate|]. destruct (N.eqb_spec b 256) as [->|]; [vm_compute in E; discriminate|].
      destruct (N.eqb_spec b 2147483648); [contradiction|]. pose proof (difference_iff b 3) as S3. destruct (N.eqb (difference b 3) 0); [refine (Ns 3 _ (proj1 S3 eq_refl)); apply contains_iff; vm_compute; reflexivity|]. rewrite E in H. discriminate.
    + intros [Nz (c & Hc & Hb & _)]. destruct (Nz (Q p c Hc Hb)).
Qed.

(** ** Examples *)
(** var/tmp/static/datum/item/x[3]; as mob|obj *)
Theorem C78_demo :
  let ty := Model.with_suffix N (var_type 0 [lit "tmp"; lit "static"; lit "datum"; lit "item"]) [None] in
  ty = {| v_flags := 9; v_path := [lit "list"; lit "datum"; lit "item"] |} /\ subset (v_flags ty) all_flags /\ show_var_type ty ++ lit "x" = lit "static/tmp/list/datum/item/x" /\ flag_names 8 9 = [lit "static"; lit "tmp"] /\
  read_input_type [lit "num"; lit "text"] = (12, true) /\ written 12 /\ show_input_type 12 = lit "text|num" /\ to_typepath 3 = Some (lit "/atom/movable") /\ to_typepath 33 = Some (lit "/atom") /\ to_typepath 12 = None.
Proof.
  cbv zeta. split; [vm_compute; reflexivity|]. split; [apply contains_iff; vm_compute; reflexivity|]. split; [vm_compute; reflexivity|]. split; [vm_compute; reflexivity|]. split; [vm_compute; reflexivity|]. split; [exact (C78_input_read [lit "num"; lit "text"])|]. repeat split; vm_compute; reflexivity.
Qed.
(** C78: what is shown is not what was written: flags and input types come in a fixed order, and a combination is shown beside what it is made of. *)
Theorem C78_order_refuted :
  show_var_type (var_type 0 [lit "tmp"; lit "global"; lit "mob"]) = lit "static/tmp/mob/" /\ show_input_type (fst (read_input_type [lit "movable"])) = lit "mob|obj|movable" /\
  show_input_type (fst (read_input_type [lit "obj"; lit "mob"])) = lit "mob|obj|movable" /\ read_input_type (split_char 124 (show_input_type 0)) = (0, false).
Proof. repeat split; vm_compute; reflexivity. Qed.
(** C78: a list of atoms that may also be nothing has no path. *)
Theorem C78_null_refuted : to_typepath (fst (read_input_type [lit "mob"])) = Some (lit "/mob") /\ to_typepath (fst (read_input_type [lit "mob"; lit "null"])) = None.
Proof. split; vm_compute; reflexivity. Qed.
Print Assumptions C78_variable.
Print Assumptions C78_read.
Print Assumptions C78_iterator.
Print Assumptions C78_input.
Print Assumptions C78_input_read.
Print Assumptions C78_nothing.
Print Assumptions C78_typepath.
Print Assumptions C78_demo.
Print Assumptions C78_order_refuted.
Print Assumptions C78_null_refuted.
