(** C66: named arguments. *)
From Coq Require Import List Arith NArith Bool String Lia Relations.
From Verif Require Import Common.Text Common.Decimal Objtree.Ispath Objtree.Model Objtree.Lemmas Objtree.Spec Objtree.Wf Objtree.Assign Objtree.Paths Objtree.Inherit Objtree.Calls Objtree.PathsProps Objtree.InheritProps
  Checker.CallTree Checker.Spec Checker.SleepProofs Checker.TreeFacts Checker.DirectivesProps Checker.Kwargs Checker.KwargsSpec.
Import ListNotations.
Open Scope nat_scope.

(** ** Texts *)
Lemma last_slash : forall a b n m : text, slash_free n -> slash_free m -> a ++ SLASH :: n = b ++ SLASH :: m -> a = b /\ n = m.
Proof.
  induction a as [|x a IH]; intros [|y b] n m Hn Hm E; cbn [app] in E.
  - injection E as ->. auto.
  - injection E as <- ->. exfalso. apply Hn. apply in_or_app. right. left. reflexivity.
  - injection E as -> E. exfalso. apply Hm. rewrite <- E. apply in_or_app. right. left. reflexivity.
  - injection E as -> E. destruct (IH b n m Hn Hm E) as [-> ->]. auto.
Qed.
Lemma word_slash s : word s -> slash_free s.
Proof. intros [_ H] Q. destruct (H _ Q) as [N _]. apply N. reflexivity. Qed.
Lemma word_not_bracket a b s : word s -> a ++ s <> b ++ [93%N].
Proof.
  intros [N H] E. destruct (exists_last N) as (s' & x & ->). rewrite app_assoc in E. apply app_inj_tail in E. destruct E as [_ ->].
  destruct (H 93%N) as [_ Q]; [apply in_or_app; right; left; reflexivity|]. apply Q. reflexivity.
Qed.

(** ** Maps *)
Lemma ix_same {A : Type} k (v : A) l : ix_insert k v (ix_insert k v l) = ix_insert k v l.
Proof.
  induction l as [|e l IH]; cbn [ix_insert fst]; [rewrite text_eqb_refl; reflexivity|].
  destruct (text_eqb (fst e) k) eqn:E; cbn [ix_insert fst]; rewrite E; [reflexivity|]. rewrite IH. reflexivity.
Qed.
Lemma ix_fst {A : Type} k (v w : A) l : get k l = Some w -> map fst (ix_insert k v l) = map fst l.
Proof.
  unfold get. induction l as [|e l IH]; cbn [List.find ix_insert]; [discriminate|]. destruct (text_eqb (fst e) k) eqn:E; [reflexivity|]. intro H. cbn [map]. rewrite IH by exact H. reflexivity.
Qed.

Section C66.
Variables V D L : Type.
Variable t : objtree V D.
Variable vloc : V -> L.
Variable params : V -> list text.
Variable nowhere : L.
Notation call := (call L).
Notation info := (info L).
Notation used := (used L).
Notation display := (display t).
Notation key_of := (key_of V D L t).
Notation has_param := (has_param t params).
Notation location := (location t vloc nowhere).
Notation mark := (mark V D L t vloc nowhere).
Notation blame := (blame V D L t vloc params nowhere).
Notation missing_of := (missing_of V D L t params).
Notation check_kwargs := (check_kwargs V D L t vloc params nowhere).
Notation visit_args := (visit_args V D L t vloc params nowhere).
Notation visit_calls := (visit_calls V D L t vloc params nowhere).
Notation run := (run t vloc params nowhere).

Lemma has_param_iff p k : has_param p k = true <-> In k (parameters t params p).
Proof using Type.
  unfold Kwargs.has_param. rewrite existsb_exists. split.
  - intros (n & H & E). apply text_eqb_eq in E. subst. exact H.
  - intro H. exists k. split; [exact H|apply text_eqb_refl].
Qed.

(** ** The calls *)
(** the arguments of a call that are marked *)
Definition marked_args (c : call) (args : list (option text)) : list (call * text) :=
  flat_map (fun a => match a with Some k => if has_param (c_proc c) k && negb (c_exact c) then [(c, k)] else [] | None => [] end) args.
Definition marked (cs : list call) : list (call * text) := flat_map (fun c => marked_args c (c_args c)) cs.
Definition mark_all (es : list (call * text)) (u : used) : used := fold_left (fun u e => mark (fst e) (snd e) u) es u.
Lemma visit_args_used c : forall args any u, fst (visit_args c any args u) = mark_all (marked_args c args) u.
Proof using Type.
  induction args as [|[k|] args IH]; intros any u; [reflexivity| |].
  - cbn [Kwargs.visit_args marked_args flat_map]. fold (marked_args c args). unfold mark_all. rewrite fold_left_app. destruct (has_param (c_proc c) k); cbn [negb andb].
    + destruct (c_exact c); cbn [negb fold_left fst snd].
      * specialize (IH true u). destruct (visit_args c true args u). exact IH.
      * specialize (IH true (mark c k u)). destruct (visit_args c true args (mark c k u)). exact IH.
    + specialize (IH true u). destruct (visit_args c true args u). exact IH.
  - cbn [Kwargs.visit_args marked_args flat_map app]. specialize (IH any u). destruct (visit_args c any args u). exact IH.
Qed.
Lemma visit_calls_used : forall cs u, fst (visit_calls cs u) = mark_all (marked cs) u.
Proof using Type.
  induction cs as [|c cs IH]; intro u; [reflexivity|]. cbn [Kwargs.visit_calls marked flat_map]. pose proof (visit_args_used c (c_args c) false u) as H.
  destruct (visit_args c false (c_args c) u) as [u1 l1]. cbn [fst] in H. subst u1. specialize (IH (mark_all (marked_args c (c_args c)) u)).
  destruct (visit_calls cs _) as [u2 l2]. cbn [fst] in *. rewrite IH. unfold mark_all. rewrite fold_left_app. reflexivity.
Qed.

Definition places (es : list (call * text)) (key k : text) : list L :=
  map (fun e => c_loc (fst e)) (filter (fun e => text_eqb (key_of (fst e)) key && text_eqb (snd e) k) es).
Definition tally (l : list L) : option (called L) := match l with [] => None | x :: r => Some {| ca_loc := x; ca_others := List.length r |} end.
Definition known (es : list (call * text)) (u : used) : Prop :=
  NoDup (map fst u) /\
  forall key, match get key u with
    | None => forall k, places es key k = []
    | Some i => k_bad i = [] /\ NoDup (map fst (k_called i)) /\ (forall k, get k (k_called i) = tally (places es key k)) /\
                exists c k, In (c, k) es /\ key_of c = key /\ k_loc i = location (c_proc c)
    end.
Lemma places_snoc es c k key k' : places (es ++ [(c, k)]) key k' = places es key k' ++ (if text_eqb (key_of c) key && text_eqb k k' then [c_loc c] else []).
Proof using Type.
  unfold places. rewrite filter_app, map_app. f_equal. cbn [filter fst snd]. destruct (text_eqb (key_of c) key && text_eqb k k'); reflexivity.
Qed.
Lemma known_all es : known es (mark_all es []).
Proof using Type.
  induction es as [|[c k] es IH] using rev_ind.
  - split; [constructor|]. intro key. cbn. reflexivity.
  - unfold mark_all. rewrite fold_left_app. cbn [fold_left fst snd]. fold (mark_all es []). set (u := mark_all es []) in *. clearbody u. destruct IH as [Hd Hk]. unfold Kwargs.mark.
    pose proof (Hk (key_of c)) as Hc. split; [apply ix_nodup; exact Hd|]. intro key. rewrite get_ix. destruct (text_eqb_spec (key_of c) key) as [E|E].
    + subst key. cbn [k_bad k_called k_loc].
      destruct (get (key_of c) u) as [i|].
      * destruct Hc as (H1 & H2 & H3 & c0 & k0 & H4 & H5 & H6). split; [exact H1|]. split; [apply ix_nodup; exact H2|]. split.
        { intro k'. rewrite get_ix, places_snoc, text_eqb_refl. cbn [andb]. destruct (text_eqb_spec k k') as [->|N].
          - rewrite H3. destruct (places es (key_of c) k') as [|x r]; cbn [tally app ca_loc ca_others]; [reflexivity|]. rewrite app_length. cbn [List.length]. rewrite Nat.add_1_r. reflexivity.
          - rewrite app_nil_r. apply H3. }
        exists c0, k0. split; [apply in_or_app; left; exact H4|]. split; [exact H5|exact H6].
      * cbn [k_bad k_called k_loc get List.find ix_insert map fst]. split; [reflexivity|]. split; [constructor; [intros []|constructor]|]. split.
        { intro k'. rewrite places_snoc, text_eqb_refl, Hc. unfold get. cbn [andb app List.find fst snd]. destruct (text_eqb k k'); reflexivity. }
        exists c, k. split; [apply in_or_app; right; left; reflexivity|]. split; reflexivity.
    + specialize (Hk key). assert (E' : text_eqb (key_of c) key = false) by (destruct (text_eqb_spec (key_of c) key); [contradiction|reflexivity]). clear E. rename E' into E. destruct (get key u) as [i|].
      * destruct Hk as (H1 & H2 & H3 & c0 & k0 & H4 & H5 & H6). split; [exact H1|]. split; [exact H2|]. split; [intro k'; rewrite places_snoc, E; cbn [andb]; rewrite app_nil_r; apply H3|].
        exists c0, k0. split; [apply in_or_app; left; exact H4|]. split; [exact H5|exact H6].
      * intro k'. rewrite places_snoc, E. cbn [andb]. rewrite app_nil_r. apply Hk.
Qed.

(** ** The overrides *)
Definition below (key : text) (p : procref) : bool := existsb (fun q => text_eqb (display q) key) (tree_parents t p).
Lemma blame_called p i : k_called (blame p i) = k_called i.
Proof using Type. unfold Kwargs.blame. destruct (missing_of p i); reflexivity. Qed.
Lemma blame_loc p i : k_loc (blame p i) = k_loc i.
Proof using Type. unfold Kwargs.blame. destruct (missing_of p i); reflexivity. Qed.
Lemma missing_blame p q i : missing_of p (blame q i) = missing_of p i.
Proof using Type. unfold Kwargs.missing_of. rewrite blame_called. reflexivity. Qed.
Lemma blame_twice p i : blame p (blame p i) = blame p i.
Proof using Type.
  unfold Kwargs.blame at 1. rewrite missing_blame. unfold Kwargs.blame. destruct (missing_of p i) as [|m ms] eqn:E; [reflexivity|]. cbn [k_loc k_called k_bad]. rewrite ix_same. reflexivity.
Qed.
Lemma check_get u p key : get key (check_kwargs u p) = option_map (fun i => if below key p then blame p i else i) (get key u).
Proof using Type.
  unfold Kwargs.check_kwargs, below. revert u. induction (tree_parents t p) as [|q qs IH]; intro u; cbn [fold_left existsb].
  - destruct (get key u); reflexivity.
  - rewrite IH. clear IH. destruct (get (display q) u) as [i|] eqn:E.
    + rewrite get_ix. destruct (text_eqb_spec (display q) key) as [<-|N]; [|reflexivity]. rewrite E. cbn [option_map orb]. f_equal. destruct (existsb _ qs); [apply blame_twice|reflexivity].
    + destruct (text_eqb_spec (display q) key) as [<-|N]; [rewrite E|]; reflexivity.
Qed.
Lemma check_keys u p : map fst (check_kwargs u p) = map fst u.
Proof using Type.
  unfold Kwargs.check_kwargs. revert u. induction (tree_parents t p) as [|q qs IH]; intro u; cbn [fold_left]; [reflexivity|]. rewrite IH. destruct (get (display q) u) as [i|] eqn:E; [|reflexivity]. eapply ix_fst. exact E.
Qed.
Definition judged (key : text) (ps : list procref) (i : info) : info := fold_left (fun i p => if below key p then blame p i else i) ps i.
Lemma checks_get ps : forall u key, get key (fold_left check_kwargs ps u) = option_map (judged key ps) (get key u).
Proof using Type.
  induction ps as [|p ps IH]; intros u key; cbn [fold_left judged]; [destruct (get key u); reflexivity|]. rewrite IH, check_get. destruct (get key u); reflexivity.
Qed.
Lemma checks_keys ps : forall u, map fst (fold_left check_kwargs ps u) = map fst u.
Proof using Type. induction ps as [|p ps IH]; intro u; cbn [fold_left]; [reflexivity|]. rewrite IH. apply check_keys. Qed.
Lemma judged_called key ps : forall i, k_called (judged key ps i) = k_called i /\ k_loc (judged key ps i) = k_loc i.
Proof using Type.
  induction ps as [|p ps IH]; intro i; [auto|]. change (judged key (p :: ps) i) with (judged key ps (if below key p then blame p i else i)). destruct (IH (if below key p then blame p i else i)) as [-> ->]. destruct (below key p); [split; [apply blame_called|apply blame_loc]|auto].
Qed.
Lemma judged_snoc key ps p i : judged key (ps ++ [p]) i = if below key p then blame p (judged key ps i) else judged key ps i.
Proof using Type. unfold judged. rewrite fold_left_app. reflexivity. Qed.
Lemma missing_judged p key ps i : missing_of p (judged key ps i) = missing_of p i.
Proof using Type. unfold Kwargs.missing_of. rewrite (proj1 (judged_called key ps i)). reflexivity. Qed.
Lemma judged_bad key ps i : k_bad i = [] -> NoDup (map fst (k_bad (judged key ps i))) /\
  forall path b, get path (k_bad (judged key ps i)) = Some b -> exists p, In p ps /\ below key p = true /\ path_of t (pr_ty p) = path /\ b = {| b_missing := missing_of p i; b_loc := location p |} /\ missing_of p i <> [].
Proof using Type.
  intro H0. induction ps as [|p ps [IH1 IH2]] using rev_ind; [cbn [judged fold_left]; rewrite H0; split; [constructor|discriminate]|].
  rewrite judged_snoc. destruct (below key p) eqn:B.
  - unfold Kwargs.blame. rewrite missing_judged. destruct (missing_of p i) as [|m ms] eqn:M.
    + split; [exact IH1|]. intros path b Hb. destruct (IH2 path b Hb) as (p0 & H & R). exists p0. split; [apply in_or_app; left; exact H|exact R].
    + cbn [k_bad]. split; [apply ix_nodup; exact IH1|]. intros path b. rewrite get_ix. destruct (text_eqb_spec (path_of t (pr_ty p)) path) as [E|E].
      * intros [= <-]. exists p. rewrite M. split; [apply in_or_app; right; left; reflexivity|]. split; [exact B|]. split; [exact E|]. split; [reflexivity|discriminate].
      * intro Hb. destruct (IH2 path b Hb) as (p0 & H & R). exists p0. split; [apply in_or_app; left; exact H|exact R].
  - split; [exact IH1|]. intros path b Hb. destruct (IH2 path b Hb) as (p0 & H & R). exists p0. split; [apply in_or_app; left; exact H|exact R].
Qed.
Lemma judged_last key p b : forall a i, below key p = true -> missing_of p i <> [] ->
  (forall p', In p' b -> path_of t (pr_ty p') = path_of t (pr_ty p) -> below key p' = false) ->
  get (path_of t (pr_ty p)) (k_bad (judged key (a ++ p :: b) i)) = Some {| b_missing := missing_of p i; b_loc := location p |}.
Proof using Type.
  intros a i B M. induction b as [|p' b IH] using rev_ind; intro H.
  - rewrite judged_snoc, B. unfold Kwargs.blame. rewrite missing_judged. destruct (missing_of p i) as [|m ms]; [contradiction|]. cbn [k_bad]. rewrite get_ix, text_eqb_refl. reflexivity.
  - change (a ++ p :: b ++ [p']) with (a ++ (p :: b) ++ [p']). rewrite app_assoc, judged_snoc. specialize (IH (fun q Hq => H q (in_or_app b [p'] q (or_introl Hq)))).
    destruct (below key p') eqn:B'; [|exact IH]. unfold Kwargs.blame. rewrite missing_judged. destruct (missing_of p' i) as [|m ms]; [exact IH|]. cbn [k_bad]. rewrite get_ix.
    destruct (text_eqb_spec (path_of t (pr_ty p')) (path_of t (pr_ty p))) as [E|E]; [|exact IH]. rewrite (H p') in B'; [discriminate|apply in_or_app; right; left; reflexivity|exact E].
Qed.

(** ** The tree *)
Variable pre : list preport.
Hypothesis F : finished t pre.
Hypothesis AC : acyclic t.
Hypothesis W : forall i nm q, procs_of t i nm = Some q -> word nm.
Notation defined_ := (defined V D t).
Notation wf_t := (td_wf V D t (finished_tidy V D t pre F)).

Lemma path_shape i : path_of t i = [] \/ exists s, path_of t i = SLASH :: s.
Proof using F.
  unfold path_of, node_at. destruct (nth_error (graph t) i) as [n|] eqn:Hn; [|left; reflexivity]. destruct (at_some V D t wf_t i n Hn) as (cs & _ & m & Hm & E). rewrite Hn in Hm. injection Hm as <-. rewrite E.
  destruct cs as [|c cs]; [left; reflexivity|right; eexists; reflexivity].
Qed.
Lemma path_inj i j : path_of t i = path_of t j -> path_of t i <> [] -> i = j.
Proof using F.
  unfold path_of, node_at. destruct (nth_error (graph t) i) as [n|] eqn:Hn; [|intros _ H; contradiction H; reflexivity]. destruct (nth_error (graph t) j) as [m|] eqn:Hm; [|intros -> H; contradiction H; reflexivity].
  intros E _. destruct (at_some V D t wf_t i n Hn) as (cs & Hcs). apply (at_fun V D t wf_t i j cs Hcs). destruct Hcs as (N & n' & Hn' & P). split; [exact N|]. exists m. split; [exact Hm|]. congruence.
Qed.
Lemma defined_word p : defined_ p -> word (snd (fst p)).
Proof using W. intros (q & H & _). eapply W. exact H. Qed.

Lemma key_is c i nm : word (snd (fst (c_proc c))) -> word nm -> is_root t i = false ->
  text_eqb (key_of c) (path_of t i ++ lit "/proc/" ++ nm) = (c_src c =? i) && text_eqb (snd (fst (c_proc c))) nm.
Proof using F.
  intros W1 W2 R. unfold Kwargs.key_of, pr_name. unfold Kwargs.is_root in R.
  assert (Cut : forall x y a b, word a -> word b -> x ++ lit "/proc/" ++ a = y ++ lit "/proc/" ++ b -> x = y /\ a = b).
  { intros x y a b Wa Wb E. change (lit "/proc/") with (lit "/proc" ++ [SLASH]) in E. rewrite <- !app_assoc in E. cbn [app] in E. rewrite !(app_assoc _ (lit "/proc")) in E.
    apply last_slash in E; [|apply word_slash; assumption|apply word_slash; assumption]. destruct E as [E ->]. apply app_inv_tail in E. auto. }
  apply eq_true_iff_eq. rewrite andb_true_iff, Nat.eqb_eq. split.
  - intro E. apply text_eqb_eq in E. apply Cut in E; [|assumption|assumption]. destruct E as [E ->]. split; [|apply text_eqb_refl]. unfold pretty_path, Kwargs.is_root in E.
    destruct (path_of t (c_src c)) as [|x s] eqn:P.
    + destruct (path_shape i) as [Q|[s' Q]]; rewrite Q in *; discriminate.
    + rewrite <- P in E. apply path_inj; [exact E|rewrite P; discriminate].
  - intros [-> E]. apply text_eqb_eq in E. rewrite E. unfold pretty_path, Kwargs.is_root. destruct (path_of t i); [discriminate|]. apply text_eqb_refl.
Qed.
Lemma key_split c q : word (snd (fst (c_proc c))) -> defined_ q -> display q = key_of c ->
  is_root t (c_src c) = false /\ pr_ty q = c_src c /\ snd (fst q) = snd (fst (c_proc c)) /\ q = (c_src c, snd (fst (c_proc c)), 0) /\ own t (snd (fst (c_proc c))) (c_src c) = [q].
Proof using F W.
  intros Wc Dq E. pose proof (defined_word q Dq) as Wq. destruct q as [[i nm] k]. destruct Dq as (pv & P & K). unfold pr_ty in *. cbn [fst snd] in *. unfold Kwargs.display, pr_ty, pr_name in E. cbn [fst snd] in E. rewrite P in E.
  destruct (Nat.ltb_spec 1 (List.length (p_values pv))) as [H|H].
  - exfalso. unfold Kwargs.key_of, pr_name in E. symmetry in E. revert E.
    set (x := print_N (N.of_nat k)). set (y := print_N (N.of_nat (List.length (p_values pv)))).
    replace (path_of t i ++ lit "/proc/" ++ nm ++ lit "[" ++ x ++ lit "/" ++ y ++ lit "]") with ((path_of t i ++ lit "/proc/" ++ nm ++ lit "[" ++ x ++ lit "/" ++ y) ++ [93%N])
      by (change (lit "]") with [93%N]; rewrite <- !app_assoc; reflexivity).
    rewrite app_assoc. apply word_not_bracket. exact Wc.
  - assert (K0 : k = 0) by lia. subst k. rewrite app_nil_r in E.
    assert (R : is_root t i = false).
    { unfold Kwargs.is_root. destruct (path_of t i) eqn:Pi; [|reflexivity]. exfalso. unfold Kwargs.key_of, pretty_path, Kwargs.is_root in E. destruct (path_shape (c_src c)) as [Q|[s Q]]; rewrite Q in E.
      - apply (f_equal (@hd N 0%N)) in E. vm_compute in E. discriminate.
      - cbn [app] in E. change (lit "/proc/") with (lit "/proc" ++ [SLASH]) in E. rewrite <- !app_assoc in E. cbn [app] in E.
        change (lit "/proc" ++ SLASH :: nm = (SLASH :: s) ++ lit "/proc" ++ SLASH :: snd (fst (c_proc c))) in E. rewrite (app_assoc (SLASH :: s)) in E.
        apply last_slash in E; [|apply word_slash; assumption|apply word_slash; assumption]. destruct E as [E _]. apply (f_equal (@List.length N)) in E. rewrite app_length in E. cbn [List.length] in E. lia. }
    pose proof (key_is c i nm Wc Wq R) as Q. rewrite <- E, text_eqb_refl in Q. symmetry in Q. apply andb_true_iff in Q. destruct Q as [Q1 Q2]. apply Nat.eqb_eq in Q1. apply text_eqb_eq in Q2. subst i nm.
    split; [exact R|]. split; [reflexivity|]. split; [reflexivity|]. split; [reflexivity|]. unfold own. rewrite P. replace (List.length (p_values pv)) with 1 by lia. reflexivity.
Qed.
Lemma display_single i nm : own t nm i = [(i, nm, 0)] -> display (i, nm, 0) = path_of t i ++ lit "/proc/" ++ nm.
Proof using Type.
  unfold own, Kwargs.display, pr_ty, pr_name. cbn [fst snd]. destruct (procs_of t i nm) as [q|]; [|discriminate]. intro E. apply (f_equal (@List.length procref)) in E. rewrite map_length, rev_length, seq_length in E. cbn [List.length] in E.
  rewrite E. cbn [Nat.ltb Nat.leb]. rewrite app_nil_r. reflexivity.
Qed.
Lemma parents_overrides p q : defined_ p -> (In q (tree_parents t p) <-> overrides t p q).
Proof using F AC.
  intro H. split.
  - intro Q. destruct (tree_parents_iff V D t pre F AC p H) as (l & a & C & E). exists a, (tree_parents t p). split; [rewrite <- E; exact C|exact Q].
  - intros (a & b & C & Q). rewrite (parents_chain V D t pre F AC p b a C). exact Q.
Qed.

(** ** Order of the procedures *)
Definition later (p p' : procref) : Prop := pr_ty p = pr_ty p' -> snd (fst p) = snd (fst p') -> snd p < snd p'.
Lemma ordered_app (l1 l2 : list procref) : ForallOrdPairs later l1 -> ForallOrdPairs later l2 -> (forall x y, In x l1 -> In y l2 -> later x y) -> ForallOrdPairs later (l1 ++ l2).
Proof using Type.
  induction 1 as [|x l1 H1 _ IH]; intros H2 H; [exact H2|]. cbn [app]. constructor.
  - apply Forall_app. split; [exact H1|]. apply Forall_forall. intros y Hy. apply H; [left; reflexivity|exact Hy].
  - apply IH; [exact H2|]. intros a b Ha Hb. apply H; [right; exact Ha|exact Hb].
Qed.
Lemma self_ordered i : ForallOrdPairs later (self_procs t i).
Proof using F.
  unfold self_procs, node_at. destruct (nth_error (graph t) i) as [n|] eqn:Hn; [|constructor]. pose proof (finished_keys V D t pre F i n Hn) as N. clear Hn. induction (n_procs n) as [|e l IH]; [constructor|]. cbn [map fst] in N. inversion N as [|? ? N1 N2]; subst. cbn [flat_map]. apply ordered_app; [|exact (IH N2)|].
  - generalize 0 as from. induction (List.length (p_values (snd e))) as [|m IHm]; intro from; cbn [seq map]; constructor; [|apply IHm]. apply Forall_forall. intros y Hy. apply in_map_iff in Hy. destruct Hy as (k & <- & Hk). apply in_seq in Hk. intros _ _. cbn [snd]. lia.
  - intros x y Hx Hy _ E. exfalso. apply in_map_iff in Hx. destruct Hx as (k & <- & _). apply in_flat_map in Hy. destruct Hy as (e' & He' & Hy). apply in_map_iff in Hy. destruct Hy as (k' & <- & _). cbn [fst snd] in E. apply N1. rewrite E. apply in_map. exact He'.
Qed.
Lemma all_ordered : ForallOrdPairs later (all_procs t).
Proof using F.
  assert (T : tree t) by (right; exists pre; exact F). assert (Hz : at_ t 0 []) by (apply (at_zero V D t (tree_wf V D t T)); reflexivity). destruct (C49_recurse V D t 0 [] (List.length (graph t)) T Hz (le_n _)) as (l & paths & E & _ & _ & N & _). unfold all_procs. rewrite E. clear E.
  induction l as [|i l IH]; [constructor|]. inversion N as [|? ? N1 N2]; subst. cbn [flat_map]. apply ordered_app; [apply self_ordered|exact (IH N2)|].
  intros x y Hx Hy E _. exfalso. apply (self_procs_iff V D t pre F) in Hx. apply in_flat_map in Hy. destruct Hy as (j & Hj & Hy). apply (self_procs_iff V D t pre F) in Hy. apply N1. replace i with j by (destruct Hx, Hy; congruence). exact Hj.
Qed.
Lemma ordered_split (l : list procref) : ForallOrdPairs later l -> forall a p b p', l = a ++ p :: b -> In p' b -> later p p'.
Proof using Type.
  induction 1 as [|x l H1 _ IH]; intros a p b p' E Hp; [destruct a; discriminate|]. destruct a as [|y a]; cbn [app] in E; injection E as -> ->.
  - rewrite Forall_forall in H1. apply H1. exact Hp.
  - exact (IH a p b p' eq_refl Hp).
Qed.

(** ** The theorems *)
Section THEOREMS.
Variable cs : list call.
Hypothesis Hcs : forall c, In c cs -> defined_ (c_proc c).
Notation uses := (uses t params cs).

Lemma call_word c : In c cs -> word (snd (fst (c_proc c))).
Proof using Hcs W. intro H. apply defined_word. apply Hcs. exact H. Qed.

Lemma uses_places i nm k : word nm -> is_root t i = false -> places (marked cs) (path_of t i ++ lit "/proc/" ++ nm) k = uses i nm k.
Proof using F Hcs W.
  intros Wn R. unfold places, marked, KwargsSpec.uses. assert (Hw := call_word). revert Hw. clear Hcs. induction cs as [|c l IH]; intro Hw; [reflexivity|]. cbn [flat_map]. rewrite filter_app, map_app. f_equal; [|apply IH; intros c' H'; apply Hw; right; exact H'].
  specialize (Hw c (or_introl eq_refl)). pose proof (key_is c i nm Hw Wn R) as Q. clear IH. unfold marked_args.
  assert (E : existsb (text_eqb k) (parameters t params (c_proc c)) = has_param (c_proc c) k).
  { apply eq_true_iff_eq. rewrite has_param_iff, existsb_exists. split; [intros (x & H & E); apply text_eqb_eq in E; subst; exact H|intro H; exists k; split; [exact H|apply text_eqb_refl]]. }
  rewrite E. clear E. destruct (negb (c_exact c)) eqn:X; cbn [andb].
  2: { induction (c_args c) as [|[k'|] args IHa]; [reflexivity| |]; cbn [flat_map filter map app]; [rewrite andb_false_r|]; exact IHa. }
  destruct ((c_src c =? i) && text_eqb (snd (fst (c_proc c))) nm); cbn [andb].
  2: { induction (c_args c) as [|[k'|] args IHa]; [reflexivity| |]; cbn [flat_map]; [|exact IHa]. rewrite filter_app, map_app, IHa, app_nil_r. destruct (has_param (c_proc c) k' && true); [|reflexivity]. cbn [filter fst snd map]. rewrite Q. reflexivity. }
  destruct (has_param (c_proc c) k) eqn:P.
  - induction (c_args c) as [|[k'|] args IHa]; [reflexivity| |]; cbn [flat_map]; [|exact IHa]. rewrite filter_app, map_app, IHa. cbn [filter]. destruct (text_eqb_spec k k') as [<-|N].
    + rewrite P. cbn [andb filter fst snd map]. rewrite Q, text_eqb_refl. reflexivity.
    + destruct (has_param (c_proc c) k'); cbn [andb filter fst snd map]; [|reflexivity]. rewrite Q. destruct (text_eqb_spec k' k); [congruence|]. reflexivity.
  - induction (c_args c) as [|[k'|] args IHa]; [reflexivity| |]; cbn [flat_map]; [|exact IHa]. rewrite filter_app, map_app, IHa, app_nil_r. destruct (has_param (c_proc c) k') eqn:P'; cbn [andb filter fst snd map]; [|reflexivity].
    rewrite Q. destruct (text_eqb_spec k' k); [congruence|]. reflexivity.
Qed.

Lemma run_reports : snd (run cs) = finish L (fold_left check_kwargs (all_procs t) (mark_all (marked cs) [])).
Proof using Type. unfold Kwargs.run. pose proof (visit_calls_used cs []) as H. destruct (visit_calls cs []) as [u l]. cbn [fst snd] in *. rewrite H. reflexivity. Qed.
Lemma report_in r : In r (snd (run cs)) <-> exists key i, get key (mark_all (marked cs) []) = Some i /\ let j := judged key (all_procs t) i in k_bad j <> [] /\
  r = {| r_base := key; r_loc := k_loc i; r_overrides := k_bad j;
         r_calls := filter (fun a => existsb (fun b => existsb (text_eqb (fst a)) (b_missing (snd b))) (k_bad j)) (k_called i) |}.
Proof using Type.
  rewrite run_reports. destruct (known_all (marked cs)) as [Nd _]. set (u := mark_all (marked cs) []) in *. unfold finish. rewrite in_flat_map. split.
  - intros ([key j] & He & H). apply get_of in He; [|rewrite checks_keys; exact Nd]. rewrite checks_get in He. destruct (get key u) as [i|] eqn:Eu; [|discriminate]. cbn [option_map] in He. injection He as <-. exists key, i. split; [exact Eu|]. cbv zeta.
    unfold report_of in H. cbn [fst snd] in H. destruct (judged_called key (all_procs t) i) as [E1 E2]. rewrite E1, E2 in H. destruct (k_bad (judged key (all_procs t) i)) as [|b0 bs]; [destruct H|]. destruct H as [<-|[]]. split; [discriminate|reflexivity].
  - intros (key & i & Eu & H). cbv zeta in H. destruct H as [H ->]. exists (key, judged key (all_procs t) i). split.
    + apply get_in. rewrite checks_get, Eu. reflexivity.
    + unfold report_of. cbn [fst snd]. destruct (judged_called key (all_procs t) i) as [E1 E2]. rewrite E1, E2. destruct (k_bad (judged key (all_procs t) i)) as [|b0 bs]; [contradiction|]. left. reflexivity.
Qed.
Lemma missing_iff key i k p : get key (mark_all (marked cs) []) = Some i -> (In k (missing_of p i) <-> places (marked cs) key k <> [] /\ ~ In k (parameters t params p)).
Proof using Type.
  intro E. destruct (known_all (marked cs)) as [_ Hk]. specialize (Hk key). rewrite E in Hk. destruct Hk as (_ & Nd & Hk & _). unfold Kwargs.missing_of. rewrite filter_In, negb_true_iff, <- not_true_iff_false, has_param_iff. apply and_iff_compat_r. specialize (Hk k). split.
  - intros H Q. rewrite Q in Hk. apply get_none in Hk. contradiction.
  - intro H. destruct (places (marked cs) key k) as [|x r]; [contradiction H; reflexivity|]. cbn [tally] in Hk. apply get_in in Hk. apply in_map_iff. eexists. split; [|exact Hk]. reflexivity.
Qed.
Lemma below_iff key i p : get key (mark_all (marked cs) []) = Some i -> defined_ p ->
  (below key p = true <-> exists src nm, is_root t src = false /\ word nm /\ key = path_of t src ++ lit "/proc/" ++ nm /\ own t nm src = [(src, nm, 0)] /\ overrides t p (src, nm, 0)).
Proof using F AC W Hcs.
  intros E Dp. destruct (known_all (marked cs)) as [_ Hk]. specialize (Hk key). rewrite E in Hk. destruct Hk as (_ & _ & _ & c & k & Hc & Ek & _).
  assert (Hin : In c cs). { unfold marked in Hc. apply in_flat_map in Hc. destruct Hc as (c' & H1 & H2). unfold marked_args in H2. apply in_flat_map in H2. destruct H2 as ([k'|] & _ & H2); [|destruct H2]. destruct (has_param (c_proc c') k' && negb (c_exact c')); [destruct H2 as [[= <- _]|[]]; exact H1|destruct H2]. }
  unfold below. rewrite existsb_exists. split.
  - intros (q & Hq & Eq). apply text_eqb_eq in Eq. rewrite <- Ek in Eq. assert (Dq : defined_ q).
    { apply (parents_overrides p q Dp) in Hq. destruct Hq as (a & b & C & Hb). destruct (chain_nodup V D t AC _ _ _ C) as [_ I]. apply I. apply in_or_app. right. right. exact Hb. }
    destruct (key_split c q (call_word c Hin) Dq Eq) as (R & T & Nm & Q & O). exists (c_src c), (snd (fst (c_proc c))). split; [exact R|]. split; [apply call_word; exact Hin|]. rewrite <- Q. split; [|split; [exact O|apply (parents_overrides p q Dp); exact Hq]].
    rewrite <- Ek. unfold Kwargs.key_of, pretty_path. rewrite R. reflexivity.
  - intros (src & nm & R & _ & -> & O & Ov). exists (src, nm, 0). split; [apply (parents_overrides p _ Dp); exact Ov|]. rewrite (display_single src nm O). apply text_eqb_refl.
Qed.
Lemma base_unique i nm i' nm' : is_root t i = false -> word nm -> is_root t i' = false -> word nm' ->
  path_of t i ++ lit "/proc/" ++ nm = path_of t i' ++ lit "/proc/" ++ nm' -> i = i' /\ nm = nm'.
Proof using F.
  intros R1 W1 R2 W2 E. change (lit "/proc/") with (lit "/proc" ++ [SLASH]) in E. rewrite <- !app_assoc in E. cbn [app] in E. rewrite !(app_assoc _ (lit "/proc")) in E.
  apply last_slash in E; [|apply word_slash; assumption|apply word_slash; assumption]. destruct E as [E ->]. apply app_inv_tail in E. split; [|reflexivity]. apply path_inj; [exact E|]. unfold Kwargs.is_root in R1. destruct (path_of t i); discriminate.
Qed.

(** C66: an error about overrides is about a procedure that a type defines once and that calls on this very type name
    arguments of; it has a note for the types with overrides that lack some of the arguments, saying exactly which, and one for each of
    these arguments, saying where it was first used and how many more times. *)
Theorem C66_sound : forall r, In r (snd (run cs)) -> exists i nm,
  is_root t i = false /\ r_base r = path_of t i ++ lit "/proc/" ++ nm /\ own t nm i = [(i, nm, 0)] /\ r_overrides r <> [] /\
  NoDup (map fst (r_overrides r)) /\
  (forall path b, In (path, b) (r_overrides r) -> exists p, defined_ p /\ path_of t (pr_ty p) = path /\ overrides t p (i, nm, 0) /\ b_loc b = location p /\
     b_missing b <> [] /\ forall k, In k (b_missing b) <-> uses i nm k <> [] /\ ~ In k (parameters t params p)) /\
  (forall k a, In (k, a) (r_calls r) <-> (exists path b, In (path, b) (r_overrides r) /\ In k (b_missing b)) /\
     exists first more, uses i nm k = first :: more /\ ca_loc a = first /\ ca_others a = List.length more).
Proof using F AC W Hcs.
  intros r Hr. apply report_in in Hr. destruct Hr as (key & i0 & Eu & Hbad & ->). cbn [r_base r_overrides r_calls].
  destruct (known_all (marked cs)) as [_ Hk]. specialize (Hk key). rewrite Eu in Hk. destruct Hk as (B0 & Ndc & Hk & _).
  destruct (judged_bad key (all_procs t) i0 B0) as [Nd Hj].
  assert (First : exists p, In p (all_procs t) /\ below key p = true).
  { destruct (k_bad (judged key (all_procs t) i0)) as [|[path b] l] eqn:El; [contradiction|]. destruct (Hj path b) as (p & H1 & H2 & _); [unfold get; cbn [List.find fst]; rewrite text_eqb_refl; reflexivity|]. exists p. auto. }
  destruct First as (p0 & Hp0 & Bp0). apply (all_procs_iff V D t pre F) in Hp0. apply (below_iff key i0 p0 Eu Hp0) in Bp0. destruct Bp0 as (i & nm & R & Wn & -> & O & _). exists i, nm.
  assert (U : forall k, places (marked cs) (path_of t i ++ lit "/proc/" ++ nm) k = uses i nm k) by (intro k; apply uses_places; assumption).
  do 3 (split; [first [exact R|reflexivity|exact O]|]). split; [exact Hbad|]. split; [exact Nd|]. split.
  - intros path b Hb. apply (get_of _ _ _ Nd) in Hb. destruct (Hj path b Hb) as (p & H1 & H2 & H3 & -> & H5). exists p. apply (all_procs_iff V D t pre F) in H1. split; [exact H1|]. split; [exact H3|].
    split. { apply (below_iff _ i0 p Eu H1) in H2. destruct H2 as (i' & nm' & R' & W' & E' & _ & Ov). destruct (base_unique i nm i' nm' R Wn R' W' E') as [-> ->]. exact Ov. }
    cbn [b_loc b_missing]. split; [reflexivity|]. split; [exact H5|]. intro k. rewrite <- U. apply (missing_iff _ i0); exact Eu.
  - intros k a. rewrite filter_In. cbn [fst]. rewrite <- (get_iff k (k_called i0) a Ndc), Hk, U, existsb_exists. split.
    + intros [H1 ([path b] & Hb & H2)]. cbn [snd] in H2. apply existsb_exists in H2. destruct H2 as (k' & Hk' & E). apply text_eqb_eq in E. subst k'. split; [exists path, b; auto|]. destruct (uses i nm k) as [|x r]; [discriminate|]. cbn [tally] in H1. injection H1 as <-. exists x, r. auto.
    + intros [(path & b & Hb & Hk') (x & r & E & H1 & H2)]. rewrite E. cbn [tally]. split; [destruct a as [al ao]; cbn [ca_loc ca_others] in *; subst; reflexivity|]. exists (path, b). split; [exact Hb|]. cbn [snd]. apply existsb_exists. exists k. split; [exact Hk'|apply text_eqb_refl].
Qed.

(** C66: if the type defines the procedure, once, an override that a call can find and that lacks a used argument is reported. *)
Theorem C66_complete_partial : forall i nm k p, is_root t i = false -> own t nm i = [(i, nm, 0)] -> overrides t p (i, nm, 0) -> effective t p ->
  uses i nm k <> [] -> ~ In k (parameters t params p) ->
  exists r b, In r (snd (run cs)) /\ r_base r = path_of t i ++ lit "/proc/" ++ nm /\ In (path_of t (pr_ty p), b) (r_overrides r) /\ In k (b_missing b) /\ b_loc b = location p.
Proof using F AC W Hcs.
  intros i nm k p R O Ov (q & Pq & Lq) Hu Hk.
  assert (Wn : word nm). { unfold own in O. destruct (procs_of t i nm) as [q'|] eqn:E; [|discriminate]. eapply W. exact E. }
  assert (Dp : defined_ p) by (exists q; split; [exact Pq|lia]).
  set (key := path_of t i ++ lit "/proc/" ++ nm). pose proof (uses_places i nm k Wn R) as U. fold key in U.
  destruct (get key (mark_all (marked cs) [])) as [i0|] eqn:Eu.
  2: { exfalso. destruct (known_all (marked cs)) as [_ Hn]. specialize (Hn key). rewrite Eu in Hn. rewrite <- U in Hu. apply Hu, Hn. }
  assert (Bp : below key p = true). { apply (below_iff key i0 p Eu Dp). exists i, nm. auto. }
  assert (Hm : In k (missing_of p i0)) by (apply (missing_iff key i0 k p Eu); rewrite U; auto).
  assert (Hin : In p (all_procs t)) by (apply (all_procs_iff V D t pre F); exact Dp). apply in_split in Hin. destruct Hin as (a & b & El).
  assert (Ty : path_of t (pr_ty p) <> []).
  { intro E0. destruct Ov as (x & y & C & Hy). destruct (chain_nodup V D t AC _ _ _ C) as [N I]. 
    assert (Hp : pr_ty p = 0).
    { unfold path_of, node_at in E0. unfold procs_of, node_at in Pq. destruct (nth_error (graph t) (pr_ty p)) as [n|] eqn:Hn; [|discriminate]. destruct (at_some V D t wf_t _ _ Hn) as (ds & Hds). pose proof Hds as (_ & m & Hm' & Em).
      rewrite Hn in Hm'. injection Hm' as <-. rewrite E0 in Em. destruct ds; [|discriminate]. apply (at_zero V D t wf_t). exact Hds. }
    assert (S : subtype t (pr_ty p) i) by (apply (I (i, nm, 0)); apply in_or_app; right; right; exact Hy). rewrite Hp in S.
    assert (No : parent_type t 0 = None). { unfold parent_type, node_at. destruct (nth_error (graph t) 0) as [n|] eqn:Hn; [|reflexivity]. rewrite (td_root V D t (finished_tidy V D t pre F) n Hn). reflexivity. }
    apply clos_rt_rt1n in S. destruct S as [|z w S1 _]; [unfold Kwargs.is_root in R; rewrite <- Hp, E0 in R; discriminate|]. change (parent_type t 0 = Some z) in S1. congruence. }
  assert (G : get (path_of t (pr_ty p)) (k_bad (judged key (all_procs t) i0)) = Some {| b_missing := missing_of p i0; b_loc := location p |}).
  { rewrite El. apply judged_last; [exact Bp|intro E; rewrite E in Hm; destruct Hm|]. intros p' Hp' Ep. destruct (below key p') eqn:B'; [|reflexivity]. exfalso.
    assert (Dp' : defined_ p') by (apply (all_procs_iff V D t pre F); rewrite El; apply in_or_app; right; right; exact Hp').
    assert (T : pr_ty p' = pr_ty p) by (apply path_inj; [exact Ep|rewrite Ep; exact Ty]).
    assert (Nm : snd (fst p') = snd (fst p)).
    { apply (below_iff key i0 p' Eu Dp') in B'. destruct B' as (i' & nm' & R' & W' & E' & _ & Ov'). destruct (base_unique i nm i' nm' R Wn R' W' E') as [<- <-].
      destruct Ov as (x & y & C & Hy), Ov' as (x' & y' & C' & Hy'). destruct (chain_nodup V D t AC _ _ _ C) as [_ I], (chain_nodup V D t AC _ _ _ C') as [_ I'].
      destruct (I (i, nm, 0)) as (_ & _ & N1); [apply in_or_app; right; right; exact Hy|]. destruct (I' (i, nm, 0)) as (_ & _ & N2); [apply in_or_app; right; right; exact Hy'|]. congruence. }
    pose proof (ordered_split _ all_ordered a p b p' El Hp' (eq_sym T) (eq_sym Nm)) as Lt. destruct Dp' as (q' & Pq' & Lq'). rewrite T, Nm, Pq in Pq'. injection Pq' as <-. lia. }
  eexists. exists {| b_missing := missing_of p i0; b_loc := location p |}. split; [apply report_in; exists key, i0; split; [exact Eu|]; cbv zeta; split; [|reflexivity]|].
  - intro E. rewrite E in G. discriminate.
  - cbn [r_base r_overrides b_missing b_loc]. split; [reflexivity|]. split; [apply get_in; exact G|]. split; [exact Hm|reflexivity].
Qed.
(** ** The complaints about the calls themselves *)
Lemma within_once p : NoDup (tree_within t p (pr_ty p)).
Proof using F AC.
  unfold tree_within, recurse_children_within. destruct (Nat.lt_ge_cases (pr_ty p) (List.length (graph t))) as [Hr|Hr].
  - destruct (C50_subtypes V D t pre (pr_ty p) _ F AC Hr (le_n _)) as (l & E & N & _). rewrite E. cbn [option_map]. rewrite <- flat_map_concat_map. clear E. induction N as [|j l Hj _ IH]; [constructor|]. cbn [flat_map].
    unfold visible at 1. destruct (procs_of t j (snd (fst p))) as [q|]; [|exact IH]. cbn [app]. constructor; [|exact IH]. intro Q. apply in_flat_map in Q. destruct Q as (j' & Hj' & Q). unfold visible in Q. destruct (procs_of t j' (snd (fst p))); [|destruct Q]. destruct Q as [[= -> _]|[]]. contradiction.
  - assert (E : tree_within t p (pr_ty p) = []).
    { destruct (tree_within t p (pr_ty p)) as [|c r] eqn:Ec; [reflexivity|]. exfalso. assert (H : dispatches t p (pr_ty p) c) by (apply (within_iff V D t pre F AC); rewrite Ec; left; reflexivity). destruct H as (j & q & S & P & _).
      assert (j = pr_ty p). { apply clos_rt_rtn1 in S. destruct S as [|y z H1 _]; [reflexivity|]. apply (parent_bound V D t) in H1. lia. } subst j. unfold procs_of, node_at in P. assert (En : nth_error (graph t) (pr_ty p) = None) by (apply nth_error_None; exact Hr). rewrite En in P. discriminate. }
    unfold tree_within, recurse_children_within in E. rewrite E. constructor.
Qed.

Definition arg_complaints (c : call) (any : bool) (a : option text) : list (complaint L) :=
  match a with
  | Some name => if has_param (c_proc c) name then [] else [BadKeyword (c_loc c) name (c_proc c) (elsewhere_of t params (c_proc c) name)]
  | None => if any && negb (is_root t (pr_ty (c_proc c)) && text_eqb (pr_name (c_proc c)) (lit "animate")) then [AfterKeyword (c_loc c) (c_proc c)] else []
  end.
Definition named (args : list (option text)) : bool := existsb (fun a => match a with Some _ => true | None => false end) args.
Lemma visit_args_complaints c : forall args any u, snd (visit_args c any args u) =
  flat_map (fun n => match nth_error args n with Some a => arg_complaints c (any || named (firstn n args)) a | None => [] end) (seq 0 (List.length args)).
Proof using Type.
  induction args as [|a args IH]; intros any u; [reflexivity|]. cbn [List.length seq flat_map nth_error firstn named existsb]. rewrite orb_false_r. rewrite <- seq_shift, flat_map_concat_map, map_map, <- flat_map_concat_map.
  assert (G : forall any' u', any' = any || (match a with Some _ => true | None => false end) -> snd (visit_args c any' args u') =
    flat_map (fun n => match nth_error (a :: args) (S n) with Some b => arg_complaints c (any || named (firstn (S n) (a :: args))) b | None => [] end) (seq 0 (List.length args))).
  { intros any' u' ->. rewrite IH. apply flat_map_ext. intro n. cbn [nth_error firstn named existsb]. destruct (nth_error args n); [|reflexivity]. unfold named. rewrite orb_assoc. reflexivity. }
  cbn [Kwargs.visit_args]. destruct a as [name|].
  - rewrite orb_true_r in G. unfold arg_complaints at 1. destruct (has_param (c_proc c) name); cbn [negb].
    + destruct (c_exact c); cbn [negb]; [rewrite <- (G true u eq_refl); destruct (visit_args c true args u)|rewrite <- (G true (mark c name u) eq_refl); destruct (visit_args c true args (mark c name u))]; reflexivity.
    + rewrite <- (G true u eq_refl). destruct (visit_args c true args u). reflexivity.
  - rewrite orb_false_r in G. rewrite <- (G any u eq_refl). destruct (visit_args c any args u). reflexivity.
Qed.

(** C66: what is said about a call, argument by argument.  A name is refused if the called procedure does not have it, and all overrides
    on other types that have it are pointed out; an argument without a name is refused after one with a name, but for the global
    procedure [animate]. *)
Theorem C66_calls : exists per : call -> nat -> list (complaint L),
  fst (run cs) = flat_map (fun c => flat_map (per c) (seq 0 (List.length (c_args c)))) cs /\
  forall c n a, nth_error (c_args c) n = Some a -> let p := c_proc c in
    (forall name, a = Some name -> In name (parameters t params p) -> per c n = []) /\
    (forall name, a = Some name -> ~ In name (parameters t params p) -> exists others, per c n = [BadKeyword (c_loc c) name p others] /\
       NoDup others /\ forall o, In o others <-> dispatches t p (pr_ty p) o /\ pr_ty o <> pr_ty p /\ In name (parameters t params o)) /\
    (a = None -> (exists m k, m < n /\ nth_error (c_args c) m = Some (Some k)) -> path_of t (pr_ty p) <> [] \/ snd (fst p) <> lit "animate" -> per c n = [AfterKeyword (c_loc c) p]) /\
    (a = None -> (forall m k, m < n -> nth_error (c_args c) m <> Some (Some k)) \/ path_of t (pr_ty p) = [] /\ snd (fst p) = lit "animate" -> per c n = []).
Proof using F AC.
  exists (fun c n => match nth_error (c_args c) n with Some a => arg_complaints c (named (firstn n (c_args c))) a | None => [] end). split.
  { unfold Kwargs.run. assert (G : forall l u, snd (visit_calls l u) = flat_map (fun c => flat_map (fun n => match nth_error (c_args c) n with Some a => arg_complaints c (named (firstn n (c_args c))) a | None => [] end) (seq 0 (List.length (c_args c)))) l).
    { induction l as [|c l IH]; intro u; [reflexivity|]. cbn [Kwargs.visit_calls flat_map]. pose proof (visit_args_complaints c (c_args c) false u) as H. destruct (visit_args c false (c_args c) u) as [u1 l1]. specialize (IH u1). destruct (visit_calls l u1) as [u2 l2]. cbn [snd orb] in *. rewrite H, IH. reflexivity. }
    specialize (G cs []). destruct (visit_calls cs []) as [u l]. exact G. }
  intros c n a Ha p. rewrite Ha. clear Ha.
  assert (An : is_root t (pr_ty p) && text_eqb (pr_name p) (lit "animate") = true <-> path_of t (pr_ty p) = [] /\ snd (fst p) = lit "animate").
  { rewrite andb_true_iff. unfold Kwargs.is_root, pr_name. split; intros [H1 H2]; (split; [|first [apply text_eqb_eq; exact H2|rewrite H2; apply text_eqb_refl]]); destruct (path_of t (pr_ty p)); congruence. }
  assert (Na : named (firstn n (c_args c)) = true <-> exists m k, m < n /\ nth_error (c_args c) m = Some (Some k)).
  { unfold named. rewrite existsb_exists. split.
    - intros ([k|] & H & E); [|discriminate]. apply In_nth_error in H. destruct H as (m & H). exists m, k. assert (m < n). { pose proof (nth_error_Some (firstn n (c_args c)) m) as Q. rewrite H in Q. rewrite firstn_length in Q. assert (Some (Some k) <> None) by discriminate. apply Q in H0. lia. }
      split; [exact H0|]. rewrite <- H. rewrite <- (firstn_skipn n (c_args c)) at 1. rewrite nth_error_app1; [reflexivity|]. apply nth_error_Some. rewrite H. discriminate.
    - intros (m & k & Hm & H). exists (Some k). split; [|reflexivity]. apply nth_error_In with m. rewrite <- (firstn_skipn n (c_args c)) in H. rewrite nth_error_app1 in H; [exact H|]. rewrite firstn_length. apply Nat.min_glb_lt; [exact Hm|].
      apply nth_error_Some. rewrite firstn_skipn in H. rewrite H. discriminate. }
  split; [|split; [|split]].
  - intros name -> H. cbn [arg_complaints]. apply has_param_iff in H. unfold p in *. rewrite H. reflexivity.
  - intros name -> H. cbn [arg_complaints]. fold p. destruct (has_param p name) eqn:E; [apply has_param_iff in E; contradiction|]. eexists. split; [reflexivity|]. unfold elsewhere_of. split; [apply NoDup_filter, within_once|]. intro o.
    rewrite filter_In, andb_true_iff, (within_iff V D t pre F AC), has_param_iff, negb_true_iff, Nat.eqb_neq. reflexivity.
  - intros -> H1 H2. cbn [arg_complaints]. fold p. apply Na in H1. rewrite H1. cbn [andb]. destruct (is_root t (pr_ty p) && text_eqb (pr_name p) (lit "animate")); [|reflexivity]. exfalso. destruct (proj1 An eq_refl). tauto.
  - intros -> H. cbn [arg_complaints]. fold p. destruct (named (firstn n (c_args c))); [|reflexivity]. cbn [andb]. destruct H as [H|H].
    + exfalso. destruct (proj1 Na eq_refl) as (m & k & Hm & Hk). exact (H m k Hm Hk).
    + apply An in H. rewrite H. reflexivity.
Qed.
End THEOREMS.
End C66.
