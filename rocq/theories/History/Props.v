(** C22: undo history. *)
From Coq Require Import List Arith Lia Bool.
From Verif Require Import History.Model History.Spec.
Import ListNotations.

Section Proofs.
  Context {T E : Type} (env : E) (t0 : T).
  Notation history := (history T E).
  Notation session := (session T E).

  Definition replay (fs : list (@redo_fn T E)) : T := fold_left (apply env) fs t0.

  Lemma parent_lt : forall (s : session) n p f, (forall m q g, nth_error (made s) m = Some (q, g) -> q <= m) ->
    parent s n = Some (p, f) -> p < n.
  Proof. intros s [|n] p f W H; [discriminate|]. apply W in H. lia. Qed.

  (** the history simulates the session *)
  Record sim (h : history) (s : session) : Prop := {
    sim_nodes : nodes h = S (length (made s));
    sim_idx : idx h = at_ s;
    sim_clean : clean_idx h = saved_at s;
    sim_edges : forall i, nth_error (made s) i =
      option_map (fun e => (source e, e_redo e)) (nth_error (edges h) i);
    sim_targets : forall i e, nth_error (edges h) i = Some e -> target e = S i;
    sim_len : length (edges h) = length (made s);
    sim_wf : forall m q g, nth_error (made s) m = Some (q, g) -> q <= m;
    sim_at : at_ s <= length (made s);
    sim_saved : saved_at s <= length (made s);
    sim_rev : forall m q g, nth_error (made s) m = Some (q, g) -> reversible env g;
    sim_doc : exists fs, path s (at_ s) fs /\ current h = replay fs;
    sim_undo : forall i e fs, nth_error (edges h) i = Some e -> path s (source e) fs ->
      e_undo e env (apply env (replay fs) (e_redo e)) = replay fs }.

  Lemma path_unique : forall (s : session) n fs1 fs2, path s n fs1 -> path s n fs2 -> fs1 = fs2.
  Proof.
    intros s n fs1 fs2 H. revert fs2. induction H as [|n p f fs Hp _ IH]; intros fs2 H2.
    - inversion H2 as [|n' p' f' fs' Hp' _]; subst; [reflexivity | discriminate].
    - inversion H2 as [|n' p' f' fs' Hp' Hpath]; subst; [discriminate|].
      rewrite Hp in Hp'. injection Hp' as <- <-. rewrite (IH _ Hpath). reflexivity.
  Qed.

  Lemma path_exists : forall (s : session), (forall m q g, nth_error (made s) m = Some (q, g) -> q <= m) ->
    forall n, n <= length (made s) -> exists fs, path s n fs.
  Proof.
    intros s W n. induction n as [n IH] using lt_wf_ind. intro Hn.
    destruct n as [|n]; [exists []; constructor|].
    destruct (nth_error (made s) n) as [[p f]|] eqn:En; [|apply nth_error_None in En; lia].
    pose proof (W _ _ _ En) as Hp. destruct (IH p ltac:(lia) ltac:(lia)) as [fs Hfs].
    exists (fs ++ [f]). apply path_edit with p; [exact En | exact Hfs].
  Qed.

  (** paths only depend on [made], and survive new edits *)
  Lemma path_extend : forall (s s' : session) x, made s' = made s ++ x ->
    (forall m q g, nth_error (made s) m = Some (q, g) -> q <= m) ->
    forall n fs, n <= length (made s) -> (path s' n fs <-> path s n fs).
  Proof.
    intros s s' x Hm W. assert (Hpar : forall n, n <= length (made s) -> parent s' n = parent s n).
    { intros [|n] Hn; [reflexivity|]. cbn [parent]. rewrite Hm. apply nth_error_app1. lia. }
    intro n. induction n as [n IH] using lt_wf_ind. intros fs Hn. split; intro H.
    - inversion H as [|n' p f fs' Hp Hpath]; subst; [constructor|].
      rewrite Hpar in Hp by exact Hn. pose proof (parent_lt _ _ _ _ W Hp) as Hlt.
      apply path_edit with p; [exact Hp|]. apply IH; [exact Hlt | lia | exact Hpath].
    - inversion H as [|n' p f fs' Hp Hpath]; subst; [constructor|].
      pose proof (parent_lt _ _ _ _ W Hp) as Hlt.
      apply path_edit with p; [rewrite Hpar by exact Hn; exact Hp|]. apply IH; [exact Hlt | lia | exact Hpath].
  Qed.

  Lemma path_made : forall (s s' : session), made s' = made s -> forall n fs, path s n fs -> path s' n fs.
  Proof.
    intros s s' H n fs P. induction P as [|n p f fs Hp _ IH]; [constructor|].
    apply path_edit with p; [|exact IH]. destruct n; [discriminate|]. cbn [parent] in *. rewrite H. exact Hp.
  Qed.

  Lemma replay_app : forall fs f, replay (fs ++ [f]) = apply env (replay fs) f.
  Proof. intros. unfold replay. rewrite fold_left_app. reflexivity. Qed.

  Lemma sim_start : sim (new t0) (@start T E).
  Proof.
    split; cbn; try reflexivity; try lia; try (intros [|i]; reflexivity);
      try (intros [|i] ? H; discriminate); try (intros [|i] ? ? H; discriminate).
    exists []. split; [constructor | reflexivity].
  Qed.

  (** ** lookups in the edge list *)
  Lemma in_with_ids : forall (l : list (edge T E)) i j e,
    In (j, e) (with_ids i l) <-> i <= j /\ nth_error l (j - i) = Some e.
  Proof.
    induction l as [|x l IH]; intros i j e; cbn [with_ids In].
    - split; [tauto|]. intros [_ H]. destruct (j - i); discriminate.
    - rewrite IH. split.
      + intros [H|[H1 H2]].
        * injection H as <- <-. rewrite Nat.sub_diag. split; [lia | reflexivity].
        * split; [lia|]. replace (j - i) with (S (j - S i)) by lia. exact H2.
      + intros [H1 H2]. destruct (Nat.eq_dec i j) as [<-|Hne].
        * left. rewrite Nat.sub_diag in H2. injection H2 as ->. reflexivity.
        * right. split; [lia|]. replace (j - i) with (S (j - S i)) in H2 by lia. exact H2.
  Qed.

  Lemma last_rev : forall A (l : list A), last_opt (rev l) = hd_error l.
  Proof.
    intros A [|x l]; [reflexivity|]. cbn [rev hd_error].
    induction (rev l) as [|y k IH]; [reflexivity|].
    cbn [app last_opt]. destruct (k ++ [x]) eqn:Ek; [destruct k; discriminate|]. exact IH.
  Qed.

  (** the first edge satisfying a test, by id *)
  Lemma hd_filter : forall (test : edge T E -> bool) l i,
    match hd_error (filter (fun p => test (snd p)) (with_ids i l)) with
    | Some (j, e) => i <= j /\ nth_error l (j - i) = Some e /\ test e = true /\
        (forall j' e', i <= j' -> nth_error l (j' - i) = Some e' -> test e' = true -> j <= j')
    | None => forall j' e', i <= j' -> nth_error l (j' - i) = Some e' -> test e' = false
    end.
  Proof.
    induction l as [|x l IH]; intro i; cbn [with_ids filter hd_error].
    - intros j' e' _ H. destruct (j' - i); discriminate.
    - cbn [snd]. destruct (test x) eqn:Ex; cbn [hd_error].
      + rewrite Nat.sub_diag. split; [lia|]. split; [reflexivity|]. split; [exact Ex|]. intros; assumption.
      + specialize (IH (S i)). destruct (hd_error _) as [[j e]|].
        * destruct IH as (H1 & H2 & H3 & H4). split; [lia|]. split; [|split; [exact H3|]].
          -- replace (j - i) with (S (j - S i)) by lia. exact H2.
          -- intros j' e' Hj Hn Ht. destruct (Nat.eq_dec i j') as [<-|Hne].
             ++ rewrite Nat.sub_diag in Hn. injection Hn as <-. congruence.
             ++ apply (H4 j' e'); [lia| |exact Ht]. replace (j' - i) with (S (j' - S i)) in Hn by lia. exact Hn.
        * intros j' e' Hj Hn. destruct (Nat.eq_dec i j') as [<-|Hne].
          -- rewrite Nat.sub_diag in Hn. injection Hn as <-. exact Ex.
          -- apply (IH j' e'); [lia|]. replace (j' - i) with (S (j' - S i)) in Hn by lia. exact Hn.
  Qed.

  Lemma set_undo_nth : forall (l : list (edge T E)) i u j,
    nth_error (set_undo l i u) j =
    if Nat.eqb j i then option_map (fun e => {| source := source e; target := target e; e_redo := e_redo e; e_undo := u |}) (nth_error l j)
    else nth_error l j.
  Proof.
    induction l as [|x l IH]; intros [|i] u [|j]; cbn [set_undo nth_error Nat.eqb option_map]; try reflexivity.
    - destruct (Nat.eqb j i); reflexivity.
    - rewrite IH. reflexivity.
  Qed.
  Lemma set_undo_length : forall (l : list (edge T E)) i u, length (set_undo l i u) = length l.
  Proof. induction l as [|x l IH]; intros [|i] u; cbn [set_undo length]; auto. Qed.

  Lemma edge_of : forall h s m p f, sim h s -> parent s (S m) = Some (p, f) ->
    exists e, nth_error (edges h) m = Some e /\ source e = p /\ e_redo e = f /\ target e = S m.
  Proof.
    intros h s m p f S H. cbn [parent] in H. rewrite (sim_edges _ _ S) in H.
    destruct (nth_error (edges h) m) as [e|] eqn:Ee; [|discriminate]. injection H as H1 H2.
    exists e. split; [reflexivity|]. split; [exact H1|]. split; [exact H2|]. apply (sim_targets _ _ S _ _ Ee).
  Qed.

  Lemma edit_sim : forall h s f, sim h s -> reversible env f ->
    sim (edit env f h) {| made := made s ++ [(at_ s, f)]; at_ := S (length (made s)); saved_at := saved_at s |}.
  Proof.
    intros h s f S Hf. destruct S as [S1 S2 S3 S4 S5 S6 S7 S8 S9 S10 S11 S12] eqn:ES. clear ES.
    unfold edit. destruct (f env (current h)) as [t u] eqn:Ef.
    set (s' := {| made := made s ++ [(at_ s, f)]; at_ := Datatypes.S (length (made s)); saved_at := saved_at s |}).
    assert (Hext : forall n fs, n <= length (made s) -> (path s' n fs <-> path s n fs)).
    { apply path_extend with (x := [(at_ s, f)]); [reflexivity | exact S7]. }
    assert (Hnth : forall m q g, nth_error (made s ++ [(at_ s, f)]) m = Some (q, g) ->
       nth_error (made s) m = Some (q, g) \/ (m = length (made s) /\ q = at_ s /\ g = f)).
    { intros m q g H. destruct (Nat.lt_ge_cases m (length (made s))) as [L|L].
      - left. rewrite nth_error_app1 in H by exact L. exact H.
      - right. rewrite nth_error_app2 in H by exact L. destruct (m - length (made s)) as [|k] eqn:Ek.
        + injection H as <- <-. split; [lia|]. auto.
        + destruct k; discriminate. }
    destruct S11 as (fs & Hp & Hc).
    split; cbn [nodes idx clean_idx edges current made at_ saved_at];
      try change (made s') with (made s ++ [(at_ s, f)]); try change (at_ s') with (Datatypes.S (length (made s)));
      try change (saved_at s') with (saved_at s).
    - rewrite app_length. cbn [length]. lia.
    - exact S1.
    - exact S3.
    - intro i. destruct (Nat.lt_ge_cases i (length (made s))) as [L|L].
      + rewrite !nth_error_app1 by lia. apply S4.
      + rewrite !nth_error_app2 by lia. rewrite S6. destruct (i - length (made s)) as [|[|k]]; cbn; try reflexivity.
        rewrite S2. reflexivity.
    - intros i e H. destruct (Nat.lt_ge_cases i (length (made s))) as [L|L].
      + rewrite nth_error_app1 in H by lia. apply S5. exact H.
      + rewrite nth_error_app2 in H by lia. rewrite S6 in H. destruct (i - length (made s)) as [|[|k]] eqn:Ei; try discriminate.
        injection H as <-. cbn [target]. lia.
    - rewrite !app_length, S6. reflexivity.
    - intros m q g H. apply Hnth in H. destruct H as [H|(-> & -> & ->)]; [apply (S7 _ _ _ H) | lia].
    - rewrite app_length. cbn [length]. lia.
    - rewrite app_length. cbn [length]. lia.
    - intros m q g H. apply Hnth in H. destruct H as [H|(-> & -> & ->)]; [apply (S10 _ _ _ H) | exact Hf].
    - exists (fs ++ [f]). split.
      + apply path_edit with (at_ s).
        * cbn [parent s' made]. rewrite nth_error_app2, Nat.sub_diag by lia. reflexivity.
        * apply Hext; [exact S8 | exact Hp].
      + rewrite replay_app, <- Hc. unfold apply. rewrite Ef. reflexivity.
    - intros i e fs' H Hp'. destruct (Nat.lt_ge_cases i (length (made s))) as [L|L].
      + rewrite nth_error_app1 in H by lia. apply (S12 i e fs' H).
        apply Hext; [|exact Hp']. specialize (S4 i). rewrite H in S4. cbn [option_map] in S4. apply S7 in S4. lia.
      + rewrite nth_error_app2 in H by lia. rewrite S6 in H. destruct (i - length (made s)) as [|[|k]] eqn:Ei; try discriminate.
        injection H as <-. cbn [e_undo e_redo source] in *. rewrite S2 in Hp'. apply Hext in Hp'; [|exact S8].
        rewrite (path_unique _ _ _ _ Hp' Hp), <- Hc. specialize (Hf (current h)). unfold apply. rewrite Ef in Hf |- *. exact Hf.
  Qed.

  Lemma move_sim : forall h s n c t, sim h s -> n <= length (made s) -> c <= length (made s) ->
    (exists fs, path s n fs /\ t = replay fs) ->
    sim {| current := t; idx := n; clean_idx := c; nodes := nodes h; edges := edges h |}
        {| made := made s; at_ := n; saved_at := c |}.
  Proof.
    intros h s n c t S Hn Hc (fs & Hp & Ht). destruct S as [S1 S2 S3 S4 S5 S6 S7 S8 S9 S10 S11 S12].
    split; cbn [nodes idx clean_idx edges current made at_ saved_at]; try assumption; try reflexivity.
    - exists fs. split; [|exact Ht]. apply path_made with s; [reflexivity | exact Hp].
    - intros i e fs' H Hp'. apply (S12 i e fs' H). apply path_made with (2 := Hp'). reflexivity.
  Qed.

  Lemma undo_sim : forall h s, sim h s -> exists s', spec_step s Undo s' /\ sim (undo env h) s' /\
    (can_undo h = true <-> parent s (at_ s) <> None).
  Proof.
    intros h s S. unfold undo, can_undo, incoming. rewrite last_rev.
    pose proof (hd_filter (fun e => target e =? idx h) (edges h) 0) as Hf. cbv beta in Hf.
    set (l := filter _ _) in *.
    assert (Hcan : match rev l with [] => false | _ => true end = match hd_error l with None => false | _ => true end).
    { destruct l as [|x l']; [reflexivity|]. cbn [rev hd_error]. destruct (rev l' ++ [x]) eqn:Er; [destruct (rev l'); discriminate | reflexivity]. }
    rewrite Hcan.
    destruct (hd_error l) as [[j e]|].
    - destruct Hf as (_ & Hn & Ht & _). rewrite Nat.sub_0_r in Hn. apply Nat.eqb_eq in Ht.
      rewrite (sim_targets _ _ S _ _ Hn), (sim_idx _ _ S) in Ht.
      pose proof (sim_edges _ _ S j) as Hm. rewrite Hn in Hm. cbn [option_map] in Hm.
      assert (Hpar : parent s (at_ s) = Some (source e, e_redo e)) by (rewrite <- Ht; exact Hm).
      exists {| made := made s; at_ := source e; saved_at := saved_at s |}.
      split; [apply s_undo with (e_redo e); exact Hpar|]. split; [|rewrite Hpar; split; [discriminate | reflexivity]].
      rewrite (sim_clean _ _ S). apply move_sim; [exact S | | apply (sim_saved _ _ S) |].
      + pose proof (sim_wf _ _ S _ _ _ Hm). pose proof (sim_at _ _ S). lia.
      + destruct (sim_doc _ _ S) as (fs & Hp & Hc).
        inversion Hp as [Hz|n p f fs' Hp' Hpath Hz]; subst; [rewrite <- Ht in Hz; discriminate|].
        rewrite Hpar in Hp'. injection Hp' as <- <-.
        exists fs'. split; [exact Hpath|]. rewrite Hc, replay_app. apply (sim_undo _ _ S j e fs' Hn Hpath).
    - exists s. split; [|split; [exact S|]].
      + apply s_undo_root. destruct (at_ s) as [|m] eqn:Ea; [reflexivity|].
        destruct (parent s (Datatypes.S m)) as [[p f]|] eqn:Ep; [|reflexivity].
        destruct (edge_of h s m p f S Ep) as (e & He & _ & _ & Ht).
        specialize (Hf m e (Nat.le_0_l _)). rewrite Nat.sub_0_r in Hf. specialize (Hf He).
        apply Nat.eqb_neq in Hf. rewrite (sim_idx _ _ S), Ea in Hf. congruence.
      + split; [discriminate|]. intro Hne. exfalso. apply Hne. destruct (at_ s) as [|m] eqn:Ea; [reflexivity|].
        destruct (parent s (Datatypes.S m)) as [[p f]|] eqn:Ep; [|reflexivity].
        destruct (edge_of h s m p f S Ep) as (e & He & _ & _ & Ht).
        specialize (Hf m e (Nat.le_0_l _)). rewrite Nat.sub_0_r in Hf. specialize (Hf He).
        apply Nat.eqb_neq in Hf. rewrite (sim_idx _ _ S), Ea in Hf. congruence.
  Qed.

  Lemma redo_sim : forall h s, sim h s -> exists s', spec_step s Redo s' /\ sim (redo env h) s' /\
    (can_redo h = true <-> exists m f, parent s m = Some (at_ s, f)).
  Proof.
    intros h s S. unfold redo, can_redo, outgoing. rewrite last_rev.
    pose proof (hd_filter (fun e => source e =? idx h) (edges h) 0) as Hf. cbv beta in Hf.
    set (l := filter _ _) in *.
    assert (Hcan : match rev l with [] => false | _ => true end = match hd_error l with None => false | _ => true end).
    { destruct l as [|x l']; [reflexivity|]. cbn [rev hd_error]. destruct (rev l' ++ [x]) eqn:Er; [destruct (rev l'); discriminate | reflexivity]. }
    rewrite Hcan.
    destruct (hd_error l) as [[j e]|].
    - destruct Hf as (_ & Hn & Hs & Hmin). rewrite Nat.sub_0_r in Hn. apply Nat.eqb_eq in Hs.
      rewrite (sim_idx _ _ S) in *.
      pose proof (sim_edges _ _ S j) as Hm. rewrite Hn in Hm. cbn [option_map] in Hm.
      pose proof (sim_targets _ _ S _ _ Hn) as Ht.
      assert (Hpar : parent s (target e) = Some (at_ s, e_redo e)) by (rewrite Ht, <- Hs; exact Hm).
      destruct (e_redo e env (current h)) as [t u] eqn:Er.
      exists {| made := made s; at_ := target e; saved_at := saved_at s |}. split; [|split].
      + apply s_redo. split; [exists (e_redo e); exact Hpar|].
        intros m' f Hm'. destruct m' as [|m']; [discriminate|].
        destruct (edge_of h s m' _ f S Hm') as (e' & He' & Hs' & _ & _).
        specialize (Hmin m' e' (Nat.le_0_l _)). rewrite Nat.sub_0_r in Hmin. specialize (Hmin He').
        rewrite Hs', Nat.eqb_refl in Hmin. specialize (Hmin eq_refl). lia.
      + destruct (sim_doc _ _ S) as (fs & Hp & Hc).
        pose proof (sim_rev _ _ S _ _ _ Hm) as Hrev.
        assert (Hlen : j < length (made s)) by (apply nth_error_Some; rewrite Hm; discriminate).
        destruct S as [S1 S2 S3 S4 S5 S6 S7 S8 S9 S10 S11 S12].
        split; cbn [nodes idx clean_idx edges current made at_ saved_at]; try assumption; try reflexivity.
        * intro i. rewrite set_undo_nth. rewrite S4. destruct (Nat.eqb_spec i j) as [->|]; [|reflexivity].
          destruct (nth_error (edges h) j); reflexivity.
        * intros i e' H. rewrite set_undo_nth in H. destruct (Nat.eqb_spec i j) as [->|]; [|apply S5; exact H].
          rewrite Hn in H. cbn [option_map] in H. injection H as <-. cbn [target]. exact Ht.
        * rewrite set_undo_length. exact S6.
        * lia.
        * exists (fs ++ [e_redo e]). split.
          -- apply path_edit with (at_ s); [exact Hpar|]. apply path_made with s; [reflexivity | exact Hp].
          -- rewrite replay_app, <- Hc. unfold apply. rewrite Er. reflexivity.
        * intros i e' fs' H Hp'. apply path_made with (s' := s) in Hp'; [|reflexivity].
          rewrite set_undo_nth in H. destruct (Nat.eqb_spec i j) as [->|]; [|apply (S12 i e' fs' H Hp')].
          rewrite Hn in H. cbn [option_map] in H. injection H as <-. cbn [source e_undo e_redo] in *.
          rewrite Hs in Hp'. rewrite (path_unique _ _ _ _ Hp' Hp), <- Hc.
          specialize (Hrev (current h)). unfold apply. rewrite Er in Hrev |- *. exact Hrev.
      + split; [intros _; exists (target e), (e_redo e); exact Hpar | reflexivity].
    - assert (Hnone : forall m f, parent s m <> Some (at_ s, f)).
      { intros [|m] f Hm; [discriminate|]. destruct (edge_of h s m _ f S Hm) as (e & He & Hs & _ & _).
        specialize (Hf m e (Nat.le_0_l _)). rewrite Nat.sub_0_r in Hf. specialize (Hf He).
        apply Nat.eqb_neq in Hf. rewrite (sim_idx _ _ S) in Hf. congruence. }
      exists s. split; [apply s_redo_leaf; exact Hnone|]. split; [exact S|].
      split; [discriminate|]. intros (m & f & Hm). contradiction (Hnone m f Hm).
  Qed.

  Lemma step_sim : forall h s o, sim h s -> (forall f, o = Edit f -> reversible env f) ->
    exists s', spec_step s o s' /\ sim (step env h o) s'.
  Proof.
    intros h s o S Hr. destruct o as [f| | |]; cbn [step].
    - eexists. split; [apply s_edit|]. apply edit_sim; [exact S | apply Hr; reflexivity].
    - destruct (undo_sim h s S) as (s' & A & B & _). exists s'. auto.
    - destruct (redo_sim h s S) as (s' & A & B & _). exists s'. auto.
    - eexists. split; [apply s_clean|]. unfold mark_clean. rewrite (sim_idx _ _ S).
      pose proof (sim_at _ _ S). apply move_sim; try assumption. apply (sim_doc _ _ S).
  Qed.

  Lemma run_sim : forall ops h s, sim h s -> all_reversible env ops ->
    exists s', spec_run s ops s' /\ sim (run env h ops) s'.
  Proof.
    induction ops as [|o ops IH]; intros h s S Hr.
    - exists s. split; [constructor | exact S].
    - destruct (step_sim h s o S) as (s1 & A & B).
      { intros f ->. apply Hr. left. reflexivity. }
      destruct (IH (step env h o) s1 B) as (s2 & C & D); [intros f Hf; apply Hr; right; exact Hf|].
      exists s2. split; [econstructor; eassumption | exact D].
  Qed.

  Lemma spec_step_det : forall (s s1 s2 : session) o, spec_step s o s1 -> spec_step s o s2 -> s1 = s2.
  Proof.
    intros s s1 s2 o H1 H2.
    inversion H1; subst; inversion H2; subst; try reflexivity; try congruence.
    - destruct H as [[fa A1] A2], H0 as [[fb B1] B2]. pose proof (A2 _ _ B1). pose proof (B2 _ _ A1).
      assert (m = m0) by lia. subst. reflexivity.
    - match goal with A : first_child _ _ _, B : forall _ _, _ <> _ |- _ => destruct A as [[fa A1] _]; contradiction (B _ _ A1) end.
    - match goal with A : first_child _ _ _, B : forall _ _, _ <> _ |- _ => destruct A as [[fa A1] _]; contradiction (B _ _ A1) end.
  Qed.

  Lemma spec_run_det : forall ops (s s1 s2 : session), spec_run s ops s1 -> spec_run s ops s2 -> s1 = s2.
  Proof.
    induction ops as [|o ops IH]; intros s s1 s2 H1 H2; inversion H1; inversion H2; subst; [reflexivity|].
    match goal with A : spec_step s o ?a, B : spec_step s o ?b |- _ => pose proof (spec_step_det _ _ _ _ A B); subst end.
    eapply IH; eassumption.
  Qed.

  Lemma spec_app : forall ops1 ops2 (s s' s'' : session), spec_run s ops1 s' -> spec_run s' ops2 s'' -> spec_run s (ops1 ++ ops2) s''.
  Proof. induction 1; intros; [assumption | econstructor; eauto]. Qed.

  Lemma sim_dirty : forall h s, sim h s -> is_dirty h = negb (saved_at s =? at_ s).
  Proof. intros h s S. unfold is_dirty. rewrite (sim_clean _ _ S), (sim_idx _ _ S). reflexivity. Qed.
End Proofs.

(** C22.  Any sequence of edits, undos, redos and saves behaves as moving a cursor in the tree of
    edits; the document is the replay of the edits on the path from the root to the cursor, and
    can_undo / can_redo / is_dirty say whether the cursor has a parent, a child, and differs from
    the node last saved. *)
Theorem C22_replay : forall (T E : Type) (env : E) (t0 : T) ops, all_reversible env ops ->
  let h := run env (new t0) ops in
  exists s fs, spec_run start ops s /\ (forall s', spec_run start ops s' -> s' = s) /\
    path s (at_ s) fs /\ (forall fs', path s (at_ s) fs' -> fs' = fs) /\
    current h = fold_left (apply env) fs t0 /\
    (can_undo h = true <-> at_ s <> 0) /\
    (can_redo h = true <-> exists m f, parent s m = Some (at_ s, f)) /\
    (is_dirty h = false <-> saved_at s = at_ s).
Proof.
  intros T E env t0 ops Hr h.
  destruct (run_sim env t0 ops (new t0) start (sim_start env t0) Hr) as (s & R & S). fold h in S.
  destruct (sim_doc _ _ _ _ S) as (fs & Hp & Hc). exists s, fs.
  split; [exact R|]. split; [intros s' R'; eapply spec_run_det; eassumption|]. split; [exact Hp|].
  split; [intros fs' Hp'; eapply path_unique; eassumption|]. split; [exact Hc|].
  destruct (undo_sim env t0 h s S) as (_ & _ & _ & Hu). destruct (redo_sim env t0 h s S) as (_ & _ & _ & Hd).
  split; [|split; [exact Hd|]].
  - rewrite Hu. destruct (at_ s) as [|m] eqn:Ea; [cbn; tauto|]. split; [discriminate|]. intros _ Hnone.
    cbn [parent] in Hnone. apply nth_error_None in Hnone. pose proof (sim_at _ _ _ _ S). lia.
  - rewrite (sim_dirty _ _ _ _ S). destruct (Nat.eqb_spec (saved_at s) (at_ s)); cbn; split; congruence.
Qed.
Print Assumptions C22_replay.

(** C22, undo: undoing right after an edit or after a redo that moved restores the document. *)
Theorem C22_undo_restores : forall (T E : Type) (env : E) (t0 : T) ops f, all_reversible env ops -> reversible env f ->
  let h := run env (new t0) ops in
  current (undo env (edit env f h)) = current h /\ idx (undo env (edit env f h)) = idx h /\
  (can_redo h = true -> current (undo env (redo env h)) = current h /\ idx (undo env (redo env h)) = idx h).
Proof.
  intros T E env t0 ops f Hr Hf h.
  destruct (run_sim env t0 ops (new t0) start (sim_start env t0) Hr) as (s & R & S). fold h in S.
  destruct (sim_doc _ _ _ _ S) as (fs & Hp & Hc).
  assert (Hdoc : forall h' s', sim env t0 h' s' -> made s' = made s -> at_ s' = at_ s -> current h' = current h /\ idx h' = idx h).
  { intros h' s' S' Hm Ha. destruct (sim_doc _ _ _ _ S') as (fs' & Hp' & Hc').
    rewrite Ha in Hp'. apply path_made with (s' := s) in Hp'; [|symmetry; exact Hm].
    rewrite Hc', Hc, (path_unique _ _ _ _ Hp' Hp), (sim_idx _ _ _ _ S'), (sim_idx _ _ _ _ S). auto. }
  pose proof (edit_sim env t0 h s f S Hf) as S1.
  destruct (undo_sim env t0 _ _ S1) as (s2 & A & S2 & _).
  assert (Hlast : forall l (x : nat * @redo_fn T E), nth_error (l ++ [x]) (length l) = Some x).
  { intros l x. rewrite nth_error_app2, Nat.sub_diag by lia. reflexivity. }
  assert (Hs2 : s2 = {| made := made s ++ [(at_ s, f)]; at_ := at_ s; saved_at := saved_at s |}).
  { eapply spec_step_det; [exact A|]. exact (s_undo {| made := made s ++ [(at_ s, f)]; at_ := Datatypes.S (length (made s)); saved_at := saved_at s |} (at_ s) f (Hlast _ _)). }
  split; [|split].
  - destruct (sim_doc _ _ _ _ S2) as (fs' & Hp' & Hc'). subst s2. cbn [at_] in Hp'.
    apply path_extend with (s := s) (x := [(at_ s, f)]) in Hp';
      [| reflexivity | apply (sim_wf _ _ _ _ S) | apply (sim_at _ _ _ _ S)].
    rewrite Hc', Hc, (path_unique _ _ _ _ Hp' Hp). reflexivity.
  - rewrite (sim_idx _ _ _ _ S2), Hs2, (sim_idx _ _ _ _ S). reflexivity.
  - intro Hcan. destruct (redo_sim env t0 h s S) as (s3 & A3 & S3 & Hd).
    destruct (proj1 Hd Hcan) as (m & g & Hm).
    destruct (undo_sim env t0 _ _ S3) as (s4 & A4 & S4 & _).
    inversion A3 as [| | |s0 m0 Hfc| s0 Hno |]; subst; [|contradiction (Hno m g Hm)].
    destruct Hfc as [[g0 Hg0] _].
    assert (Hs4 : s4 = {| made := made s; at_ := at_ s; saved_at := saved_at s |}).
    { eapply spec_step_det; [exact A4|]. exact (s_undo {| made := made s; at_ := m0; saved_at := saved_at s |} (at_ s) g0 Hg0). }
    apply (Hdoc _ s4 S4); subst s4; reflexivity.
Qed.
Print Assumptions C22_undo_restores.

(** C22, redo (partial): redo after undo restores the undone document when the undone edit is its
    parent's first child. *)
Theorem C22_redo_restores_partial : forall (T E : Type) (env : E) (t0 : T) ops s, all_reversible env ops ->
  let h := run env (new t0) ops in
  spec_run start ops s -> at_ s <> 0 ->
  (forall p f, parent s (at_ s) = Some (p, f) -> first_child s p (at_ s)) ->
  current (redo env (undo env h)) = current h /\ idx (redo env (undo env h)) = idx h.
Proof.
  intros T E env t0 ops s Hr h R Hne Hfirst.
  destruct (run_sim env t0 ops (new t0) start (sim_start env t0) Hr) as (s' & R' & S). fold h in S.
  pose proof (spec_run_det _ _ _ _ R R'). subst s'.
  destruct (sim_doc _ _ _ _ S) as (fs & Hp & Hc).
  destruct (parent s (at_ s)) as [[p f]|] eqn:Ep.
  2:{ destruct (at_ s) as [|m] eqn:Ea; [contradiction|]. cbn [parent] in Ep. apply nth_error_None in Ep.
      pose proof (sim_at _ _ _ _ S). lia. }
  specialize (Hfirst p f eq_refl).
  destruct (undo_sim env t0 h s S) as (s1 & A1 & S1 & _).
  assert (Hs1 : s1 = {| made := made s; at_ := p; saved_at := saved_at s |}).
  { eapply spec_step_det; [exact A1|]. apply s_undo with f. exact Ep. }
  destruct (redo_sim env t0 _ s1 S1) as (s2 & A2 & S2 & _).
  assert (Hs2 : s2 = {| made := made s; at_ := at_ s; saved_at := saved_at s |}).
  { eapply spec_step_det; [exact A2|]. subst s1.
    exact (s_redo {| made := made s; at_ := p; saved_at := saved_at s |} (at_ s) Hfirst). }
  destruct (sim_doc _ _ _ _ S2) as (fs' & Hp' & Hc'). rewrite (sim_idx _ _ _ _ S2), (sim_idx _ _ _ _ S).
  subst s2. cbn [at_] in *. apply path_made with (s' := s) in Hp'; [|reflexivity].
  rewrite Hc', Hc, (path_unique _ _ _ _ Hp' Hp). auto.
Qed.
Print Assumptions C22_redo_restores_partial.

(** C22, saved state: [run_saved] also remembers the document at the last save; a clean history
    shows exactly that document, and an edit always makes the history dirty. *)
Definition step_saved {T E} (env : E) (p : history T E * T) (o : op T E) : history T E * T :=
  (step env (fst p) o, match o with MarkClean => current (fst p) | _ => snd p end).
Theorem C22_clean_means_saved : forall (T E : Type) (env : E) (t0 : T) ops, all_reversible env ops ->
  let '(h, saved) := fold_left (step_saved env) ops (new t0, t0) in
  h = run env (new t0) ops /\
  (is_dirty h = false -> current h = saved) /\
  (forall f, is_dirty (edit env f h) = true) /\ is_dirty (mark_clean h) = false.
Proof.
  intros T E env t0 ops Hr.
  assert (G : forall ops h sv s, sim env t0 h s ->
     (exists fs, path s (saved_at s) fs /\ sv = replay env t0 fs) -> all_reversible env ops ->
     let '(h', sv') := fold_left (step_saved env) ops (h, sv) in
     h' = run env h ops /\ exists s', sim env t0 h' s' /\ exists fs, path s' (saved_at s') fs /\ sv' = replay env t0 fs).
  { clear ops Hr. induction ops as [|o ops IH]; intros h sv s S Hsv Hr.
    - cbn. split; [reflexivity|]. exists s. auto.
    - cbn [fold_left]. unfold step_saved at 2. cbn [fst snd].
      destruct (step_sim env t0 h s o S) as (s1 & A & B); [intros f ->; apply Hr; left; reflexivity|].
      specialize (IH (step env h o) (match o with MarkClean => current h | _ => sv end) s1 B).
      assert (Hsv1 : exists fs, path s1 (saved_at s1) fs /\ match o with MarkClean => current h | _ => sv end = replay env t0 fs).
      { destruct Hsv as (fs & Hp & Hs). inversion A; subst o s1; try subst; cbn [saved_at] in *.
        - exists fs. split; [|reflexivity]. apply path_extend with (s := s) (x := [(at_ s, f)]); [reflexivity | apply (sim_wf _ _ _ _ S) | apply (sim_saved _ _ _ _ S) | exact Hp].
        - exists fs. split; [apply path_made with s; [reflexivity | exact Hp] | reflexivity].
        - exists fs. auto.
        - exists fs. split; [apply path_made with s; [reflexivity | exact Hp] | reflexivity].
        - exists fs. auto.
        - destruct (sim_doc _ _ _ _ S) as (fs' & Hp' & Hc'). exists fs'. split; [apply path_made with s; [reflexivity | exact Hp'] | exact Hc']. }
      specialize (IH Hsv1). assert (Hr2 : all_reversible env ops) by (intros f Hf; apply Hr; right; exact Hf).
      specialize (IH Hr2). destruct (fold_left (step_saved env) ops _) as [h' sv']. destruct IH as [E1 E2].
      split; [exact E1 | exact E2]. }
  specialize (G ops (new t0) t0 start (sim_start env t0)).
  assert (H0 : exists fs, path (@start T E) (saved_at (@start T E)) fs /\ t0 = replay env t0 fs) by (exists []; split; [constructor | reflexivity]).
  specialize (G H0 Hr). destruct (fold_left (step_saved env) ops (new t0, t0)) as [h sv].
  destruct G as (Hh & s & S & fs & Hp & Hs). split; [exact Hh|]. split; [|split].
  - rewrite (sim_dirty _ _ _ _ S). intro Hd. apply negb_false_iff, Nat.eqb_eq in Hd. rewrite Hd in Hp.
    destruct (sim_doc _ _ _ _ S) as (fs' & Hp' & Hc'). rewrite Hc', Hs, (path_unique _ _ _ _ Hp Hp'). reflexivity.
  - intro f. unfold edit, is_dirty. destruct (f env (current h)). cbn [clean_idx idx].
    destruct (Nat.eqb_spec (clean_idx h) (nodes h)) as [He|]; [|reflexivity].
    rewrite (sim_clean _ _ _ _ S), (sim_nodes _ _ _ _ S) in He. pose proof (sim_saved _ _ _ _ S). lia.
  - unfold is_dirty, mark_clean. cbn. rewrite Nat.eqb_refl. reflexivity.
Qed.
Print Assumptions C22_clean_means_saved.

(** A concrete document: a list of numbers, edits push a number. *)
Definition push (x : nat) : @redo_fn (list nat) unit := fun _ t => (x :: t, fun _ t' => tl t').
Lemma push_reversible : forall x, reversible tt (push x).
Proof. intros x t. reflexivity. Qed.

(** Refuted clause: after branching, redo goes to the oldest branch: undoing the newer edit and
    redoing gives the older edit's document. *)
Theorem C22_redo_refuted :
  let h := run tt (new []) [Edit (push 1); Undo; Edit (push 2)] in
  all_reversible tt [Edit (push 1); Undo; Edit (push 2)] /\
  current h = [2] /\ current (redo tt (undo tt h)) = [1].
Proof.
  split; [|split; reflexivity].
  intros f [H|[H|[H|[]]]]; try discriminate; injection H as <-; apply push_reversible.
Qed.
Print Assumptions C22_redo_refuted.

Example C22_demo :
  let ops := [Edit (push 1); Edit (push 2); MarkClean; Undo; Undo; Redo] in
  let h := run tt (new [0]) ops in
  current h = [1; 0] /\ is_dirty h = true /\ is_dirty (redo tt h) = false /\ current (redo tt h) = [2; 1; 0].
Proof. repeat split. Qed.
