(** Lists, maps and paths, for Objtree/Model.v. *)
From Coq Require Import List Arith NArith Bool String Lia Sorted.
From Verif Require Import Common.Text Objtree.Ispath Objtree.Model.
Import ListNotations.
Open Scope nat_scope.

Section MAPS.
Context {A : Type}.
Implicit Type l : list (text * A).
Lemma get_in k l v : get k l = Some v -> In (k, v) l.
Proof using Type.
  unfold get. destruct (List.find _ l) as [[k' v']|] eqn:E; [|discriminate]. intro Q. injection Q as <-. apply find_some in E. destruct E as [E1 E2]. apply text_eqb_eq in E2. cbn in E2. subst. exact E1.
Qed.
Lemma get_none k l : get k l = None -> ~ In k (map fst l).
Proof using Type.
  unfold get. destruct (List.find _ l) as [e|] eqn:E; [discriminate|]. intros _ Q. apply in_map_iff in Q. destruct Q as (e & <- & Q). apply (find_none _ _ E) in Q. rewrite text_eqb_refl in Q. discriminate.
Qed.
Lemma get_of k l v : NoDup (map fst l) -> In (k, v) l -> get k l = Some v.
Proof using Type.
  unfold get. induction l as [|[k' v'] l IH]; [intros _ []|]. cbn [map fst]. intros Hn [Q|Q].
  - injection Q as -> ->. cbn [List.find fst]. rewrite text_eqb_refl. reflexivity.
  - inversion Hn as [|? ? Hn1 Hn2]; subst. cbn [List.find fst]. destruct (text_eqb_spec k' k) as [->|N]; [|apply IH; assumption]. destruct Hn1. apply in_map_iff. exists (k, v). auto.
Qed.
Lemma get_iff k l v : NoDup (map fst l) -> (get k l = Some v <-> In (k, v) l).
Proof using Type. intro H. split; [apply get_in|apply get_of; exact H]. Qed.
Lemma bt_insert_new k v l : ~ In k (map fst l) -> forall k' v', In (k', v') (bt_insert k v l) <-> (k' = k /\ v' = v) \/ In (k', v') l.
Proof using Type.
  intro Hk. induction l as [|e l IH]; intros k' v'; cbn [bt_insert In].
  - split; [intros [Q|[]]; injection Q as <- <-; auto|intros [[-> ->]|[]]; auto].
  - destruct (text_eqb_spec (fst e) k) as [E|N]; [destruct Hk; left; exact E|]. destruct (text_ltb k (fst e)); cbn [In].
    + split; [intros [Q|Q]; [injection Q as <- <-; auto|auto]|intros [[-> ->]|Q]; auto].
    + rewrite IH; [|intro Q; apply Hk; right; exact Q]. tauto.
Qed.
Lemma bt_insert_nodup k v l : ~ In k (map fst l) -> NoDup (map fst l) -> NoDup (map fst (bt_insert k v l)).
Proof using Type.
  intros Hk. induction l as [|e l IH]; intro Hn; cbn [bt_insert]; [cbn; constructor; [auto|constructor]|].
  destruct (text_eqb_spec (fst e) k) as [E|N]; [destruct Hk; left; exact E|]. destruct (text_ltb k (fst e)); cbn [map] in *; [constructor; assumption|]. inversion Hn as [|? ? H1 H2]; subst.
  assert (Hk' : ~ In k (map fst l)) by (intro Q; apply Hk; right; exact Q). constructor; [|apply IH; assumption]. intro Q. apply in_map_iff in Q. destruct Q as ([k' v'] & Q & Hin). cbn in Q. subst k'.
  apply (bt_insert_new _ _ _ Hk') in Hin. destruct Hin as [[E _]|Hin]; [congruence|]. apply H1. apply in_map_iff. exists (fst e, v'). auto.
Qed.
Lemma get_ix k v l k' : get k' (ix_insert k v l) = if text_eqb k k' then Some v else get k' l.
Proof using Type.
  unfold get. induction l as [|e l IH]; cbn [ix_insert List.find fst snd].
  - destruct (text_eqb k k'); reflexivity.
  - destruct (text_eqb_spec (fst e) k) as [E|N]; cbn [List.find fst snd].
    + rewrite E. destruct (text_eqb k k'); reflexivity.
    + destruct (text_eqb_spec (fst e) k') as [E'|N']; [|exact IH]. destruct (text_eqb_spec k k'); [congruence|reflexivity].
Qed.
End MAPS.

Section LISTS.
Context {A : Type}.
Lemma set_nth_length i (x : A) l : List.length (set_nth i x l) = List.length l.
Proof using Type. revert i. induction l as [|y l IH]; intros [|i]; cbn; auto. Qed.
Lemma set_nth_same i (x : A) l : i < List.length l -> nth_error (set_nth i x l) i = Some x.
Proof using Type. revert i. induction l as [|y l IH]; intros [|i] H; cbn in *; try lia; [reflexivity|]. apply IH. lia. Qed.
Lemma set_nth_other i (x : A) l j : j <> i -> nth_error (set_nth i x l) j = nth_error l j.
Proof using Type. revert i j. induction l as [|y l IH]; intros [|i] [|j] H; cbn; try reflexivity; try congruence. apply IH. congruence. Qed.
Lemma set_nth_get i (x : A) l j y : nth_error l i = Some y -> nth_error (set_nth i x l) j = if j =? i then Some x else nth_error l j.
Proof using Type.
  intro H. destruct (Nat.eqb_spec j i) as [->|N]; [|apply set_nth_other; exact N]. apply set_nth_same. apply nth_error_Some. congruence.
Qed.
Lemma nth_lt i (l : list A) x : nth_error l i = Some x -> i < List.length l.
Proof using Type. intro H. apply nth_error_Some. congruence. Qed.
End LISTS.

(** ** The order of texts *)
Definition tlt (a b : text) : Prop := text_ltb a b = true.
Lemma tlt_cons x a y b : tlt (x :: a) (y :: b) <-> (x < y)%N \/ (x = y /\ tlt a b).
Proof. unfold tlt. cbn [text_ltb]. rewrite orb_true_iff, andb_true_iff, N.ltb_lt, N.eqb_eq. tauto. Qed.
Lemma tlt_irrefl a : ~ tlt a a.
Proof. induction a as [|x a IH]; [discriminate|]. rewrite tlt_cons. intros [Q|[_ Q]]; [exact (N.lt_irrefl _ Q)|auto]. Qed.
Lemma tlt_trans a b c : tlt a b -> tlt b c -> tlt a c.
Proof.
  revert b c. induction a as [|x a IH]; intros [|y b] [|z c] H1 H2; try discriminate; try reflexivity. rewrite tlt_cons in *.
  destruct H1 as [H1|[-> H1]], H2 as [H2|[-> H2]]; auto. left. eapply N.lt_trans; eauto. right. split; [reflexivity|]. eapply IH; eauto.
Qed.
Lemma tlt_total a b : a <> b -> text_ltb a b = false -> tlt b a.
Proof.
  revert b. induction a as [|x a IH]; intros [|y b] N H; try congruence; try discriminate; try reflexivity. rewrite tlt_cons. cbn [text_ltb] in H. apply orb_false_iff in H. destruct H as [H1 H2].
  apply N.ltb_ge in H1. destruct (N.eqb_spec x y) as [->|Nxy]; [|left; destruct (N.lt_trichotomy x y) as [Q|[Q|Q]]; [|congruence|exact Q]; destruct (N.lt_irrefl x); eapply N.lt_le_trans; eauto].
  right. split; [reflexivity|]. apply IH; [congruence|exact H2].
Qed.
Lemma bt_insert_keys {A : Type} k (v : A) l x : In x (map fst (bt_insert k v l)) -> x = k \/ In x (map fst l).
Proof.
  induction l as [|e l IH]; cbn [bt_insert map In fst]; [intros [<-|[]]; auto|]. destruct (text_eqb (fst e) k); cbn [map In fst]; [tauto|]. destruct (text_ltb k (fst e)); cbn [map In fst]; [intros [<-|Q]; auto|].
  intros [Q|Q]; [auto|]. destruct (IH Q); auto.
Qed.
Lemma bt_insert_sorted {A : Type} k (v : A) l : StronglySorted tlt (map fst l) -> StronglySorted tlt (map fst (bt_insert k v l)).
Proof.
  induction l as [|e l IH]; intro H; cbn [bt_insert]; [cbn; repeat constructor|]. cbn [map] in H. inversion H as [|? ? H1 H2]; subst.
  destruct (text_eqb_spec (fst e) k) as [E|N]; [exact H|]. destruct (text_ltb k (fst e)) eqn:Q; cbn [map fst].
  - constructor; [exact H|]. constructor; [exact Q|]. eapply Forall_impl; [|exact H2]. intros x Hx. eapply tlt_trans; [exact Q|exact Hx].
  - constructor; [apply IH; exact H1|]. apply Forall_forall. intros x Hx. apply bt_insert_keys in Hx. destruct Hx as [->|Hx]; [apply tlt_total; [congruence|exact Q]|rewrite Forall_forall in H2; auto].
Qed.

(** ** Paths *)
Lemma render_snoc cs x : render (cs ++ [x]) = render cs ++ SLASH :: x.
Proof. rewrite render_app. f_equal. cbn. rewrite app_nil_r. reflexivity. Qed.
Lemma snoc_unique (a b x y : text) : slash_free x -> slash_free y -> a ++ SLASH :: x = b ++ SLASH :: y -> a = b /\ x = y.
Proof.
  intros Hx Hy E. apply (f_equal (@rev N)) in E. rewrite !rev_app_distr in E. cbn [rev] in E. rewrite <- !app_assoc in E. cbn [app] in E.
  destruct (comp_unique (rev x) (rev y) (SLASH :: rev a) (SLASH :: rev b)) as [Q1 Q2].
  - intro Q. apply Hx. apply in_rev. exact Q.
  - intro Q. apply Hy. apply in_rev. exact Q.
  - right. eexists. reflexivity.
  - right. eexists. reflexivity.
  - exact E.
  - injection Q2 as Q2. split; [rewrite <- (rev_involutive a), Q2; apply rev_involutive|rewrite <- (rev_involutive x), Q1; apply rev_involutive].
Qed.
Lemma render_inj cs ds : (forall c, In c cs -> slash_free c) -> (forall c, In c ds -> slash_free c) -> render cs = render ds -> cs = ds.
Proof.
  revert ds. induction cs as [|c cs IH] using rev_ind; intros ds Hc Hd E.
  - destruct ds; [reflexivity|discriminate].
  - destruct ds as [|d ds] using rev_ind; [rewrite render_snoc in E; destruct (render cs); discriminate|]. clear IHds.
    rewrite !render_snoc in E. apply snoc_unique in E.
    + destruct E as [E ->]. f_equal. apply IH; [intros x Hx; apply Hc, in_or_app; auto|intros x Hx; apply Hd, in_or_app; auto|exact E].
    + apply Hc, in_or_app. right. left. reflexivity.
    + apply Hd, in_or_app. right. left. reflexivity.
Qed.
Lemma render_nil cs : render cs = [] <-> cs = [].
Proof. split; [destruct cs; [reflexivity|discriminate]|intros ->; reflexivity]. Qed.
Lemma before_last_slash_snoc a x : slash_free x -> before_last_slash (a ++ SLASH :: x) = Some a.
Proof.
  intro Hx. assert (N : before_last_slash x = None).
  { induction x as [|c x IH]; [reflexivity|]. cbn [before_last_slash]. rewrite IH; [|intro Q; apply Hx; right; exact Q]. destruct (N.eqb_spec c SLASH) as [->|]; [destruct Hx; left; reflexivity|reflexivity]. }
  induction a as [|c a IH]; cbn [app before_last_slash]; [rewrite N, N.eqb_refl; reflexivity|]. rewrite IH. reflexivity.
Qed.
(** a concrete text without slashes *)
Ltac sf := let Q := fresh in intro Q; vm_compute in Q; repeat (destruct Q as [Q|Q]; [discriminate Q|]); destruct Q.
