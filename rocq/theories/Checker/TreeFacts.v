(** What the check of the call tree asks the object tree (C51, C52). *)
From Coq Require Import List Arith NArith Bool String Lia Relations FinFun.
From Verif Require Import Common.Text Parse.Ast Objtree.Ispath Objtree.Model Objtree.Lemmas Objtree.Spec Objtree.Wf Objtree.Assign Objtree.Paths Objtree.Inherit Objtree.Calls Objtree.PathsProps Objtree.InheritProps
  Checker.CallTree Checker.Spec Checker.SleepProofs.
Import ListNotations.
Open Scope nat_scope.

Section FACTS.
Variables V D : Type.
Notation objtree := (objtree V D).
Notation at_n t i := (nth_error (graph t) i).
Arguments wf {V D}. Arguments tidy {V D}. Arguments up {V D}.

Definition proc_keys (t : objtree) : Prop := forall i n, at_n t i = Some n -> NoDup (map fst (n_procs n)).
Lemma ix_keys {A : Type} k (v : A) l k' : In k' (map fst (ix_insert k v l)) -> k' = k \/ In k' (map fst l).
Proof using Type.
  induction l as [|e l IH]; cbn [ix_insert map In fst]; [intros [<-|[]]; auto|]. destruct (text_eqb_spec (fst e) k); cbn [map In fst]; [tauto|]. intros [<-|H]; [tauto|]. apply IH in H. tauto.
Qed.
Lemma ix_nodup {A : Type} k (v : A) l : NoDup (map fst l) -> NoDup (map fst (ix_insert k v l)).
Proof using Type.
  induction l as [|e l IH]; cbn [ix_insert map fst]; intro H; [constructor; [intros []|constructor]|]. inversion H as [|? ? H1 H2]; subst. destruct (text_eqb_spec (fst e) k) as [E|E]; cbn [map fst]; [exact H|].
  constructor; [|exact (IH H2)]. intro Q. apply ix_keys in Q. tauto.
Qed.
Lemma built_keys (t : objtree) : built t -> proc_keys t.
Proof using Type.
  assert (U : forall (t : objtree) i n n', proc_keys t -> at_n t i = Some n -> NoDup (map fst (n_procs n')) -> proc_keys (update t i n')).
  { intros t0 i n n' H Hn E j m Hm. cbn [update graph] in Hm. rewrite (set_nth_get _ _ _ j n Hn) in Hm. destruct (j =? i); [injection Hm as <-; exact E|exact (H j m Hm)]. }
  induction 1 as [|t parent name t' i Hb IH Hs E|t ty v t' Hb IH E|t ty name d v t' Hb IH E].
  - intros [|i] n H; [injection H as <-; constructor|destruct i; discriminate].
  - unfold subtype_or_add in E. destruct (at_n t parent) as [n|] eqn:Hn; [|discriminate]. destruct (get name (n_children n)); [injection E as <- <-; exact IH|]. injection E as <- <-. cbn [graph].
    intros j m Hm. cbn [graph] in Hm. destruct (Nat.lt_ge_cases j (List.length (graph t))) as [Hj|Hj].
    + rewrite nth_error_app1 in Hm by (rewrite set_nth_length; exact Hj). rewrite (set_nth_get _ _ _ j n Hn) in Hm. destruct (j =? parent); [injection Hm as <-; cbn; exact (IH _ _ Hn)|exact (IH j m Hm)].
    + rewrite nth_error_app2 in Hm by (rewrite set_nth_length; exact Hj). apply nth_error_In in Hm. destruct Hm as [<-|[]]. constructor.
  - unfold set_parent_type_var in E. destruct (at_n t ty) as [n|] eqn:Hn; [|discriminate]. injection E as <-. apply (U t ty n); [exact IH|exact Hn|exact (IH _ _ Hn)].
  - unfold register_proc in E. destruct (at_n t ty) as [n|] eqn:Hn; [|discriminate]. injection E as <-. apply (U t ty n); [exact IH|exact Hn|cbn [n_procs]; apply ix_nodup; exact (IH _ _ Hn)].
Qed.
Lemma finished_keys (t : objtree) out : finished t out -> proc_keys t.
Proof using Type.
  intros (t0 & B & E). pose proof (built_keys t0 B) as K. pose proof (wf_built V D t0 B) as W. destruct (assigned V D t0 W (fresh_built V D t0 B)) as (t' & out' & E' & AL & _ & A & Z & _). rewrite E in E'. injection E' as <- <-.
  intros i n Hn. destruct AL as [_ AL]. specialize (AL i). rewrite Hn in AL. destruct (at_n t0 i) as [m|] eqn:Hm; [|destruct AL]. destruct (Nat.eq_dec i 0) as [->|Ni]; [rewrite (Z m Hm) in Hn; injection Hn as <-; exact (K 0 m Hm)|].
  destruct (at_some V D t0 W i m Hm) as (cs & Hcs). destruct (A i m cs Hm Hcs) as (p & Hp & _); [intros ->; apply Ni, (at_zero V D t0 W); exact Hcs|]. rewrite Hp in Hn. injection Hn as <-. exact (K i m Hm).
Qed.

Variable t : objtree.
Variable out : list preport.
Hypothesis F : finished t out.
Hypothesis AC : acyclic t.
Notation size := (List.length (graph t)).

(** The procedures that there are *)
Definition defined (p : procref) : Prop := exists q, procs_of t (pr_ty p) (snd (fst p)) = Some q /\ snd p < List.length (p_values q).
Lemma self_procs_iff i p : In p (self_procs t i) <-> pr_ty p = i /\ defined p.
Proof using F.
  destruct p as [[j name] k]. unfold self_procs, defined, procs_of, pr_ty. cbn [fst snd]. unfold node_at at 1. split.
  - destruct (at_n t i) as [n|] eqn:Hn; [|intros []]. intro H. apply in_flat_map in H. destruct H as ([nm q] & Hq & H). apply in_map_iff in H. destruct H as (k' & E & Hk). cbn [fst snd] in *. injection E as <- <- <-. apply in_seq in Hk.
    split; [reflexivity|]. unfold node_at. rewrite Hn. exists q. split; [|lia]. pose proof (finished_keys t out F i n Hn) as N. revert N Hq. unfold get. clear. induction (n_procs n) as [|e l IH]; [intros _ []|]. cbn [map List.find]. intros N [->|Hq].
    + cbn [fst]. rewrite text_eqb_refl. reflexivity.
    + inversion N as [|? ? N1 N2]; subst. destruct (text_eqb_spec (fst e) nm) as [E|E]; [|exact (IH N2 Hq)]. destruct N1. rewrite E. apply in_map_iff. exists (nm, q). auto.
  - intros (-> & q & E & Hk). unfold node_at in E. destruct (at_n t i) as [n|]; [|discriminate]. apply in_flat_map. exists (name, q). split.
    + unfold get in E. destruct (List.find _ (n_procs n)) as [[nm q']|] eqn:Fd; [|discriminate]. injection E as <-. apply find_some in Fd. destruct Fd as [H1 H2]. cbn [fst snd] in *. destruct (text_eqb_spec nm name); [subst; exact H1|discriminate].
    + apply in_map_iff. exists k. cbn [fst snd]. split; [reflexivity|]. apply in_seq. lia.
Qed.
Lemma all_procs_iff p : In p (all_procs t) <-> defined p.
Proof using F.
  assert (T : tree t) by (right; exists out; exact F). assert (Hz : at_ t 0 []) by (apply (at_zero V D t (tree_wf V D t T)); reflexivity). destruct (C49_recurse V D t 0 [] size T Hz (le_n _)) as (l & paths & E & _ & _ & _ & I). unfold all_procs. rewrite E, in_flat_map. split.
  - intros (i & _ & H). apply self_procs_iff in H. tauto.
  - intro H. exists (pr_ty p). split; [|apply self_procs_iff; auto]. apply I. cbn [app]. destruct H as (q & E' & _). unfold procs_of, node_at in E'. destruct (at_n t (pr_ty p)) as [n|] eqn:Hn; [|discriminate]. apply (at_some V D t (tree_wf V D t T) _ _ Hn).
Qed.
Lemma self_procs_nodup i : NoDup (self_procs t i).
Proof using F.
  unfold self_procs, node_at. destruct (at_n t i) as [n|] eqn:Hn; [|constructor]. pose proof (finished_keys t out F i n Hn) as N. clear - N. induction (n_procs n) as [|e l IH]; [constructor|]. cbn [map fst] in N. inversion N as [|? ? N1 N2]; subst. specialize (IH N2). cbn [flat_map].
  assert (S : NoDup (map (fun k => (i, fst e, k)) (seq 0 (List.length (p_values (snd e)))))) by (apply FinFun.Injective_map_NoDup; [intros a b Q; injection Q as <-; reflexivity|apply seq_NoDup]).
  revert S. assert (Dj : forall x, In x (map (fun k => (i, fst e, k)) (seq 0 (List.length (p_values (snd e))))) -> ~ In x (flat_map (fun e => map (fun k => (i, fst e, k)) (seq 0 (List.length (p_values (snd e))))) l)).
  { intros x Hx Q. apply in_map_iff in Hx. destruct Hx as (k & <- & _). apply in_flat_map in Q. destruct Q as (e' & He' & Q). apply in_map_iff in Q. destruct Q as (k' & Q & _). injection Q as Q _. apply N1. rewrite <- Q. apply in_map. exact He'. }
  revert Dj. generalize (map (fun k : nat => (i, fst e, k)) (seq 0 (List.length (p_values (snd e))))) as a. induction a as [|x a IHa]; [intros; exact IH|]. intros Dj S. inversion S as [|? ? S1 S2]; subst. cbn [app]. constructor; [|apply IHa; [intros y Hy; apply Dj; right; exact Hy|exact S2]].
  intro Q. apply in_app_or in Q. destruct Q as [Q|Q]; [exact (S1 Q)|]. exact (Dj x (or_introl eq_refl) Q).
Qed.
Lemma all_procs_nodup : NoDup (all_procs t).
Proof using F.
  assert (T : tree t) by (right; exists out; exact F). assert (Hz : at_ t 0 []) by (apply (at_zero V D t (tree_wf V D t T)); reflexivity). destruct (C49_recurse V D t 0 [] size T Hz (le_n _)) as (l & paths & E & _ & _ & N & _). unfold all_procs. rewrite E. clear E.
  induction l as [|i l IH]; [constructor|]. inversion N as [|? ? N1 N2]; subst. specialize (IH N2). cbn [flat_map]. pose proof (self_procs_nodup i) as S.
  assert (Dj : forall x, In x (self_procs t i) -> ~ In x (flat_map (self_procs t) l)).
  { intros x Hx Q. apply self_procs_iff in Hx. apply in_flat_map in Q. destruct Q as (j & Hj & Q). apply self_procs_iff in Q. destruct Hx, Q. apply N1. congruence. }
  revert Dj S. generalize (self_procs t i) as a. induction a as [|x a IHa]; [intros; exact IH|]. intros Dj S. inversion S as [|? ? S1 S2]; subst. cbn [app]. constructor; [|apply IHa; [intros y Hy; apply Dj; right; exact Hy|exact S2]].
  intro Q. apply in_app_or in Q. destruct Q as [Q|Q]; [exact (S1 Q)|]. exact (Dj x (or_introl eq_refl) Q).
Qed.

(** *** dispatching *)
Lemma within_iff p recv c : In c (tree_within t p recv) <-> dispatches t p recv c.
Proof using F AC.
  pose proof (finished_tidy V D t out F) as T. unfold tree_within, recurse_children_within. destruct (Nat.lt_ge_cases recv size) as [Hr|Hr].
  - destruct (C50_subtypes V D t out recv size F AC Hr (le_n _)) as (l & E & _ & I & _). rewrite E. cbn [option_map]. rewrite <- flat_map_concat_map, in_flat_map. unfold dispatches. split.
    + intros (j & Hj & H). apply I in Hj. unfold visible in H. destruct (procs_of t j (snd (fst p))) as [q|] eqn:P; [|destruct H]. destruct H as [<-|[]]. eauto.
    + intros (j & q & Hj & P & ->). exists j. split; [apply I; exact Hj|]. unfold visible. rewrite P. left. reflexivity.
  - assert (No : forall j, subtype t j recv -> j = recv).
    { intros j H. apply clos_rt_rtn1 in H. destruct H as [|y z H1 _]; [reflexivity|]. apply (parent_bound V D t) in H1. lia. }
    assert (E0 : at_n t recv = None) by (apply nth_error_None; exact Hr). split.
    + destruct (wf_root V D t (td_wf V D t T)) as (n0 & Hn0 & _). apply nth_lt in Hn0. destruct size as [|m] eqn:Es; [lia|]. cbn [recurse_types]. unfold children, node_at. rewrite E0. cbn [filter app].
      assert (Ef : filter (has_parent t recv) (redirected t) = []).
      { destruct (filter (has_parent t recv) (redirected t)) as [|c0 r] eqn:Ef; [reflexivity|]. assert (H : In c0 (filter (has_parent t recv) (redirected t))) by (rewrite Ef; left; reflexivity). apply filter_In in H. destruct H as [H1 H2].
        unfold has_parent, node_at in H2. destruct (at_n t c0) as [n|] eqn:Hc; [|discriminate]. apply (td_redirected V D t T) in H1. destruct H1 as (n' & p' & Hc' & N0 & Hp & _). rewrite Hc in Hc'. injection Hc' as <-. destruct (td_parent V D t T c0 n Hc N0) as (p2 & m2 & Hp2 & Hm2). rewrite Hp2 in H2. apply Nat.eqb_eq in H2. subst p2. congruence. }
      rewrite Ef. cbn [map all_of option_map List.concat]. unfold visible, procs_of, node_at. rewrite E0. intros [].
    + intros (j & q & Hj & P & ->). rewrite (No j Hj) in P. unfold procs_of, node_at in P. rewrite E0 in P. discriminate.
Qed.
Lemma dispatches_defined p recv c : dispatches t p recv c -> defined c.
Proof using F.
  pose proof (finished_tidy V D t out F) as T. intros (j & q & _ & P & ->). exists q. cbn [pr_ty fst snd]. split; [exact P|]. unfold procs_of, node_at in P. destruct (at_n t j) as [n|] eqn:Hn; [|discriminate]. pose proof (wf_procs V D t (td_wf V D t T) j n _ q Hn P) as N. destruct (p_values q); [congruence|cbn [List.length]; lia].
Qed.
Lemma tree_sub_iff i j : tree_sub t i j = true <-> subtype t i j.
Proof using F AC. unfold tree_sub. destruct (C50_subtype V D t out i j size F AC (le_n _)) as (b & -> & H). exact H. Qed.

(** *** [..()] *)
Lemma own_in name i p : In p (own t name i) <-> pr_ty p = i /\ snd (fst p) = name /\ defined p.
Proof using Type.
  destruct p as [[j nm] k]. unfold own, defined, pr_ty. cbn [fst snd]. split.
  - destruct (procs_of t i name) as [q|] eqn:E; [|intros []]. intro H. apply in_map_iff in H. destruct H as (k' & Q & Hk). injection Q as <- <- <-. apply in_rev in Hk. apply in_seq in Hk. repeat split; eauto. exists q. split; [exact E|lia].
  - intros (-> & -> & q & E & Hk). rewrite E. apply in_map_iff. exists k. split; [reflexivity|]. rewrite <- in_rev. apply in_seq. lia.
Qed.
Lemma own_nodup name i : NoDup (own t name i).
Proof using Type.
  unfold own. destruct (procs_of t i name) as [q|]; [|constructor]. apply FinFun.Injective_map_NoDup; [intros a b Q; injection Q as <-; reflexivity|]. apply NoDup_rev, seq_NoDup.
Qed.
Lemma chain_nodup name i l : chain t name i l -> NoDup l /\ (forall p, In p l -> subtype t i (pr_ty p) /\ defined p /\ snd (fst p) = name).
Proof using AC.
  induction 1 as [i E|i p rest E C [IH1 IH2]].
  - split; [apply own_nodup|]. intros p H. apply own_in in H. destruct H as (<- & H1 & H2). repeat split; auto. apply rt_refl.
  - assert (I : forall q, In q rest -> subtype t p (pr_ty q)) by (intros q Hq; apply IH2; exact Hq). split.
    + pose proof (own_nodup name i) as S. assert (Dj : forall x, In x (own t name i) -> ~ In x rest). { intros x Hx Q. apply own_in in Hx. destruct Hx as (Hx & _). apply I in Q. rewrite Hx in Q. exact (no_loop V D t AC i p E Q). }
      revert Dj S. generalize (own t name i) as a. induction a as [|x a IHa]; [intros; exact IH1|]. intros Dj S. inversion S as [|? ? S1 S2]; subst. cbn [app]. constructor; [|apply IHa; [intros y Hy; apply Dj; right; exact Hy|exact S2]].
      intro Q. apply in_app_or in Q. destruct Q as [Q|Q]; [exact (S1 Q)|]. exact (Dj x (or_introl eq_refl) Q).
    + intros q Hq. apply in_app_or in Hq. destruct Hq as [Hq|Hq]; [apply own_in in Hq; destruct Hq as (<- & H1 & H2); repeat split; auto; apply rt_refl|]. destruct (IH2 q Hq) as (H1 & H2 & H3). repeat split; auto. eapply rt_trans; [apply rt_step; exact E|exact H1].
Qed.
Lemma chain_total name i : exists l, chain t name i l.
Proof using AC. destruct (up_total V D t AC i) as (u & Hu). eexists. apply (chain_up_list V D t name i u Hu). Qed.
(** where a procedure is in the chain of its type *)
Lemma chain_at p : defined p -> exists l a b, chain t (snd (fst p)) (pr_ty p) l /\ l = a ++ p :: b.
Proof using AC.
  intro H. destruct (chain_total (snd (fst p)) (pr_ty p)) as (l & C). assert (In p l).
  { assert (O : In p (own t (snd (fst p)) (pr_ty p))) by (apply own_in; auto). inversion C; subst; [exact O|]. apply in_or_app. left. exact O. }
  apply in_split in H0. destruct H0 as (a & b & ->). eauto.
Qed.
Lemma tree_parents_iff p : defined p -> exists l a, chain t (snd (fst p)) (pr_ty p) l /\ l = a ++ p :: tree_parents t p.
Proof using F AC.
  intro H. destruct (chain_at p H) as (l & a & b & C & E). exists l, a. split; [exact C|]. rewrite E. do 2 f_equal. unfold tree_parents. pose proof (finished_tidy V D t out F) as T.
  rewrite (call_chain_all V D t T AC (snd (fst p)) (pr_ty p) l size C (le_n _) b a p E); [reflexivity|]. destruct (chain_nodup _ _ _ C) as [N I]. assert (List.length l <= List.length (all_procs t)).
  { apply NoDup_incl_length; [exact N|]. intros x Hx. apply all_procs_iff. apply I. exact Hx. }
  apply (f_equal (@List.length procref)) in E. rewrite app_length in E. cbn [List.length] in E. change (@List.length procref l <= @List.length procref (all_procs t)) in H0. change (@List.length procref b < S (@List.length procref (all_procs t))). lia.
Qed.
End FACTS.
