(** C48: equality of constants is what it should be, and equal ones hash alike. *)
From Coq Require Import List NArith ZArith Bool String Lia Permutation Sorted.
From Verif Require Import Common.Text Const.Model Dmm.TgmModel Const.EqHash.
Import ListNotations.
Open Scope nat_scope.

(** ** Sorting *)
Lemma text_leb_total a b : text_leb a b = false -> text_leb b a = true.
Proof.
  revert b. induction a as [|x a IH]; intros [|y b]; cbn [text_leb]; intro H; try discriminate; try reflexivity.
  apply orb_false_iff in H. destruct H as [H1 H2]. apply N.ltb_ge in H1. destruct (N.eqb_spec x y) as [->|N]; cbn [andb] in H2.
  - rewrite N.eqb_refl, (IH _ H2). apply orb_true_r.
  - destruct (N.ltb_spec y x); [reflexivity|lia].
Qed.
Lemma text_leb_trans a b c : text_leb a b = true -> text_leb b c = true -> text_leb a c = true.
Proof.
  revert b c. induction a as [|x a IH]; intros [|y b] [|z c]; cbn [text_leb]; intros H1 H2; try discriminate; try reflexivity.
  apply orb_true_iff in H1, H2. apply orb_true_iff. rewrite N.ltb_lt in *. rewrite andb_true_iff, N.eqb_eq in *.
  destruct H1 as [H1|[-> H1]], H2 as [H2|[-> H2]]; [left; lia|left; assumption|left; assumption|right; split; [reflexivity|eauto]].
Qed.
Lemma text_leb_antisym a b : text_leb a b = true -> text_leb b a = true -> a = b.
Proof.
  revert b. induction a as [|x a IH]; intros [|y b]; cbn [text_leb]; intros H1 H2; try discriminate; try reflexivity.
  apply orb_true_iff in H1, H2. rewrite N.ltb_lt in *. rewrite andb_true_iff, N.eqb_eq in *.
  destruct H1 as [H1|[-> H1]], H2 as [H2|[Q H2]]; try (subst; lia). f_equal. auto.
Qed.
Section SORT.
Context {A : Type}.
Definition key_le (x y : text * A) : Prop := text_leb (fst x) (fst y) = true.
Lemma insert_perm (x : text * A) l : Permutation (x :: l) (insert_by_key x l).
Proof using Type.
  induction l as [|y l IH]; cbn [insert_by_key]; [auto|]. destruct (text_leb (fst x) (fst y)); [auto|]. rewrite perm_swap. constructor. exact IH.
Qed.
Lemma sort_perm (l : list (text * A)) : Permutation l (sort_by_key l).
Proof using Type. induction l as [|x l IH]; [auto|]. cbn [sort_by_key fold_right]. rewrite <- insert_perm. constructor. exact IH. Qed.
Lemma insert_sorted (x : text * A) l : StronglySorted key_le l -> StronglySorted key_le (insert_by_key x l).
Proof using Type.
  induction 1 as [|y l H IH Hy]; cbn [insert_by_key]; [repeat constructor|]. destruct (text_leb (fst x) (fst y)) eqn:E.
  - constructor; [constructor; assumption|]. constructor; [exact E|]. eapply Forall_impl; [|exact Hy]. intros z Hz. eapply text_leb_trans; eauto.
  - constructor; [exact IH|]. rewrite <- insert_perm. constructor; [|exact Hy]. apply text_leb_total. exact E.
Qed.
Lemma sort_sorted (l : list (text * A)) : StronglySorted key_le (sort_by_key l).
Proof using Type. induction l as [|x l IH]; [constructor|]. apply insert_sorted. exact IH. Qed.
Lemma sorted_unique (l m : list (text * A)) : StronglySorted key_le l -> StronglySorted key_le m -> NoDup (map fst l) -> Permutation l m -> l = m.
Proof using Type.
  intro Hl. revert m. induction Hl as [|x l H IH Hx]; intros m Hm Hn Hp; [apply Permutation_nil in Hp; auto|].
  destruct Hm as [|y m Hm Hy]; [apply Permutation_sym, Permutation_nil in Hp; discriminate|].
  assert (E : x = y).
  { pose proof (Permutation_in _ Hp (or_introl eq_refl)) as [Q|Q]; [auto|].
    pose proof (Permutation_in _ (Permutation_sym Hp) (or_introl eq_refl)) as [Q'|Q']; [auto|].
    rewrite Forall_forall in Hx, Hy. pose proof (text_leb_antisym _ _ (Hx y Q') (Hy x Q)) as E.
    cbn [map] in Hn. inversion Hn as [|? ? Hn1 _]; subst. destruct Hn1. rewrite E. apply in_map. exact Q'. }
  subst y. f_equal. apply IH; [exact Hm|cbn [map] in Hn; inversion Hn; assumption|]. eapply Permutation_cons_inv; eauto.
Qed.
End SORT.
(** Sorting looks at the keys only. *)
Lemma insert_map {A B : Type} (f : A -> B) (x : text * A) l :
  insert_by_key (fst x, f (snd x)) (map (fun e => (fst e, f (snd e))) l) = map (fun e => (fst e, f (snd e))) (insert_by_key x l).
Proof. induction l as [|y l IH]; [reflexivity|]. cbn [map insert_by_key fst]. destruct (text_leb (fst x) (fst y)); [reflexivity|]. cbn [map]. rewrite IH. reflexivity. Qed.
Lemma sort_map {A B : Type} (f : A -> B) l : sort_by_key (map (fun e => (fst e, f (snd e))) l) = map (fun e => (fst e, f (snd e))) (sort_by_key l).
Proof. induction l as [|x l IH]; [reflexivity|]. cbn [map sort_by_key fold_right]. fold (sort_by_key (map (fun e : text * A => (fst e, f (snd e))) l)). rewrite IH. apply insert_map. Qed.
Lemma sort_same {A : Type} (v w : list (text * A)) : NoDup (map fst v) -> Permutation v w -> sort_by_key v = sort_by_key w.
Proof.
  intros Hn Hp. apply sorted_unique; [apply sort_sorted|apply sort_sorted| |rewrite <- !sort_perm; exact Hp]. eapply Permutation_NoDup; [|exact Hn]. apply Permutation_map, sort_perm.
Qed.

Section PROPS.
Variable F : Type.
Variable fl : f32 F.
Variable f_hash : F -> N.
Notation constant := (constant F).
Notation pop := (pop F).
Notation same := (same F fl).
Notation same_pop := (same_pop F fl).
Notation keyed := (keyed F).
Notation keyed_pop := (keyed_pop F).
Notation const_eqb := (const_eqb F fl).
Notation pop_eqb := (pop_eqb F fl).
Notation hash := (hash F f_hash).
Notation hash_pop := (hash_pop F f_hash).
Notation arg := (constant * option constant)%type.
Notation same_arg := (fun a b : arg => same (fst a) (fst b) /\ opt_rel same (snd a) (snd b)).
Notation same_var := (fun a b : text * constant => fst a = fst b /\ same (snd a) (snd b)).
Notation keyed_arg := (fun a : arg => keyed (fst a) /\ forall v, snd a = Some v -> keyed v).

(** ** Equality *)
Lemma path_eqb p q : list_eqb text_eqb p q = true <-> p = q.
Proof using Type.
  revert q. induction p as [|x p IH]; intros [|y q]; cbn; try (split; [discriminate|discriminate]); [split; reflexivity|].
  rewrite andb_true_iff. destruct (text_eqb_spec x y) as [->|N]; [|split; [intros [Q _]; discriminate|intro Q; congruence]]. fold (list_eqb text_eqb p q). rewrite IH.
  split; [intros [_ ->]; reflexivity|intro Q; injection Q as ->; auto].
Qed.
Lemma fn_eqb_iff f g : fn_eqb f g = true <-> f = g.
Proof using Type. split; [destruct f, g; vm_compute; congruence|intros ->; destruct g; reflexivity]. Qed.
Lemma map_get_in k (m : list (text * constant)) v : map_get F k m = Some v -> In (k, v) m.
Proof using Type.
  unfold map_get. destruct (find _ m) as [e|] eqn:E; [|discriminate]. intro Q. injection Q as <-. apply find_some in E. destruct E as [E1 E2]. destruct (text_eqb_spec (fst e) k) as [<-|]; [|discriminate].
  destruct e; exact E1.
Qed.
Lemma map_get_of k (m : list (text * constant)) v : NoDup (map fst m) -> In (k, v) m -> map_get F k m = Some v.
Proof using Type.
  unfold map_get. induction m as [|[k' v'] m IH]; [intros _ []|]. cbn [map fst]. intros Hn [Q|Q].
  - injection Q as -> ->. cbn [find fst]. rewrite text_eqb_refl. reflexivity.
  - inversion Hn as [|? ? Hn1 Hn2]; subst. cbn [find fst]. destruct (text_eqb_spec k' k) as [->|N]; [|apply IH; assumption]. destruct Hn1. apply in_map_iff. exists (k, v). auto.
Qed.
(** the variables, up to order *)
Definition vars_eqb (v w : list (text * constant)) : bool :=
  (List.length v =? List.length w) && forallb (fun e => match map_get F (fst e) w with Some x => const_eqb (snd e) x | None => false end) v.
Lemma vars_eqb_iff v w : NoDup (map fst v) -> NoDup (map fst w) -> Forall (fun e => forall c, keyed c -> (const_eqb (snd e) c = true <-> same (snd e) c)) v ->
  Forall (fun e => keyed (snd e)) w ->
  (vars_eqb v w = true <-> exists w', Permutation w w' /\ Forall2 same_var v w').
Proof using Type.
  intros Hv Hw HI Hk. unfold vars_eqb. rewrite andb_true_iff, Nat.eqb_eq, forallb_forall. rewrite Forall_forall in HI, Hk. split.
  - intros [Hl Ha].
    assert (K : exists w', Forall2 same_var v w' /\ incl w' w).
    { clear Hv Hl. induction v as [|e v IH]; [exists []; split; [constructor|intros x []]|]. destruct IH as (w' & H1 & H2); [intros x Hx; apply HI; right; exact Hx|intros x Hx; apply Ha; right; exact Hx|].
      specialize (Ha e (or_introl eq_refl)). destruct (map_get F (fst e) w) as [x|] eqn:Eg; [|discriminate]. apply map_get_in in Eg. exists ((fst e, x) :: w'). split.
      - constructor; [|exact H1]. split; [reflexivity|]. apply (HI e (or_introl eq_refl) x); [exact (Hk _ Eg)|exact Ha].
      - intros y [<-|Hy]; auto. }
    destruct K as (w' & H1 & H2). exists w'. split; [|exact H1]. symmetry.
    assert (Hf : map fst w' = map fst v) by (clear -H1; induction H1 as [|a b v w' [Q _] _ IH]; cbn [map]; congruence).
    assert (Hl' : List.length w' = List.length v) by (rewrite <- (map_length fst w'), Hf; apply map_length).
    apply NoDup_Permutation_bis; [|lia|exact H2]. apply (NoDup_map_inv fst). rewrite Hf. exact Hv.
  - intros (w' & Hp & H). assert (Hl : List.length v = List.length w) by (rewrite (Permutation_length Hp); clear -H; induction H; cbn; auto).
    split; [exact Hl|]. intros e He. assert (K : exists b, In b w' /\ same_var e b) by (clear -H He; induction H as [|a b v w' Q _ IH]; [destruct He|destruct He as [<-|He]; [exists b; split; [left; reflexivity|exact Q]|destruct (IH He) as (x & Hx & Hs); exists x; split; [right; exact Hx|exact Hs]]]).
    destruct K as ([k x] & Hb & Q & Hs). cbn [fst snd] in *. apply (Permutation_in _ (Permutation_sym Hp)) in Hb. rewrite Q, (map_get_of _ _ _ Hw Hb). apply (HI e He x); [exact (Hk _ Hb)|exact Hs].
Qed.
Lemma args_eqb_iff l : Forall (fun a : arg => (forall c, keyed (fst a) -> keyed c -> (const_eqb (fst a) c = true <-> same (fst a) c)) /\
    forall v, snd a = Some v -> forall c, keyed v -> keyed c -> (const_eqb v c = true <-> same v c)) l ->
  forall m, Forall keyed_arg l -> Forall keyed_arg m ->
  (list_eqb (fun x y => const_eqb (fst x) (fst y) && opt_eqb const_eqb (snd x) (snd y)) l m = true <-> Forall2 same_arg l m).
Proof using Type.
  induction 1 as [|[k v] l [H1 H2] Hl IH]; intros [|[k' v'] m] Hk1 Hk2; cbn [list_eqb].
  - split; [constructor|reflexivity].
  - split; [discriminate|intro Q; inversion Q].
  - split; [discriminate|intro Q; inversion Q].
  - inversion_clear Hk1 as [|? ? [A1 A2] A3]. inversion_clear Hk2 as [|? ? [B1 B2] B3]. cbn [fst snd] in *. specialize (IH m A3 B3). rewrite !andb_true_iff, IH, (H1 k' A1 B1).
    assert (K : opt_eqb const_eqb v v' = true <-> opt_rel same v v').
    { destruct v as [v|], v' as [v'|]; cbn [opt_eqb]; [|split; [discriminate|intro Q; inversion Q]|split; [discriminate|intro Q; inversion Q]|split; [constructor|reflexivity]].
      rewrite (H2 v eq_refl v' (A2 v eq_refl) (B2 v' eq_refl)). split; [constructor; assumption|intro Q; inversion Q; assumption]. }
    rewrite K. split; [intros [[? ?] ?]; constructor; [split|]; assumption|intro Q; inversion_clear Q as [|? ? ? ? [? ?] ?]; cbn [fst snd] in *; auto].
Qed.
Lemma eqb_both : (forall a b, keyed a -> keyed b -> (const_eqb a b = true <-> same a b)) /\ (forall p q, keyed_pop p -> keyed_pop q -> (pop_eqb p q = true <-> same_pop p q)).
Proof using Type.
  apply (constant_deep_both F (fun a => forall b, keyed a -> keyed b -> (const_eqb a b = true <-> same a b)) (fun p => forall q, keyed_pop p -> keyed_pop q -> (pop_eqb p q = true <-> same_pop p q))).
  - intros h [h'|t x|x|f x|p|s|s|f] _ _; cbn [Model.const_eqb]; try (split; [discriminate|intro Q; inversion Q]).
    assert (K : opt_eqb (list_eqb text_eqb) h h' = true <-> h = h').
    { destruct h as [h|], h' as [h'|]; cbn [opt_eqb]; [|split; discriminate|split; discriminate|split; reflexivity]. rewrite path_eqb. split; congruence. }
    rewrite K. split; [intros ->; constructor|intro Q; inversion Q; reflexivity].
  - intros t x Ht Hx [h'|u y|y|f y|p|s|s|f] Ha Hb; cbn [Model.const_eqb]; try (split; [discriminate|intro Q; inversion Q]). inversion_clear Ha as [|? ? A1 A2| | | | | |]. inversion_clear Hb as [|? ? B1 B2| | | | | |].
    assert (K1 : opt_eqb pop_eqb t u = true <-> opt_rel same_pop t u).
    { destruct t as [t|], u as [u|]; cbn [opt_eqb]; [|split; [discriminate|intro Q; inversion Q]|split; [discriminate|intro Q; inversion Q]|split; [constructor|reflexivity]].
      rewrite (Ht t eq_refl u (A1 t eq_refl) (B1 u eq_refl)). split; [constructor; assumption|intro Q; inversion Q; assumption]. }
    assert (K2 : opt_eqb (list_eqb (fun x y => const_eqb (fst x) (fst y) && opt_eqb const_eqb (snd x) (snd y))) x y = true <-> opt_rel (Forall2 same_arg) x y).
    { destruct x as [x|], y as [y|]; cbn [opt_eqb]; [|split; [discriminate|intro Q; inversion Q]|split; [discriminate|intro Q; inversion Q]|split; [constructor|reflexivity]].
      rewrite (args_eqb_iff x); [split; [constructor; assumption|intro Q; inversion Q; assumption]| |exact (A2 x eq_refl)|exact (B2 y eq_refl)].
      eapply Forall_impl; [|exact (Hx x eq_refl)]. intros a [Q1 Q2]. split; [exact (fun c => Q1 c)|exact (fun v E c => Q2 v E c)]. }
    rewrite andb_true_iff, K1, K2. split; [intros [? ?]; constructor; assumption|intro Q; inversion Q; auto].
  - intros x Hx [h'|u y|y|f y|p|s|s|f] Ha Hb; cbn [Model.const_eqb]; try (split; [discriminate|intro Q; inversion Q]). inversion_clear Ha as [| |? A1| | | | |]. inversion_clear Hb as [| |? B1| | | | |].
    rewrite (args_eqb_iff x); [split; [constructor; assumption|intro Q; inversion Q; assumption]| |assumption|assumption]. eapply Forall_impl; [|exact Hx]. intros a [Q1 Q2]. split; [exact (fun c => Q1 c)|exact (fun v E c => Q2 v E c)].
  - intros f x Hx [h'|u y|y|g y|p|s|s|g] Ha Hb; cbn [Model.const_eqb]; try (split; [discriminate|intro Q; inversion Q]). inversion_clear Ha as [| | |? ? A1| | | |]. inversion_clear Hb as [| | |? ? B1| | | |].
    rewrite andb_true_iff, fn_eqb_iff, (args_eqb_iff x); [split; [intros [-> ?]; constructor; assumption|intro Q; inversion Q; auto]| |assumption|assumption]. eapply Forall_impl; [|exact Hx]. intros a [Q1 Q2]. split; [exact (fun c => Q1 c)|exact (fun v E c => Q2 v E c)].
  - intros p Hp [h'|u y|y|f y|q|s|s|f] Ha Hb; cbn [Model.const_eqb]; try (split; [discriminate|intro Q; inversion Q]). inversion_clear Ha. inversion_clear Hb. rewrite (Hp q); [|assumption|assumption]. split; [constructor; assumption|intro Q; inversion Q; assumption].
  - intros s [h'|u y|y|f y|q|s'|s'|f] _ _; cbn [Model.const_eqb]; try (split; [discriminate|intro Q; inversion Q]). destruct (text_eqb_spec s s') as [->|N]; [split; [constructor|reflexivity]|split; [discriminate|intro Q; inversion Q; congruence]].
  - intros s [h'|u y|y|f y|q|s'|s'|f] _ _; cbn [Model.const_eqb]; try (split; [discriminate|intro Q; inversion Q]). destruct (text_eqb_spec s s') as [->|N]; [split; [constructor|reflexivity]|split; [discriminate|intro Q; inversion Q; congruence]].
  - intros f [h'|u y|y|g y|q|s'|s'|g] _ _; cbn [Model.const_eqb]; try (split; [discriminate|intro Q; inversion Q]). split; [constructor; assumption|intro Q; inversion Q; assumption].
  - intros path v Hv [path' w] Ha Hb. inversion_clear Ha as [? ? A1 A2]. inversion_clear Hb as [? ? B1 B2]. cbn [Model.pop_eqb]. rewrite <- andb_assoc. change ((_ =? _) && forallb _ v) with (vars_eqb v w).
    rewrite andb_true_iff, path_eqb, vars_eqb_iff; [|assumption|assumption| |assumption].
    + split; [intros [-> (w' & Q1 & Q2)]; econstructor; eassumption|intro Q; inversion Q; subst; split; [reflexivity|eauto]].
    + rewrite Forall_forall in *. intros e He c Hc. apply Hv; [exact He|exact (A2 e He)|exact Hc].
Qed.
(** Two constants are equal exactly if they are the same. *)
Theorem C48_equality a b : keyed a -> keyed b -> (const_eqb a b = true <-> same a b).
Proof using Type. apply eqb_both. Qed.
Theorem C48_prefab_equality (p q : prefab constant) : NoDup (map fst (vars p)) -> NoDup (map fst (vars q)) -> Forall (fun e => keyed (snd e)) (vars p) -> Forall (fun e => keyed (snd e)) (vars q) ->
  (prefab_eqb F fl p q = true <-> same_prefab_ F fl p q).
Proof using Type.
  intros H1 H2 H3 H4. unfold prefab_eqb, same_prefab_. rewrite <- andb_assoc. change ((_ =? _) && forallb _ (vars p)) with (vars_eqb (vars p) (vars q)).
  rewrite andb_true_iff, vars_eqb_iff; [|assumption|assumption| |assumption].
  - destruct (text_eqb_spec (path p) (path q)) as [->|N]; [split; [intros [_ Q]; auto|intros [_ Q]; auto]|split; [intros [Q _]; discriminate|intros [Q _]; congruence]].
  - rewrite Forall_forall in *. intros e He c Hc. apply C48_equality; auto.
Qed.

(** ** It is an equivalence *)
Lemma same_refl_both : (forall f, f_eq F fl f f = true) -> (forall a, same a a) /\ (forall p, same_pop p p).
Proof using Type.
  intro Hr. assert (HA : forall l : list arg, Forall (fun a => same (fst a) (fst a) /\ forall v, snd a = Some v -> same v v) l -> Forall2 same_arg l l).
  { induction 1 as [|[k [v|]] l [H1 H2] _ IH]; constructor; try assumption; split; try assumption; cbn [snd]; constructor. apply H2. reflexivity. }
  apply (constant_deep_both F (fun a => same a a) (fun p => same_pop p p)); try (intros; constructor; auto; fail).
  - intros t x Ht Hx. constructor; [destruct t; constructor; auto|destruct x; constructor; auto].
  - intros path v H. apply (same_Pop F fl path v v v); [reflexivity|]. induction H; constructor; auto.
Qed.
Lemma flip_all {A : Type} (R S : A -> A -> Prop) l m : Forall (fun a => forall b, R a b -> S b a) l -> Forall2 R l m -> Forall2 S m l.
Proof using Type. intros Hl H. induction H; constructor; inversion_clear Hl; auto. Qed.
Lemma same_sym_both : (forall f g, f_eq F fl f g = true -> f_eq F fl g f = true) -> (forall a b, same a b -> same b a) /\ (forall p q, same_pop p q -> same_pop q p).
Proof using Type.
  intro Hr. assert (HA : forall l m : list arg, Forall (fun a => (forall b, same (fst a) b -> same b (fst a)) /\ forall v, snd a = Some v -> forall b, same v b -> same b v) l -> Forall2 same_arg l m -> Forall2 same_arg m l).
  { intros l m Hl H. refine (flip_all _ _ _ _ _ H). eapply Forall_impl; [|exact Hl]. intros [k v] [H1 H2] [k' v'] [Q1 Q2]. cbn [fst snd] in *. split; [auto|]. destruct Q2; constructor. eapply H2; [reflexivity|assumption]. }
  apply (constant_deep_both F (fun a => forall b, same a b -> same b a) (fun p => forall q, same_pop p q -> same_pop q p)).
  - intros h b Q. inversion Q; subst; constructor.
  - intros t x Ht Hx b Q. inversion Q as [|? u ? y Q1 Q2| | | | | |]; subst. constructor; [destruct Q1; constructor; eapply Ht; eauto|destruct Q2; constructor; apply HA; [apply Hx; reflexivity|assumption]].
  - intros x Hx b Q. inversion Q; subst. constructor. auto.
  - intros f x Hx b Q. inversion Q; subst. constructor. auto.
  - intros p Hp b Q. inversion Q; subst. constructor. auto.
  - intros s b Q. inversion Q; subst; constructor.
  - intros s b Q. inversion Q; subst; constructor.
  - intros f b Q. inversion Q; subst. constructor. auto.
  - intros path v Hv q Q. inversion Q as [? ? w w' Hp H E1 E2]; subst.
    assert (H' : Forall2 same_var w' v) by (refine (flip_all _ _ _ _ _ H); eapply Forall_impl; [|exact Hv]; intros a Ha b [Q1 Q2]; auto).
    destruct (Permutation_Forall2 (Permutation_sym Hp) H') as (v' & P1 & P2). econstructor; eassumption.
Qed.
Lemma chain_all {A : Type} (R : A -> A -> Prop) l : Forall (fun a => forall b c, R a b -> R b c -> R a c) l -> forall m n, Forall2 R l m -> Forall2 R m n -> Forall2 R l n.
Proof using Type. induction 1 as [|a l Ha _ IH]; intros m n H1 H2; inversion H1; subst; inversion H2; subst; constructor; eauto. Qed.
Lemma same_trans_both : (forall f g h, f_eq F fl f g = true -> f_eq F fl g h = true -> f_eq F fl f h = true) ->
  (forall a b c, same a b -> same b c -> same a c) /\ (forall p q r, same_pop p q -> same_pop q r -> same_pop p r).
Proof using Type.
  intro Hr. assert (HA : forall l : list arg, Forall (fun a => (forall b c, same (fst a) b -> same b c -> same (fst a) c) /\ forall v, snd a = Some v -> forall b c, same v b -> same b c -> same v c) l ->
    forall m n, Forall2 same_arg l m -> Forall2 same_arg m n -> Forall2 same_arg l n).
  { intros l Hl. apply chain_all. eapply Forall_impl; [|exact Hl]. intros [k v] [H1 H2] [k' v'] [k'' v''] [Q1 Q2] [Q3 Q4]. cbn [fst snd] in *. split; [eauto|].
    destruct Q2; inversion Q4; subst; constructor. eapply H2; eauto. }
  apply (constant_deep_both F (fun a => forall b c, same a b -> same b c -> same a c) (fun p => forall q r, same_pop p q -> same_pop q r -> same_pop p r)).
  - intros h b c Q1 Q2. inversion Q1; subst. exact Q2.
  - intros t x Ht Hx b c Q1 Q2. inversion Q1 as [|? u ? y Q11 Q12| | | | | |]; subst. inversion Q2 as [|? w ? z Q21 Q22| | | | | |]; subst.
    constructor; [destruct Q11; inversion Q21; subst; constructor; eapply Ht; eauto|destruct Q12; inversion Q22; subst; constructor; eapply HA; eauto].
  - intros x Hx b c Q1 Q2. inversion Q1; subst. inversion Q2; subst. constructor. eauto.
  - intros f x Hx b c Q1 Q2. inversion Q1; subst. inversion Q2; subst. constructor. eauto.
  - intros p Hp b c Q1 Q2. inversion Q1; subst. inversion Q2; subst. constructor. eauto.
  - intros s b c Q1 Q2. inversion Q1; subst. exact Q2.
  - intros s b c Q1 Q2. inversion Q1; subst. exact Q2.
  - intros f b c Q1 Q2. inversion Q1; subst. inversion Q2; subst. constructor. eauto.
  - intros path v Hv q r Q1 Q2. inversion Q1 as [? ? w w' P1 H1]; subst. inversion Q2 as [? ? u u' P2 H2]; subst.
    destruct (Permutation_Forall2 P1 H2) as (u'' & P3 & H3). apply (same_Pop F fl path v u u''); [rewrite P2; exact P3|]. refine (chain_all _ _ _ _ _ H1 H3).
    eapply Forall_impl; [|exact Hv]. intros a Ha b c [A1 A2] [B1 B2]. split; [congruence|eauto].
Qed.
(** If equality of numbers is an equivalence, so is equality of constants. *)
Theorem C48_equivalence :
  (forall f, f_eq F fl f f = true) -> (forall f g, f_eq F fl f g = true -> f_eq F fl g f = true) ->
  (forall f g h, f_eq F fl f g = true -> f_eq F fl g h = true -> f_eq F fl f h = true) ->
  (forall a, keyed a -> const_eqb a a = true) /\
  (forall a b, keyed a -> keyed b -> const_eqb a b = const_eqb b a) /\
  (forall a b c, keyed a -> keyed b -> keyed c -> const_eqb a b = true -> const_eqb b c = true -> const_eqb a c = true).
Proof using Type.
  intros R S T. split; [intros a H; apply C48_equality; auto; apply same_refl_both; exact R|]. split.
  - intros a b Ha Hb. apply eq_true_iff_eq. rewrite !C48_equality by assumption. split; apply same_sym_both; exact S.
  - intros a b c Ha Hb Hc. rewrite !C48_equality by assumption. apply same_trans_both. exact T.
Qed.

(** ** Equal constants hash alike *)
Hypothesis f_hash_eq : forall f g, f_eq F fl f g = true -> f_hash f = f_hash g.
Lemma hash_list_same {A : Type} (R : A -> A -> Prop) (h : A -> list word) l m : Forall2 R l m -> Forall (fun a => forall b, R a b -> h a = h b) l -> hash_list h l = hash_list h m.
Proof using Type. intros H Hl. unfold hash_list. f_equal; [f_equal; clear Hl; induction H; cbn; auto|]. f_equal. induction H; [reflexivity|]. inversion_clear Hl. cbn [map]. f_equal; auto. Qed.
Lemma hash_vars_same v w : NoDup (map fst w) -> Forall (fun e => forall c, keyed c -> same (snd e) c -> hash (snd e) = hash c) v -> Forall (fun e => keyed (snd e)) w ->
  (exists w', Permutation w w' /\ Forall2 same_var v w') -> hash_vars (map (fun e => (fst e, hash (snd e))) v) = hash_vars (map (fun e => (fst e, hash (snd e))) w).
Proof using Type.
  intros Hn Hv Hk (w' & Hp & H). unfold hash_vars. rewrite (sort_map hash w). rewrite (sort_same w w' Hn Hp), <- (sort_map hash w'). do 3 f_equal. rewrite Hp in Hk. clear Hp Hn.
  induction H as [|a b v w' [Q1 Q2] _ IH]; [reflexivity|]. inversion_clear Hv. inversion_clear Hk. cbn [map]. f_equal; [f_equal; auto|auto].
Qed.
Lemma hash_both : (forall a b, keyed a -> keyed b -> same a b -> hash a = hash b) /\ (forall p q, keyed_pop p -> keyed_pop q -> same_pop p q -> hash_pop p = hash_pop q).
Proof using f_hash_eq.
  assert (HA : forall l m : list arg, Forall (fun a => (forall b, keyed (fst a) -> keyed b -> same (fst a) b -> hash (fst a) = hash b) /\ forall v, snd a = Some v -> forall b, keyed v -> keyed b -> same v b -> hash v = hash b) l ->
    Forall keyed_arg l -> Forall keyed_arg m -> Forall2 same_arg l m -> hash_list (fun x => hash (fst x) ++ hash_option hash (snd x)) l = hash_list (fun x => hash (fst x) ++ hash_option hash (snd x)) m).
  { intros l m HI H1 H2 H. unfold hash_list. f_equal; [f_equal; clear -H; induction H; cbn; auto|]. f_equal. induction H as [|[k v] [k' v'] l m [Q1 Q2] _ IH]; [reflexivity|].
    inversion_clear HI as [|? ? [I1 I2] HI']. inversion_clear H1 as [|? ? [A1 A2] H1']. inversion_clear H2 as [|? ? [B1 B2] H2']. cbn [map fst snd] in *. f_equal; [|auto]. f_equal; [auto|].
    destruct Q2 as [|va vb Q2]; [reflexivity|]. cbn [hash_option]. f_equal. eapply I2; eauto. }
  apply (constant_deep_both F (fun a => forall b, keyed a -> keyed b -> same a b -> hash a = hash b) (fun p => forall q, keyed_pop p -> keyed_pop q -> same_pop p q -> hash_pop p = hash_pop q)).
  - intros h b _ _ Q. inversion Q; subst. reflexivity.
  - intros t x Ht Hx b Ha Hb Q. inversion Q as [|? u ? y Q1 Q2| | | | | |]; subst. inversion_clear Ha as [|? ? A1 A2| | | | | |]. inversion_clear Hb as [|? ? B1 B2| | | | | |]. cbn [EqHash.hash]. f_equal. f_equal.
    + destruct Q1; [reflexivity|]. cbn [hash_option]. f_equal. eapply Ht; eauto.
    + destruct Q2; [reflexivity|]. cbn [hash_option]. f_equal. apply HA; auto.
  - intros x Hx b Ha Hb Q. inversion Q; subst. inversion_clear Ha. inversion_clear Hb. cbn [EqHash.hash]. f_equal. apply HA; assumption.
  - intros f x Hx b Ha Hb Q. inversion Q; subst. inversion_clear Ha. inversion_clear Hb. cbn [EqHash.hash]. do 2 f_equal. apply HA; assumption.
  - intros p Hp b Ha Hb Q. inversion Q; subst. inversion_clear Ha. inversion_clear Hb. cbn [EqHash.hash]. f_equal. auto.
  - intros s b _ _ Q. inversion Q; subst. reflexivity.
  - intros s b _ _ Q. inversion Q; subst. reflexivity.
  - intros f b _ _ Q. inversion Q; subst. cbn [EqHash.hash]. do 3 f_equal. auto.
  - intros path v Hv q Ha Hb Q. inversion Q as [? ? w w' P H]; subst. inversion_clear Ha as [? ? A1 A2]. inversion_clear Hb as [? ? B1 B2]. cbn [EqHash.hash_pop]. f_equal. apply hash_vars_same; [assumption| |assumption|eauto].
    rewrite Forall_forall in *. intros e He c Hc. apply Hv; auto.
Qed.
Theorem C48_hash a b : keyed a -> keyed b -> const_eqb a b = true -> hash a = hash b.
Proof using f_hash_eq. intros Ha Hb Q. apply hash_both; [assumption|assumption|]. apply C48_equality; assumption. Qed.
Theorem C48_prefab_hash (p q : prefab constant) : NoDup (map fst (vars p)) -> NoDup (map fst (vars q)) -> Forall (fun e => keyed (snd e)) (vars p) -> Forall (fun e => keyed (snd e)) (vars q) ->
  prefab_eqb F fl p q = true -> hash_prefab F f_hash p = hash_prefab F f_hash q.
Proof using f_hash_eq.
  intros H1 H2 H3 H4 Q. apply C48_prefab_equality in Q; [|assumption..]. destruct Q as [Q1 Q2]. unfold hash_prefab. rewrite Q1. f_equal. apply hash_vars_same; [assumption| |assumption|exact Q2].
  rewrite Forall_forall in *. intros e He c Hc. apply hash_both; auto.
Qed.
End PROPS.
