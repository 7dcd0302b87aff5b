(** Lemmas for C36. *)
From Coq Require Import List ZArith Bool Lia Sorting.Sorted Permutation.
From Verif Require Import Common.Text Common.Order Loc.Model Itree.Model Itree.Spec Itree.Proofs Itree.Props.
From Verif Require Import Pp.Model Pp.HistoryModel Pp.HistorySpec.
Import ListNotations.

(** *** Lists *)
Lemma ss_app : forall A (R : A -> A -> Prop) l1 l2, StronglySorted R (l1 ++ l2) <->
  StronglySorted R l1 /\ StronglySorted R l2 /\ forall x y, In x l1 -> In y l2 -> R x y.
Proof.
  intros A R. induction l1 as [|a l1 IH]; intro l2; cbn [app].
  - split; [intro H; split; [constructor | split; [exact H | intros x y []]] | intros [_ [H _]]; exact H].
  - split.
    + intro H. inversion H as [|? ? H1 H2]; subst. apply IH in H1. destruct H1 as [Ha [Hb Hc]]. rewrite Forall_app in H2.
      destruct H2 as [H2 H3]. split; [constructor; assumption|]. split; [exact Hb|]. intros x y [<-|Hx] Hy; [|apply Hc; assumption].
      rewrite Forall_forall in H3. apply H3, Hy.
    + intros [H1 [H2 H3]]. inversion H1 as [|? ? Ha Hb]; subst. constructor.
      * apply IH. split; [exact Ha|]. split; [exact H2|]. intros x y Hx Hy. apply H3; [right|]; assumption.
      * apply Forall_app. split; [exact Hb|]. apply Forall_forall. intros y Hy. apply H3; [left; reflexivity | exact Hy].
Qed.
Lemma ss_filter : forall A B (R : B -> B -> Prop) (g : A -> B) f l, StronglySorted R (map g l) -> StronglySorted R (map g (filter f l)).
Proof.
  intros A B R g f. induction l as [|a l IH]; cbn [map filter]; intro H; [exact H|]. inversion H as [|? ? H1 H2]; subst.
  destruct (f a); [|apply IH, H1]. cbn [map]. constructor; [apply IH, H1|]. apply Forall_forall. intros y Hy.
  apply in_map_iff in Hy. destruct Hy as (x & <- & Hx). apply filter_In in Hx. rewrite Forall_forall in H2. apply H2, in_map, Hx.
Qed.
Lemma ss_rev : forall A (R : A -> A -> Prop) l, StronglySorted R l -> StronglySorted (fun x y => R y x) (rev l).
Proof.
  intros A R. induction l as [|a l IH]; intro H; [constructor|]. inversion H as [|? ? H1 H2]; subst. cbn [rev]. apply ss_app.
  split; [apply IH, H1|]. split; [constructor; constructor|]. intros x y Hx [<-|[]]. apply in_rev in Hx. rewrite Forall_forall in H2. apply H2, Hx.
Qed.
(** two strictly sorted lists with the same members *)
Lemma ss_ext : forall (A : Type) (g : A -> loc) l1 l2, StronglySorted klt (map g l1) -> StronglySorted klt (map g l2) ->
  (forall x, In x l1 <-> In x l2) -> l1 = l2.
Proof.
  intros A g. induction l1 as [|a l1 IH]; intros [|b l2] H1 H2 He.
  - reflexivity.
  - destruct (proj2 (He b) (or_introl eq_refl)).
  - destruct (proj1 (He a) (or_introl eq_refl)).
  - cbn [map] in H1, H2. inversion H1 as [|? ? S1 F1]; subst. inversion H2 as [|? ? S2 F2]; subst.
    rewrite Forall_forall in F1, F2.
    assert (a = b).
    { destruct (proj1 (He a) (or_introl eq_refl)) as [|Ha]; [congruence|].
      destruct (proj2 (He b) (or_introl eq_refl)) as [|Hb]; [congruence|].
      exfalso. apply (klt_irrefl (g a)). apply klt_trans with (g b); [apply F1, in_map, Hb | apply F2, in_map, Ha]. }
    subst b. f_equal. apply IH; [assumption|assumption|]. intro x. split; intro Hx.
    + destruct (proj1 (He x) (or_intror Hx)) as [->|]; [|assumption]. exfalso. apply (klt_irrefl (g x)). apply F1, in_map, Hx.
    + destruct (proj2 (He x) (or_intror Hx)) as [->|]; [|assumption]. exfalso. apply (klt_irrefl (g x)). apply F2, in_map, Hx.
Qed.
Lemma ss_nodup : forall (A : Type) (g : A -> loc) l, StronglySorted kle (map g l) -> NoDup (map g l) -> StronglySorted klt (map g l).
Proof.
  intros A g. induction l as [|a l IH]; cbn [map]; intros H N; [constructor|]. inversion H as [|? ? H1 H2]; subst. inversion N as [|? ? N1 N2]; subst.
  constructor; [apply IH; assumption|]. rewrite Forall_forall in *. intros y Hy. specialize (H2 y Hy). apply kle_iff in H2. destruct H2 as [|E]; [assumption|].
  exfalso. apply N1. rewrite E. exact Hy.
Qed.

(** *** The history of one macro *)
Section ONE.
Context {D : Type}.
Notation event := (event D).
Lemma about_d : forall n l n0 (d : D), about n (Defined l n0 d) = text_eqb n0 n. Proof using Type. reflexivity. Qed.
Lemma about_u : forall n l n0, about n (Undefined l n0 : event) = text_eqb n0 n. Proof using Type. reflexivity. Qed.
Definition pstep (x : list (loc * D) * list ((loc * loc) * D)) (e : event) : list (loc * D) * list ((loc * loc) * D) :=
  match e with
  | Defined l _ d => ((l, d) :: fst x, snd x)
  | Undefined l _ => match fst x with [] => x | (a, d) :: st => (st, ((a, l), d) :: snd x) end
  end.
Definition prun (es : list event) : list (loc * D) * list ((loc * loc) * D) := fold_left pstep es ([], []).
Lemma prun_snoc : forall es e, prun (es ++ [e]) = pstep (prun es) e.
Proof using Type. intros es e. unfold prun. apply fold_left_app. Qed.

Lemma filter_all : forall (A : Type) (f : A -> bool) l, (forall x, In x l -> f x = true) -> filter f l = l.
Proof using Type. intros A f. induction l as [|a l IH]; intro H; [reflexivity|]. cbn [filter]. rewrite (H a (or_introl eq_refl)), IH; [reflexivity|]. intros x Hx. apply H. right. exact Hx. Qed.

(** all places mentioned are places of events *)
Lemma prun_places : forall es, (forall a d, In (a, d) (fst (prun es)) -> In a (map where_ es)) /\
  (forall a b d, In ((a, b), d) (snd (prun es)) -> In a (map where_ es) /\ In b (map where_ es)).
Proof using Type.
  induction es as [|e es [IH1 IH2]] using rev_ind; [split; intros; contradiction|]. rewrite prun_snoc, map_app.
  assert (S1 : forall a d, In (a, d) (fst (prun es)) -> In a (map where_ es ++ map where_ [e])) by (intros a d H; apply in_or_app; left; apply (IH1 a d), H).
  assert (S2 : forall a b d, In ((a, b), d) (snd (prun es)) -> In a (map where_ es ++ map where_ [e]) /\ In b (map where_ es ++ map where_ [e])).
  { intros a b d H. destruct (IH2 a b d H). split; apply in_or_app; left; assumption. }
  destruct e as [l n d|l n]; cbn [pstep].
  - cbn [fst snd]. split; [|exact S2]. intros a d' [E|H]; [|apply (S1 a d'), H]. injection E as <- <-. apply in_or_app. right. left. reflexivity.
  - destruct (fst (prun es)) as [|[a d] st] eqn:E; [split; [rewrite E; intros ? ? []|exact S2]|]. cbn [fst snd].
    split; [intros a' d' H; apply (S1 a' d'); right; exact H|]. intros a' b' d' [X|H]; [|apply (S2 a' b' d'), H].
    injection X as <- <- <-. split; [apply (S1 a d); left; reflexivity | apply in_or_app; right; left; reflexivity].
Qed.

Lemma prun_sorted : forall es, StronglySorted klt (map where_ es) ->
  StronglySorted (fun x y => klt y x) (map fst (fst (prun es))) /\
  NoDup (map fst (fst (prun es)) ++ map (fun r => fst (fst r)) (snd (prun es))).
Proof using Type.
  induction es as [|e es IH] using rev_ind; intro H; [split; constructor|].
  rewrite map_app in H. apply ss_app in H. destruct H as [H1 [_ H3]]. destruct (IH H1) as [IH1 IH2]. clear IH.
  destruct (prun_places es) as [P1 P2]. rewrite prun_snoc. destruct e as [l n d|l n]; cbn [pstep].
  - cbn [fst snd map app].
    assert (Hl : forall x, In x (map where_ es) -> klt x l) by (intros x Hx; apply H3; [exact Hx | left; reflexivity]).
    split.
    + constructor; [exact IH1|]. apply Forall_forall. intros y Hy. apply in_map_iff in Hy. destruct Hy as ([a d'] & <- & Hin). apply Hl, (P1 a d'), Hin.
    + constructor; [|exact IH2]. intro Hin. apply (klt_irrefl l). apply Hl. apply in_app_or in Hin. destruct Hin as [Hin|Hin]; apply in_map_iff in Hin.
      * destruct Hin as ([a d'] & E & Hin). cbn in E. subst a. apply (P1 l d'), Hin.
      * destruct Hin as ([[a b] d'] & E & Hin). cbn in E. subst a. apply (P2 l b d'), Hin.
  - destruct (fst (prun es)) as [|[a d] st] eqn:E; [rewrite E; cbn [map]; split; [constructor | exact IH2]|]. cbn [fst snd map app] in *.
    inversion IH1; subst. split; [assumption|].
    apply (Permutation_NoDup (l := a :: map fst st ++ map (fun r => fst (fst r)) (snd (prun es)))); [|exact IH2].
    apply Permutation_middle.
Qed.

(** the definitions that can be seen from a place *)
Lemma prun_seen : forall es q, StronglySorted klt (map where_ es) -> forall a d,
  In (a, d) (fst (prun (filter (seen_from q) es))) <->
  kle a q /\ (In (a, d) (fst (prun es)) \/ exists b, In ((a, b), d) (snd (prun es)) /\ kle q b).
Proof using Type.
  induction es as [|e es IH] using rev_ind; intros q H a d; [cbn; split; [intros [] | intros [_ [[]|(b & [] & _)]]]|].
  rewrite map_app in H. apply ss_app in H. destruct H as [H1 [_ H3]]. specialize (IH q H1). destruct (prun_places es) as [P1 P2].
  rewrite filter_app. cbn [filter].
  assert (Hall : forall l, kle l q -> where_ e = l -> filter (seen_from q) es = es).
  { intros l Hl Hw. apply filter_all. intros x Hx.
    assert (klt (where_ x) q). { apply klt_kle_trans with l; [|exact Hl]. rewrite <- Hw. apply H3; [apply in_map, Hx | left; reflexivity]. }
    destruct x as [l' n' d'|l' n']; cbn [seen_from where_] in *; [apply kleb_true, klt_kle | apply kltb_true]; assumption. }
  destruct e as [l n d0|l n]; cbn [seen_from] in *.
  - destruct (kleb_spec l q) as [Hle|Hgt].
    + rewrite (Hall l Hle eq_refl), !prun_snoc. cbn [pstep fst snd]. rewrite (Hall l Hle eq_refl) in IH. cbn [In].
      split.
      * intros [E|Hin]; [injection E as <- <-; split; [exact Hle | left; left; reflexivity]|]. apply IH in Hin. destruct Hin as [Ha [Hin|Hb]]; (split; [exact Ha|]); [left; right; exact Hin | right; exact Hb].
      * intros [Ha [[E|Hin]|Hb]]; [left; exact E | right; exact Hin|]. right. apply IH. split; [exact Ha | right; exact Hb].
    + rewrite app_nil_r, prun_snoc. cbn [pstep fst snd]. rewrite IH. split; intros [Ha Hx]; (split; [exact Ha|]).
      * destruct Hx as [Hx|Hx]; [left; right; exact Hx | right; exact Hx].
      * destruct Hx as [[E|Hx]|Hx]; [injection E as <- <-; contradiction | left; exact Hx | right; exact Hx].
  - destruct (kltb_spec l q) as [Hlt|Hge].
    + rewrite (Hall l (klt_kle _ _ Hlt) eq_refl), !prun_snoc. rewrite (Hall l (klt_kle _ _ Hlt) eq_refl) in IH. cbn [pstep].
      assert (Hold : forall b d', In ((a, b), d') (snd (prun es)) -> kle q b -> False).
      { intros b d' Hin Hb. destruct (P2 a b d' Hin) as [_ Hbin]. apply (klt_irrefl q). apply kle_klt_trans with b; [exact Hb|].
        apply klt_trans with l; [|exact Hlt]. apply H3; [exact Hbin | left; reflexivity]. }
      assert (Hq : forall d', In (a, d') (fst (prun es)) -> kle a q).
      { intros d' Hin. apply klt_kle. apply klt_trans with l; [|exact Hlt]. apply H3; [apply (P1 a d'), Hin | left; reflexivity]. }
      destruct (fst (prun es)) as [|[a0 d0] st] eqn:E.
      * rewrite E. cbn [In]. split; [intros [] | intros [_ [[]|(b & Hb & Hqb)]]]. exact (Hold b d Hb Hqb).
      * cbn [fst snd In]. split.
        -- intro Hin. split; [apply (Hq d); right; exact Hin | left; exact Hin].
        -- intros [Ha [Hin|(b & [X|Hb] & Hqb)]]; [exact Hin| |elim (Hold b d Hb Hqb)].
           injection X as <- <- <-. exfalso. apply (klt_irrefl q). apply kle_klt_trans with l; assumption.
    + apply not_klt in Hge. rewrite app_nil_r, IH, prun_snoc. cbn [pstep].
      destruct (fst (prun es)) as [|[a0 d0] st] eqn:E; [rewrite E; reflexivity|]. cbn [fst snd In]. split; intros [Ha Hx]; (split; [exact Ha|]).
      * destruct Hx as [[X|Hx]|(b & Hb & Hqb)]; [injection X as <- <-; right; exists l; split; [left; reflexivity | exact Hge] | left; exact Hx | right; exists b; split; [right|]; assumption].
      * destruct Hx as [Hx|(b & [X|Hb] & Hqb)]; [left; right; exact Hx | injection X as <- <- <-; left; left; reflexivity | right; exists b; split; assumption].
Qed.

Lemma in_force_prun : forall es n, in_force es n = fst (prun (filter (about n) es)).
Proof using Type.
  induction es as [|e es IH] using rev_ind; intro n; [reflexivity|].
  unfold in_force. rewrite fold_left_app. cbn [fold_left]. fold (in_force es n). rewrite IH, filter_app. cbn [filter].
  destruct (about n e); [|rewrite app_nil_r; reflexivity]. rewrite prun_snoc. destruct e as [l n' d|l n']; cbn [pstep fst]; [reflexivity|].
  destruct (fst (prun (filter (about n) es))) as [|[a d] st] eqn:E; [rewrite E|]; reflexivity.
Qed.
Lemma about_seen : forall (es : list event) n q, filter (about n) (filter (seen_from q) es) = filter (seen_from q) (filter (about n) es).
Proof using Type.
  intros es n q. induction es as [|e es IH]; [reflexivity|]. cbn [filter].
  destruct (seen_from q e) eqn:E1, (about n e) eqn:E2; cbn [filter]; rewrite ?E1, ?E2, IH; reflexivity.
Qed.
End ONE.

(** *** The define map *)
Section DM.
Context {F : Type}.
Notation define := (@define F).
Notation define_map := (@define_map F).
Notation record := (((loc * loc) * (text * define))%type).
Definition dm_wf (m : define_map) : Prop := NoDup (map fst m) /\ forall e, In e m -> snd e <> [].

Lemma insert_keys : forall (m : define_map) n v k, In k (map fst (dm_insert m n v)) -> k = n \/ In k (map fst m).
Proof using Type.
  induction m as [|[k' s] m IH]; intros n v k; cbn [dm_insert map fst].
  - intros [<-|[]]. left. reflexivity.
  - destruct (text_eqb k' n) eqn:E; cbn [map fst In].
    + intros [<-|H]; right; [left; reflexivity | right; exact H].
    + intros [<-|H]; [right; left; reflexivity|]. destruct (IH n v k H); [left | right; right]; assumption.
Qed.
Lemma insert_wf : forall (m : define_map) n v, dm_wf m -> dm_wf (dm_insert m n v).
Proof using Type.
  unfold dm_wf. induction m as [|[k' s] m IH]; intros n v [N H]; cbn [dm_insert].
  - split; [constructor; [intros [] | constructor]|]. intros e [<-|[]]. discriminate.
  - inversion N as [|? ? N1 N2]; subst. destruct (text_eqb_spec k' n) as [->|Hne].
    + split; [exact N|]. intros e [<-|He]; [discriminate | apply H; right; exact He].
    + destruct (IH n v) as [IH1 IH2]; [split; [exact N2|]; intros e He; apply H; right; exact He|]. split.
      * cbn [map fst]. constructor; [|exact IH1]. intro Hin. apply insert_keys in Hin. destruct Hin; [congruence|contradiction].
      * intros e [<-|He]; [apply (H (k', s)); left; reflexivity | apply IH2, He].
Qed.
Lemma insert_stack : forall (m : define_map) n v k, dm_stack (dm_insert m n v) k = if text_eqb n k then v :: dm_stack m k else dm_stack m k.
Proof using Type.
  induction m as [|[k' s] m IH]; intros n v k; cbn [dm_insert dm_stack].
  - destruct (text_eqb_spec n k); reflexivity.
  - destruct (text_eqb_spec k' n) as [->|Hne]; cbn [dm_stack].
    + destruct (text_eqb n k); reflexivity.
    + rewrite IH. destruct (text_eqb_spec k' k) as [->|]; [|reflexivity]. destruct (text_eqb_spec n k) as [->|]; [congruence|reflexivity].
Qed.
Lemma stack_in : forall (m : define_map) k, dm_stack m k <> [] -> In k (map fst m).
Proof using Type.
  induction m as [|[k' s] m IH]; intros k; cbn [dm_stack map fst]; [congruence|]. destruct (text_eqb_spec k' k) as [->|]; [left; reflexivity|]. intro H. right. apply IH, H.
Qed.
Lemma stack_notin : forall (m : define_map) k, ~ In k (map fst m) -> dm_stack m k = [].
Proof using Type. intros m k H. destruct (dm_stack m k) eqn:E; [reflexivity|]. elim H. apply stack_in. rewrite E. discriminate. Qed.
Lemma remove_spec : forall (m : define_map) n, dm_wf m -> forall r m', dm_remove m n = (r, m') ->
  dm_wf m' /\ r = hd_error (dm_stack m n) /\ (forall k, dm_stack m' k = if text_eqb n k then tl (dm_stack m k) else dm_stack m k) /\
  (forall k, In k (map fst m') -> In k (map fst m)).
Proof using Type.
  unfold dm_wf. induction m as [|[k' s] m IH]; intros n [N H] r m'; cbn [dm_remove dm_stack].
  - intro E. injection E as <- <-. split; [split; [constructor | intros e []]|]. split; [reflexivity|]. split; [|tauto]. intro k. cbn. destruct (text_eqb n k); reflexivity.
  - inversion N as [|? ? N1 N2]; subst. assert (Hs : s <> []) by (apply (H (k', s)); left; reflexivity).
    assert (Hm : forall e, In e m -> snd e <> []) by (intros e He; apply H; right; exact He).
    destruct (text_eqb_spec k' n) as [->|Hne].
    + destruct s as [|v [|w s]]; [congruence| |]; intro E; injection E as <- <-.
      * split; [split; assumption|]. split; [reflexivity|]. split; [|intros k Hk; right; exact Hk]. intro k. destruct (text_eqb_spec n k) as [<-|]; [|reflexivity]. apply stack_notin, N1.
      * split; [split; [exact N|]; intros e [<-|He]; [discriminate | apply Hm, He]|]. split; [reflexivity|]. split; [|intros k Hk; exact Hk]. intro k. cbn [dm_stack]. destruct (text_eqb n k); reflexivity.
    + destruct (dm_remove m n) as [r0 m0] eqn:E0. intro E. injection E as <- <-.
      destruct (IH n (conj N2 Hm) r0 m0 E0) as ([W1 W2] & Hr & Hst & Hk).
      split; [|split; [exact Hr | split]].
      * split; [cbn [map fst]; constructor; [|exact W1]; intro Hin; apply N1, Hk, Hin|]. intros e [<-|He]; [exact Hs | apply W2, He].
      * intro k. cbn [dm_stack]. rewrite Hst. destruct (text_eqb_spec k' k) as [->|]; [|reflexivity]. destruct (text_eqb_spec n k) as [->|]; [congruence|reflexivity].
      * intros k [<-|Hin]; [left; reflexivity | right; apply Hk, Hin].
Qed.

(** the map and the records after a history *)
Definition apply (x : define_map * list record) (e : event define) : define_map * list record :=
  match e with
  | Defined l n d => (dm_insert (fst x) n (l, d), snd x)
  | Undefined l n => match dm_remove (fst x) n with
                     | (Some (a, d), m) => (m, ((a, l), (n, d)) :: snd x)
                     | (None, m) => (m, snd x)
                     end
  end.
Definition replay (es : list (event define)) : define_map * list record := fold_left apply es ([], []).

Definition named (n : text) (r : record) : bool := text_eqb (fst (snd r)) n.
Lemma replay_one : forall es, dm_wf (fst (replay es)) /\ forall n,
  dm_stack (fst (replay es)) n = fst (prun (filter (about n) es)) /\
  map (fun r => (fst r, snd (snd r))) (filter (named n) (snd (replay es))) = snd (prun (filter (about n) es)).
Proof using Type.
  induction es as [|e es [IHw IH]] using rev_ind.
  - split; [split; [constructor | intros e []]|]. intro n. split; reflexivity.
  - unfold replay. rewrite fold_left_app. cbn [fold_left]. fold (replay es). destruct e as [l n0 d|l n0]; cbn [apply].
    + cbn [fst snd]. split; [apply insert_wf, IHw|]. intro n. destruct (IH n) as [IH1 IH2]. rewrite insert_stack, filter_app. cbn [filter]. rewrite ?about_d, ?about_u.
      destruct (text_eqb n0 n); [|rewrite app_nil_r; split; assumption]. rewrite prun_snoc. cbn [pstep fst snd]. rewrite IH1. split; [reflexivity | exact IH2].
    + destruct (dm_remove (fst (replay es)) n0) as [r m'] eqn:E. destruct (remove_spec _ _ IHw _ _ E) as (W & Hr & Hst & _).
      destruct (IH n0) as [IH0 _]. rewrite IH0 in Hr.
      assert (Hcase : forall n, dm_stack m' n = fst (prun (filter (about n) (es ++ [Undefined l n0])))).
      { intro n. destruct (IH n) as [IH1 _]. rewrite Hst, IH1, filter_app. cbn [filter]. rewrite ?about_d, ?about_u. destruct (text_eqb n0 n); [|rewrite app_nil_r; reflexivity].
        rewrite prun_snoc. cbn [pstep]. destruct (fst (prun (filter (about n) es))) as [|[a d] st] eqn:E1; [rewrite E1|]; reflexivity. }
      destruct (fst (prun (filter (about n0) es))) as [|[a d] st] eqn:E1; cbn [hd_error] in Hr; subst r; cbn [fst snd].
      * split; [exact W|]. intro n. split; [apply Hcase|]. destruct (IH n) as [_ IH2]. rewrite IH2, filter_app. cbn [filter]. rewrite ?about_d, ?about_u.
        destruct (text_eqb_spec n0 n) as [<-|]; [|rewrite app_nil_r; reflexivity]. rewrite prun_snoc. cbn [pstep]. rewrite E1. reflexivity.
      * split; [exact W|]. intro n. split; [apply Hcase|]. destruct (IH n) as [_ IH2]. cbn [filter]. unfold named at 1. cbn [fst snd]. rewrite filter_app. cbn [filter]. rewrite ?about_d, ?about_u.
        destruct (text_eqb_spec n0 n) as [<-|]; [|rewrite app_nil_r; exact IH2]. rewrite prun_snoc. cbn [pstep map fst snd]. rewrite E1. cbn [fst snd]. rewrite IH2. reflexivity.
Qed.
End DM.

(** *** The tree *)
Lemma const_sorted : forall (m : list loc) a, (forall x, In x m -> x = a) -> StronglySorted kle m.
Proof.
  induction m as [|x m IH]; intros a H; constructor; [apply (IH a); intros y Hy; apply H; right; exact Hy|].
  apply Forall_forall. intros y Hy. rewrite (H x (or_introl eq_refl)), (H y (or_intror Hy)). apply kle_refl.
Qed.
Lemma klt_start : forall k k' : @range loc, klt k k' -> kle (fst k) (fst k').
Proof.
  intros [a b] [a' b'] H. cbn [fst]. unfold klt in H. change (lexcmp (a, b) (a', b') = Lt) in H. unfold lexcmp in H. cbn [fst snd] in H.
  unfold kle. intro C. rewrite C in H. discriminate.
Qed.
Section TREE.
Context {V : Type}.
Notation rng := (@range loc).
Definition at_key (k : rng) (r : rng * V) : bool := if keq_dec (fst r) k then true else false.

Lemma spec_inserts : forall (l : list (rng * V)) k, spec (map (fun r => Insert (fst r) (snd r)) l) k = map snd (filter (at_key k) l).
Proof using Type.
  intros l. unfold spec. assert (G : forall (l : list (rng * V)) m k, fold_left spec_step (map (fun r => Insert (fst r) (snd r)) l) m k = m k ++ map snd (filter (at_key k) l)).
  { clear l. induction l as [|r l IH]; intros m k; cbn [map fold_left filter]; [rewrite app_nil_r; reflexivity|]. rewrite IH. unfold at_key at 2. cbn [spec_step].
    destruct (keq_dec k (fst r)) as [E|Hne].
    - subst k. destruct (keq_dec (fst r) (fst r)) as [_|C]; [|congruence]. cbn [map]. rewrite <- app_assoc. reflexivity.
    - destruct (keq_dec (fst r) k) as [C|_]; [congruence|]. reflexivity. }
  intro k. rewrite G. reflexivity.
Qed.
Lemma at_key_pairs : forall (l : list (rng * V)) k, map (fun v => (k, v)) (map snd (filter (at_key k) l)) = filter (at_key k) l.
Proof using Type.
  intros l k. induction l as [|[k' v] l IH]; [reflexivity|]. cbn [filter]. assert (Ek : at_key k (k', v) = if keq_dec k' k then true else false) by reflexivity. rewrite Ek. destruct (keq_dec k' k) as [->|]; [|exact IH]. cbn [map snd]. rewrite IH. reflexivity.
Qed.
Lemma flat_filter : forall (l : list (rng * V)) ks, NoDup ks -> Permutation (flat_map (fun k => filter (at_key k) l) ks) (filter (fun r => if in_dec keq_dec (fst r) ks then true else false) l).
Proof using Type.
  intros l. induction ks as [|k ks IH]; intro N; cbn [flat_map].
  - induction l as [|r l IHl]; [constructor|]. cbn [filter]. destruct (in_dec keq_dec (fst r) []) as [[]|]. exact IHl.
  - inversion N as [|? ? N1 N2]; subst. specialize (IH N2).
    apply Permutation_trans with (filter (at_key k) l ++ filter (fun r => if in_dec keq_dec (fst r) ks then true else false) l); [apply Permutation_app_head, IH|].
    clear IH. induction l as [|r l IHl]; [constructor|]. cbn [filter]. assert (Ek : at_key k r = if keq_dec (fst r) k then true else false) by reflexivity. rewrite Ek. destruct (keq_dec (fst r) k) as [E|Hne].
    + destruct (in_dec keq_dec (fst r) (k :: ks)) as [_|C]; [|elim C; left; symmetry; exact E].
      destruct (in_dec keq_dec (fst r) ks) as [C|_]; [rewrite E in C; contradiction|]. cbn [app]. constructor. exact IHl.
    + destruct (in_dec keq_dec (fst r) ks) as [I|I].
      * destruct (in_dec keq_dec (fst r) (k :: ks)) as [_|C]; [|elim C; right; exact I]. apply Permutation_trans with (r :: filter (at_key k) l ++ filter (fun r => if in_dec keq_dec (fst r) ks then true else false) l); [symmetry; apply Permutation_middle | constructor; exact IHl].
      * destruct (in_dec keq_dec (fst r) (k :: ks)) as [[C|C]|_]; [symmetry in C; contradiction | contradiction | exact IHl].
Qed.

(** the answer to a query: the records whose interval meets it, ordered by their start *)
Lemma query_inserts : forall (l : list (rng * V)) (q : rng), exists t res,
  Itree.Model.run Leaf (map (fun r => Insert (fst r) (snd r)) l) = Some t /\ query t q = Some res /\
  StronglySorted kle (map (fun r => fst (fst r)) res) /\
  Permutation res (filter (fun r => kleb (fst (fst r)) (snd q) && kleb (fst q) (snd (fst r))) l).
Proof using Type.
  intros l q. destruct (C03_range_query_exact (map (fun r => Insert (fst r) (snd r)) l) q) as (t & res & Hr & Hq & ks & Hs & Hk & E).
  exists t, res. split; [exact Hr|]. split; [exact Hq|].
  assert (E' : res = flat_map (fun k => filter (at_key k) l) ks).
  { rewrite E. apply flat_map_ext. intro k. rewrite spec_inserts. apply at_key_pairs. }
  clear E. split.
  - rewrite E'. clear -Hs. induction Hs as [|k ks Hs IH HF]; cbn [flat_map]; [constructor|]. rewrite map_app. apply ss_app.
    assert (Hk : forall x, In x (map (fun r : rng * V => fst (fst r)) (filter (at_key k) l)) -> x = fst k).
    { intros x Hx. apply in_map_iff in Hx. destruct Hx as (r & <- & Hr). apply filter_In in Hr. destruct Hr as [_ Hr]. unfold at_key in Hr. destruct (keq_dec (fst r) k) as [->|]; [reflexivity|discriminate]. }
    split; [|split; [exact IH|]].
    + apply (const_sorted _ (fst k)). exact Hk.
    + intros x y Hx Hy. rewrite (Hk x Hx). apply in_map_iff in Hy. destruct Hy as (r & <- & Hr). apply in_flat_map in Hr. destruct Hr as (k' & Hk' & Hr).
      apply filter_In in Hr. destruct Hr as [_ Hr]. unfold at_key in Hr. destruct (keq_dec (fst r) k') as [Er|]; [|discriminate]. subst k'.
      rewrite Forall_forall in HF. exact (klt_start k (fst r) (HF _ Hk')).
  - rewrite E'. assert (N : NoDup ks).
    { clear -Hs. induction Hs as [|k ks Hs IH HF]; [constructor|]. constructor; [|exact IH]. intro Hin. rewrite Forall_forall in HF. apply (klt_irrefl k), HF, Hin. }
    apply Permutation_trans with (1 := flat_filter l ks N). apply Permutation_refl'. apply filter_ext_in. intros r Hin.
    match goal with |- (if ?x then true else false) = _ => destruct x as [I|I] end.
    + apply Hk in I. destruct I as [[M1 M2] _]. symmetry. apply andb_true_iff. split; apply kleb_true; assumption.
    + symmetry. apply andb_false_iff. destruct (kleb_spec (fst (fst r)) (snd q)) as [M1|M1]; [|left; reflexivity]. right.
      destruct (kleb_spec (fst q) (snd (fst r))) as [M2|M2]; [|reflexivity]. elim I. apply Hk. split; [split; assumption|].
      rewrite spec_inserts. intro C. apply map_eq_nil in C. assert (In r (filter (at_key (fst r)) l)) as C2; [|exact (eq_ind _ (fun x => In r x) C2 _ C)].
      apply filter_In. split; [exact Hin|]. unfold at_key. match goal with |- (if ?x then true else false) = true => destruct x as [_|C3]; [reflexivity | elim C3; reflexivity] end.
Qed.
End TREE.
