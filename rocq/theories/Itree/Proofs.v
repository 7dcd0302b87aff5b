From Coq Require Import List Arith ZArith Lia Bool Sorting.Sorted.
From Verif Require Import Common.Order Itree.Model Itree.Spec.
Import ListNotations.

Section Proofs.
  Context {K : Type} `{TO : TotalOrd K} {V : Type}.
  Notation rng := (@range K).
  Notation tr := (tree K V).

  Fixpoint elements (t : tr) : list (rng * list V) :=
    match t with
    | Leaf => []
    | Node k d _ _ l r => elements l ++ (k, d) :: elements r
    end.

  Fixpoint ok (t : tr) : Prop :=
    match t with
    | Leaf => True
    | Node k d h m l r =>
        ok l /\ ok r /\ h = S (Nat.max (height l) (height r)) /\
        height l <= S (height r) /\ height r <= S (height l) /\
        m = bump_max (bump_max (snd k) l) r /\ d <> []
    end.

  Definition sorted (l : list (rng * list V)) : Prop := StronglySorted klt (map fst l).

  (** ** Sorted association lists *)
  Lemma sorted_app l p r :
    sorted (l ++ p :: r) <->
    sorted l /\ sorted r /\ (forall q, In q l -> klt (fst q) (fst p)) /\
    (forall q, In q r -> klt (fst p) (fst q)).
  Proof.
    unfold sorted. induction l as [|a l IH]; simpl.
    - split.
      + intros Hs; inversion Hs as [|? ? Hss Hf]; subst. repeat split; try assumption.
        * constructor.
        * intros q [].
        * intros q Hq. rewrite Forall_forall in Hf. apply Hf. apply in_map. exact Hq.
      + intros (_ & Hr & _ & Hg). constructor; [assumption|].
        rewrite Forall_forall. intros x Hx. apply in_map_iff in Hx as (q & <- & Hq). auto.
    - split.
      + intros Hs; inversion Hs as [|? ? Hss Hf]; subst.
        apply IH in Hss as (Hl & Hr & H1 & H2).
        rewrite Forall_forall in Hf.
        repeat split; try assumption.
        * constructor; [assumption|]. rewrite Forall_forall. intros x Hx. apply Hf.
          rewrite map_app, in_app_iff. left; assumption.
        * intros q [<-|Hq]; [|auto]. apply Hf. rewrite map_app, in_app_iff. right; left; reflexivity.
      + intros (Hl & Hr & H1 & H2). inversion Hl as [|? ? Hss Hf]; subst.
        constructor.
        * apply IH. repeat split; try assumption. intros q Hq; apply H1; right; assumption.
        * rewrite Forall_forall in *. intros x Hx. rewrite map_app, in_app_iff in Hx. simpl in Hx.
          destruct Hx as [Hx|[<-|Hx]]; [auto| apply H1; left; reflexivity |].
          apply in_map_iff in Hx as (q & <- & Hq).
          eapply klt_trans; [apply H1; left; reflexivity | auto].
  Qed.

  Fixpoint llook (l : list (rng * list V)) (k : rng) : list V :=
    match l with
    | [] => []
    | (k', d) :: l' => if keq_dec k' k then d else llook l' k
    end.

  Fixpoint linsert (l : list (rng * list V)) (k : rng) (v : V) : list (rng * list V) :=
    match l with
    | [] => [(k, [v])]
    | (k', d) :: l' =>
        match kcmp k' k with
        | Eq => (k', d ++ [v]) :: l'
        | Lt => (k', d) :: linsert l' k v
        | Gt => (k, [v]) :: l
        end
    end.

  Fixpoint ldelete (l : list (rng * list V)) (k : rng) : list (rng * list V) :=
    match l with
    | [] => []
    | (k', d) :: l' => if keq_dec k' k then l' else (k', d) :: ldelete l' k
    end.

  Lemma llook_notin l k : (forall q, In q l -> fst q <> k) -> llook l k = [].
  Proof.
    induction l as [|[k' d] l IH]; simpl; intros Hn; [reflexivity|].
    destruct (keq_dec k' k) as [->|Hne].
    - exfalso; apply (Hn (k, d)); [left; reflexivity | reflexivity].
    - apply IH; intros q Hq; apply Hn; right; assumption.
  Qed.

  Lemma llook_app_l l1 l2 k : (forall q, In q l2 -> fst q <> k) -> llook (l1 ++ l2) k = llook l1 k.
  Proof.
    intros Hn. induction l1 as [|[k' d] l1 IH]; simpl; [apply llook_notin; assumption|].
    rewrite IH; reflexivity.
  Qed.

  Lemma llook_app_r l1 l2 k : (forall q, In q l1 -> fst q <> k) -> llook (l1 ++ l2) k = llook l2 k.
  Proof.
    induction l1 as [|[k' d] l1 IH]; simpl; intros Hn; [reflexivity|].
    destruct (keq_dec k' k) as [->|Hne].
    - exfalso; apply (Hn (k, d)); [left; reflexivity | reflexivity].
    - apply IH; intros q Hq; apply Hn; right; assumption.
  Qed.

  Lemma linsert_lt l p r k v :
    (forall q, In q l -> klt (fst q) k) -> klt (fst p) k ->
    linsert (l ++ p :: r) k v = l ++ p :: linsert r k v.
  Proof.
    induction l as [|[k' d] l IH]; simpl; intros Hl Hp.
    - destruct p as [pk pd]; simpl in *. unfold klt in Hp; rewrite Hp; reflexivity.
    - assert (Hk : kcmp k' k = Lt) by (apply (Hl (k', d)); left; reflexivity).
      rewrite Hk, IH; auto.
  Qed.

  Lemma linsert_eq l r k d v :
    (forall q, In q l -> klt (fst q) k) ->
    linsert (l ++ (k, d) :: r) k v = l ++ (k, d ++ [v]) :: r.
  Proof.
    induction l as [|[k' d'] l IH]; simpl; intros Hl.
    - rewrite kcmp_refl. reflexivity.
    - assert (Hk : kcmp k' k = Lt) by (apply (Hl (k', d')); left; reflexivity).
      rewrite Hk, IH; auto.
  Qed.

  Lemma linsert_gt l p r k v :
    klt k (fst p) -> linsert (l ++ p :: r) k v = linsert l k v ++ p :: r.
  Proof.
    intros Hp. induction l as [|[k' d'] l IH]; simpl.
    - destruct p as [pk pd]; simpl in *. apply kcmp_gt_lt in Hp. rewrite Hp. reflexivity.
    - destruct (kcmp k' k); simpl; [reflexivity| rewrite IH; reflexivity | reflexivity].
  Qed.

  Lemma ldelete_notin l k : (forall q, In q l -> fst q <> k) -> ldelete l k = l.
  Proof.
    induction l as [|[k' d] l IH]; simpl; intros Hn; [reflexivity|].
    destruct (keq_dec k' k) as [->|Hne].
    - exfalso; apply (Hn (k, d)); [left; reflexivity | reflexivity].
    - rewrite IH; [reflexivity|]. intros q Hq; apply Hn; right; assumption.
  Qed.

  Lemma ldelete_app_l l1 l2 k :
    (forall q, In q l2 -> fst q <> k) -> ldelete (l1 ++ l2) k = ldelete l1 k ++ l2.
  Proof.
    intros Hn. induction l1 as [|[k' d] l1 IH]; simpl; [apply ldelete_notin; assumption|].
    rewrite IH; destruct (keq_dec k' k); reflexivity.
  Qed.

  Lemma ldelete_app_r l1 l2 k :
    (forall q, In q l1 -> fst q <> k) -> ldelete (l1 ++ l2) k = l1 ++ ldelete l2 k.
  Proof.
    induction l1 as [|[k' d] l1 IH]; simpl; intros Hn; [reflexivity|].
    destruct (keq_dec k' k) as [->|Hne].
    - exfalso; apply (Hn (k, d)); [left; reflexivity | reflexivity].
    - rewrite IH; [reflexivity|]. intros q Hq; apply Hn; right; assumption.
  Qed.

  Lemma In_linsert l k v q : In q (linsert l k v) -> fst q = k \/ In q l.
  Proof.
    induction l as [|[k' d] l IH]; simpl.
    - intros [<-|[]]; left; reflexivity.
    - destruct (kcmp k' k) eqn:E; simpl.
      + apply kcmp_eq in E; subst. intros [<-|Hq]; [left; reflexivity | right; right; assumption].
      + intros [<-|Hq]; [right; left; reflexivity|]. destruct (IH Hq); auto.
      + intros [<-|Hq]; [left; reflexivity | right; assumption].
  Qed.

  Lemma sorted_cons p l : sorted (p :: l) <-> sorted l /\ (forall q, In q l -> klt (fst p) (fst q)).
  Proof.
    pose proof (sorted_app [] p l) as H; simpl in H. rewrite H. split.
    - intros (_ & H1 & _ & H2); auto.
    - intros (H1 & H2); repeat split; auto. constructor. intros q [].
  Qed.

  Lemma sorted_linsert l k v : sorted l -> sorted (linsert l k v).
  Proof.
    induction l as [|[k' d] l IH]; simpl; intros Hs.
    - apply sorted_cons; split; [constructor | intros q []].
    - apply sorted_cons in Hs as [Hs Hl]; simpl in *. destruct (kcmp k' k) eqn:E.
      + apply sorted_cons; split; auto.
      + apply sorted_cons; split; [auto|]. intros q Hq; simpl.
        apply In_linsert in Hq as [->|Hq]; [exact E | auto].
      + apply sorted_cons; split; [apply sorted_cons; auto|].
        apply kcmp_gt_lt in E. intros q [<-|Hq]; simpl; [exact E|].
        eapply klt_trans; [exact E | auto].
  Qed.

  Lemma In_ldelete l k q : In q (ldelete l k) -> In q l.
  Proof.
    induction l as [|[k' d] l IH]; simpl; [tauto|].
    destruct (keq_dec k' k); simpl; tauto.
  Qed.

  Lemma sorted_ldelete l k : sorted l -> sorted (ldelete l k).
  Proof.
    induction l as [|[k' d] l IH]; simpl; intros Hs; [assumption|].
    apply sorted_cons in Hs as [Hs Hl]; simpl in *.
    destruct (keq_dec k' k); [assumption|].
    apply sorted_cons; split; auto. intros q Hq; apply Hl; eapply In_ldelete; eassumption.
  Qed.

  Lemma klt_ne (x y : rng) : klt x y -> x <> y.
  Proof. intros Hlt ->; exact (klt_irrefl _ Hlt). Qed.

  Lemma llook_linsert l k v k' : sorted l ->
    llook (linsert l k v) k' = if keq_dec k' k then llook l k' ++ [v] else llook l k'.
  Proof.
    induction l as [|[k0 d] l IH]; simpl; intros Hs.
    - destruct (keq_dec k k'), (keq_dec k' k); subst; try congruence; reflexivity.
    - apply sorted_cons in Hs as [Hs Hl]; simpl in *. destruct (kcmp k0 k) eqn:E; simpl.
      + apply kcmp_eq in E; subst k0.
        destruct (keq_dec k k'), (keq_dec k' k); subst; try congruence; reflexivity.
      + rewrite (IH Hs). destruct (keq_dec k0 k') as [->|Hne]; [|reflexivity].
        destruct (keq_dec k' k) as [->|Hne']; [|reflexivity].
        rewrite kcmp_refl in E; discriminate.
      + destruct (keq_dec k k') as [->|Hne].
        * destruct (keq_dec k' k') as [_|Hne']; [|congruence].
          destruct (keq_dec k0 k') as [->|Hne']; [rewrite kcmp_refl in E; discriminate|].
          rewrite llook_notin; [reflexivity|].
          intros q Hq Heq. apply Hl in Hq. rewrite Heq in Hq. apply kcmp_gt_lt in E.
          apply (klt_irrefl k'). eapply klt_trans; eassumption.
        * destruct (keq_dec k' k) as [->|Hne']; [congruence|reflexivity].
  Qed.

  Lemma llook_ldelete l k k' : sorted l ->
    llook (ldelete l k) k' = if keq_dec k' k then [] else llook l k'.
  Proof.
    induction l as [|[k0 d] l IH]; simpl; intros Hs.
    - destruct (keq_dec k' k); reflexivity.
    - apply sorted_cons in Hs as [Hs Hl]; simpl in *. destruct (keq_dec k0 k) as [->|Hne]; simpl.
      + destruct (keq_dec k' k) as [->|Hne'].
        * apply llook_notin. intros q Hq Heq. apply Hl in Hq. rewrite Heq in Hq.
          exact (klt_irrefl _ Hq).
        * destruct (keq_dec k k') as [->|?]; [congruence|reflexivity].
      + rewrite (IH Hs). destruct (keq_dec k0 k') as [->|Hne0]; [|reflexivity].
        destruct (keq_dec k' k); [congruence|reflexivity].
  Qed.

  (** ** Rebalancing *)
  Lemma height_update_height t : ok t -> update_height t = t.
  Proof.
    destruct t as [|k d h m l r]; simpl; [reflexivity|].
    intros (_ & _ & -> & _ & _ & -> & _). f_equal; lia.
  Qed.

  Lemma ok_update k d h m l r :
    ok l -> ok r -> d <> [] -> height l <= S (height r) -> height r <= S (height l) ->
    ok (update_height (Node k d h m l r)).
  Proof. simpl; intros; repeat split; auto; lia. Qed.

  Lemma updated_node_spec k d h m l r :
    ok l -> ok r -> d <> [] ->
    height l <= 2 + height r -> height r <= 2 + height l ->
    exists t', updated_node (Node k d h m l r) = Some t' /\ ok t' /\
      elements t' = elements l ++ (k, d) :: elements r /\
      Nat.max (height l) (height r) <= height t' <= S (Nat.max (height l) (height r)) /\
      (height l <= S (height r) -> height r <= S (height l) ->
       height t' = S (Nat.max (height l) (height r))).
  Proof.
    intros Hl Hr Hd H1 H2.
    unfold updated_node, rotate_if_necessary. cbn [update_height diff_of_successors_height].
    destruct (Z.eqb_spec (Z.of_nat (height l) - Z.of_nat (height r)) 2) as [E|E].
    - (* left heavy *)
      destruct l as [|lk ld lh lm ll lr]; [simpl in E; lia|].
      pose proof Hl as (Hll & Hlr & Hlh & Hb1 & Hb2 & Hlm & Hld).
      unfold rotate_left_successor.
      destruct (Nat.ltb_spec (height ll) (height lr)) as [Hlt|Hge].
      + destruct lr as [|rk rd rh rm rl rr]; [simpl in Hlt; lia|].
        cbn [rotate_left]. 
        pose proof Hlr as (Hrl & Hrr & Hrh & Hc1 & Hc2 & Hrm & Hrd).
        cbn [height] in *.
        eexists; split; [reflexivity|]. 
        cbn [update_height rotate_right ok height elements].
        repeat split; try assumption; try lia.
        repeat (rewrite <- ?app_assoc; cbn [app]). reflexivity.
      + cbn [rotate_right]. cbn [height] in *.
        eexists; split; [reflexivity|].
        cbn [update_height ok height elements].
        repeat split; try assumption; try lia.
        repeat (rewrite <- ?app_assoc; cbn [app]). reflexivity.
    - destruct ((-1 <=? Z.of_nat (height l) - Z.of_nat (height r))%Z &&
                (Z.of_nat (height l) - Z.of_nat (height r) <=? 1)%Z) eqn:E2.
      + apply andb_true_iff in E2 as [E2 E3]. apply Z.leb_le in E2, E3.
        eexists; split; [reflexivity|]. cbn [ok height elements].
        repeat split; try assumption; try lia.
      + assert (E4 : (Z.of_nat (height l) - Z.of_nat (height r) = -2)%Z).
        { apply andb_false_iff in E2. destruct E2 as [E2|E2]; apply Z.leb_gt in E2; lia. }
        rewrite E4. cbn [Z.eqb].
        destruct r as [|rk rd rh rm rl rr]; [simpl in E4; lia|].
        pose proof Hr as (Hrl & Hrr & Hrh & Hb1 & Hb2 & Hrm & Hrd).
        unfold rotate_right_successor.
        destruct (Nat.ltb_spec (height rr) (height rl)) as [Hlt|Hge].
        * destruct rl as [|ck cd ch cm cl cr]; [simpl in Hlt; lia|].
          cbn [rotate_right].
          pose proof Hrl as (Hcl & Hcr & Hch & Hc1 & Hc2 & Hcm & Hcd).
          cbn [height] in *.
          eexists; split; [reflexivity|].
          cbn [update_height rotate_left ok height elements].
          repeat split; try assumption; try lia.
          repeat (rewrite <- ?app_assoc; cbn [app]). reflexivity.
        * cbn [rotate_left]. cbn [height] in *.
          eexists; split; [reflexivity|].
          cbn [update_height ok height elements].
          repeat split; try assumption; try lia.
          repeat (rewrite <- ?app_assoc; cbn [app]). reflexivity.
  Qed.

  (** ** insert *)
  Lemma insert_spec t k v :
    ok t -> sorted (elements t) ->
    exists t', insert t k v = Some t' /\ ok t' /\ elements t' = linsert (elements t) k v /\
      height t <= height t' <= S (height t).
  Proof.
    induction t as [|k0 d h m l IHl r IHr]; intros Hok Hs.
    - eexists; split; [reflexivity|]. cbn. repeat split; try lia; try discriminate.
    - cbn [insert]. pose proof Hok as (Hl & Hr & Hh & Hb1 & Hb2 & Hm & Hd).
      cbn [elements] in *. apply sorted_app in Hs as (Hsl & Hsr & H1 & H2); cbn [fst] in *.
      destruct (kcmp k0 k) eqn:E.
      + apply kcmp_eq in E; subst k0. eexists; split; [reflexivity|].
        cbn [ok elements height]. repeat split; try assumption; try lia.
        * destruct d; discriminate.
        * rewrite linsert_eq; [reflexivity|assumption].
      + destruct (IHr Hr Hsr) as (r' & -> & Hr' & Her' & Hhr').
        destruct (updated_node_spec k0 d h m l r') as (t' & -> & Ht' & He & Hh1 & Hh2); auto; try lia.
        eexists; split; [reflexivity|]. split; [assumption|]. cbn [height]. split.
        * rewrite He, Her'. rewrite linsert_lt; [reflexivity| |exact E].
          intros q Hq. eapply klt_trans; [apply H1; assumption | exact E].
        * lia.
      + destruct (IHl Hl Hsl) as (l' & -> & Hl' & Hel' & Hhl').
        destruct (updated_node_spec k0 d h m l' r) as (t' & -> & Ht' & He & Hh1 & Hh2); auto; try lia.
        eexists; split; [reflexivity|]. split; [assumption|]. cbn [height]. split.
        * rewrite He, Hel'. rewrite linsert_gt; [reflexivity|]. apply kcmp_gt_lt in E. exact E.
        * lia.
  Qed.

  (** ** delete *)
  Lemma drop_min_spec t :
    t <> Leaf -> ok t ->
    exists t' k d h m, drop_min t = Some (t', (k, d, h, m)) /\ ok t' /\ d <> [] /\
      elements t = (k, d) :: elements t' /\ height t' <= height t <= S (height t').
  Proof.
    induction t as [|k0 d h m l IHl r IHr]; intros Hne Hok; [congruence|].
    pose proof Hok as (Hl & Hr & Hh & Hb1 & Hb2 & Hm & Hd).
    destruct l as [|lk ld lh lm ll lr].
    - exists r, k0, d, h, m. cbn in *. repeat split; try assumption; lia.
    - remember (Node lk ld lh lm ll lr) as l eqn:El.
      destruct IHl as (l' & k1 & d1 & h1 & m1 & E & Hl' & Hd1 & He & Hhl); [subst; discriminate|assumption|].
      assert (Hdm : drop_min (Node k0 d h m l r) =
                    match drop_min l with
                    | Some (new_left, mn) =>
                        match updated_node (Node k0 d h m new_left r) with
                        | Some t' => Some (t', mn)
                        | None => None
                        end
                    | None => None
                    end) by (subst l; reflexivity).
      rewrite Hdm, E.
      destruct (updated_node_spec k0 d h m l' r) as (t' & -> & Ht' & Het & Hh1 & Hh2); auto; try lia.
      exists t', k1, d1, h1, m1. repeat split; try assumption.
      + cbn [elements]. rewrite He, Het. reflexivity.
      + cbn [height]. lia.
      + cbn [height]. lia.
  Qed.

  Lemma delete_root_spec l r :
    ok l -> ok r -> height l <= S (height r) -> height r <= S (height l) ->
    exists t', delete_root l r = Some t' /\ ok t' /\ elements t' = elements l ++ elements r /\
      height t' <= S (Nat.max (height l) (height r)) <= S (height t').
  Proof.
    intros Hl Hr H1 H2. destruct l as [|lk ld lh lm ll lr].
    - destruct r as [|rk rd rh rm rl rr].
      + eexists; repeat split; cbn in *; lia.
      + eexists; split; [reflexivity|]. split; [assumption|]. split; [reflexivity|]. cbn in *; lia.
    - destruct r as [|rk rd rh rm rl rr].
      + eexists; split; [reflexivity|]. split; [assumption|]. split; [cbn; rewrite app_nil_r; reflexivity|].
        cbn in *; lia.
      + cbn [delete_root].
        remember (Node lk ld lh lm ll lr) as l. remember (Node rk rd rh rm rl rr) as r.
        unfold combine_two_subtrees.
        destruct (drop_min_spec r) as (r' & k & d & h & m & -> & Hr' & Hd & He & Hh); [subst; discriminate|assumption|].
        destruct (updated_node_spec k d h m l r') as (t' & -> & Ht' & Het & Hh1 & Hh2); auto; try lia.
        eexists; split; [reflexivity|]. split; [assumption|]. split.
        * rewrite Het, He. reflexivity.
        * lia.
  Qed.

  Lemma delete_spec t k :
    ok t -> sorted (elements t) ->
    exists t', delete t k = Some t' /\ ok t' /\ elements t' = ldelete (elements t) k /\
      height t' <= height t <= S (height t').
  Proof.
    induction t as [|k0 d h m l IHl r IHr]; intros Hok Hs.
    - eexists; split; [reflexivity|]. cbn. repeat split; lia.
    - cbn [delete]. pose proof Hok as (Hl & Hr & Hh & Hb1 & Hb2 & Hm & Hd).
      cbn [elements] in *. pose proof Hs as Hs0.
      apply sorted_app in Hs as (Hsl & Hsr & H1 & H2); cbn [fst] in *.
      destruct (kcmp k0 k) eqn:E.
      + apply kcmp_eq in E; subst k0.
        destruct (delete_root_spec l r) as (t' & -> & Ht' & He & Hht); auto; try lia.
        eexists; split; [reflexivity|]. split; [assumption|]. split.
        * rewrite ldelete_app_r.
          -- simpl. destruct (keq_dec k k); [assumption|congruence].
          -- intros q Hq Heq. apply H1 in Hq. rewrite Heq in Hq. exact (klt_irrefl _ Hq).
        * cbn [height]. lia.
      + assert (Hdel : ldelete (elements l ++ (k0, d) :: elements r) k =
                       elements l ++ (k0, d) :: ldelete (elements r) k).
        { rewrite ldelete_app_r.
          - simpl. destruct (keq_dec k0 k) as [->|_]; [rewrite kcmp_refl in E; discriminate|reflexivity].
          - intros q Hq Heq. apply H1 in Hq. rewrite Heq in Hq.
            apply (klt_irrefl k0). eapply klt_trans; [exact E | exact Hq]. }
        rewrite Hdel. destruct r as [|rk rd rh rm rl rr].
        * eexists; split; [reflexivity|]. split; [assumption|]. cbn. split; [reflexivity|lia].
        * remember (Node rk rd rh rm rl rr) as r.
          destruct (IHr Hr Hsr) as (r' & -> & Hr' & Her' & Hhr').
          destruct (updated_node_spec k0 d h m l r') as (t' & -> & Ht' & He & Hh1 & Hh2); auto; try lia.
          eexists; split; [reflexivity|]. split; [assumption|]. split.
          -- rewrite He, Her'. reflexivity.
          -- cbn [height]. lia.
      + assert (Hdel : ldelete (elements l ++ (k0, d) :: elements r) k =
                       ldelete (elements l) k ++ (k0, d) :: elements r).
        { apply ldelete_app_l. apply kcmp_gt_lt in E.
          intros q [<-|Hq] Heq; cbn [fst] in *.
          - subst. exact (klt_irrefl _ E).
          - apply H2 in Hq. rewrite Heq in Hq.
            apply (klt_irrefl k0). eapply klt_trans; [exact Hq | exact E]. }
        rewrite Hdel. destruct l as [|lk ld lh lm ll lr].
        * eexists; split; [reflexivity|]. split; [assumption|]. cbn. split; [reflexivity|lia].
        * remember (Node lk ld lh lm ll lr) as l.
          destruct (IHl Hl Hsl) as (l' & -> & Hl' & Hel' & Hhl').
          destruct (updated_node_spec k0 d h m l' r) as (t' & -> & Ht' & He & Hh1 & Hh2); auto; try lia.
          eexists; split; [reflexivity|]. split; [assumption|]. split.
          -- rewrite He, Hel'. reflexivity.
          -- cbn [height]. lia.
  Qed.

  (** ** Runs *)
  Lemma ok_data t : ok t -> forall p, In p (elements t) -> snd p <> [].
  Proof.
    induction t as [|k d h m l IHl r IHr]; simpl; [tauto|].
    intros (Hl & Hr & _ & _ & _ & _ & Hd) p Hp. apply in_app_iff in Hp as [Hp|[<-|Hp]]; auto.
  Qed.

  (** A tree represents a multimap [m]. *)
  Definition repr (t : tr) (m : rng -> list V) : Prop :=
    ok t /\ sorted (elements t) /\ forall k, llook (elements t) k = m k.

  Lemma run_cons (t : tr) o ops :
    run t (o :: ops) = match apply_op t o with Some t' => run t' ops | None => None end.
  Proof.
    unfold run; simpl. destruct (apply_op t o); [reflexivity|].
    induction ops; simpl; auto.
  Qed.

  Lemma apply_op_repr t m o : repr t m ->
    exists t', apply_op t o = Some t' /\ repr t' (spec_step m o).
  Proof.
    intros (Hok & Hs & Hm). destruct o as [k v|k]; simpl.
    - destruct (insert_spec t k v Hok Hs) as (t' & -> & Hok' & He & _).
      exists t'; split; [reflexivity|]. repeat split; [assumption| |].
      + rewrite He; apply sorted_linsert; assumption.
      + intros k'. rewrite He, llook_linsert by assumption. rewrite Hm. reflexivity.
    - destruct (delete_spec t k Hok Hs) as (t' & -> & Hok' & He & _).
      exists t'; split; [reflexivity|]. repeat split; [assumption| |].
      + rewrite He; apply sorted_ldelete; assumption.
      + intros k'. rewrite He, llook_ldelete by assumption. rewrite Hm. reflexivity.
  Qed.

  Lemma run_repr ops : forall t m, repr t m ->
    exists t', run t ops = Some t' /\ repr t' (fold_left spec_step ops m).
  Proof.
    induction ops as [|o ops IH]; intros t m Hr.
    - exists t; split; [reflexivity|assumption].
    - rewrite run_cons. destruct (apply_op_repr t m o Hr) as (t' & -> & Hr').
      cbn [fold_left]. apply IH. assumption.
  Qed.

  Lemma repr_leaf : repr Leaf (fun _ => []).
  Proof. split; [exact I|]. split; [constructor|reflexivity]. Qed.

  Lemma run_new ops : exists t, run Leaf ops = Some t /\ repr t (spec ops).
  Proof. apply run_repr. exact repr_leaf. Qed.

  (** ** Lookups *)
  Lemma get_elements t k : ok t -> sorted (elements t) ->
    get t k = match llook (elements t) k with [] => None | l => Some l end.
  Proof.
    induction t as [|k0 d h m l IHl r IHr]; intros Hok Hs; [reflexivity|].
    cbn [get elements]. pose proof Hok as (Hl & Hr & Hh & Hb1 & Hb2 & Hm & Hd).
    cbn [elements] in *.
    apply sorted_app in Hs as (Hsl & Hsr & H1 & H2); cbn [fst] in *.
    destruct (kcmp k0 k) eqn:E.
    - apply kcmp_eq in E; subst. rewrite llook_app_r.
      + simpl. destruct (keq_dec k k); [|congruence]. destruct d; [congruence|reflexivity].
      + intros q Hq Heq. apply H1 in Hq. rewrite Heq in Hq. exact (klt_irrefl _ Hq).
    - rewrite llook_app_r.
      + simpl. destruct (keq_dec k0 k) as [->|_]; [rewrite kcmp_refl in E; discriminate|]. auto.
      + intros q Hq Heq. apply H1 in Hq. rewrite Heq in Hq.
        apply (klt_irrefl k0). eapply klt_trans; [exact E | exact Hq].
    - rewrite llook_app_l; [auto|]. apply kcmp_gt_lt in E. intros q [<-|Hq] Heq; cbn [fst] in *.
      + subst. exact (klt_irrefl _ E).
      + apply H2 in Hq. rewrite Heq in Hq.
        apply (klt_irrefl k0). eapply klt_trans; [exact Hq | exact E].
  Qed.

  Lemma llook_In l k d : sorted l -> In (k, d) l -> llook l k = d.
  Proof.
    induction l as [|[k0 d0] l IH]; simpl; [tauto|]. intros Hs Hin.
    apply sorted_cons in Hs as [Hs Hl]; cbn [fst] in *. destruct Hin as [Heq|Hin].
    - inversion Heq; subst. destruct (keq_dec k k); congruence.
    - destruct (keq_dec k0 k) as [->|_]; [|auto].
      apply Hl in Hin. cbn in Hin. exfalso; exact (klt_irrefl _ Hin).
  Qed.

  Lemma llook_nonnil_In l k : llook l k <> [] -> In (k, llook l k) l.
  Proof.
    induction l as [|[k0 d0] l IH]; simpl; [congruence|].
    destruct (keq_dec k0 k) as [->|_]; [left; reflexivity | right; auto].
  Qed.

  Lemma repr_In t m k : repr t m -> (In k (map fst (elements t)) <-> m k <> []).
  Proof.
    intros (Hok & Hs & Hm). rewrite <- Hm. split.
    - intros Hin. apply in_map_iff in Hin as ([k' d] & Heq & Hin). simpl in Heq; subst k'.
      rewrite (llook_In _ _ _ Hs Hin). apply (ok_data _ Hok _ Hin).
    - intros Hne. apply llook_nonnil_In in Hne. apply in_map_iff.
      eexists; split; [|exact Hne]. reflexivity.
  Qed.

  Lemma repr_get t (m : rng -> list V) k : repr t m -> get t k = match m k with [] => None | l => Some l end.
  Proof. intros (Hok & Hs & Hm). rewrite get_elements by assumption. rewrite Hm. reflexivity. Qed.

  (** ** Size against height *)
  Lemma fib_SS n : fib (S (S n)) = fib (S n) + fib n.
  Proof. reflexivity. Qed.

  Lemma fib_mono_S n : fib n <= fib (S n).
  Proof. destruct n; [simpl; lia|]. rewrite fib_SS. lia. Qed.

  Lemma fib_mono n m : n <= m -> fib n <= fib m.
  Proof. induction 1; [lia|]. pose proof (fib_mono_S m). lia. Qed.

  Lemma ok_size t : ok t -> fib (height t + 2) <= length (elements t) + 1.
  Proof.
    induction t as [|k d h m l IHl r IHr]; intros Hok; [simpl; lia|].
    destruct Hok as (Hl & Hr & Hh & Hb1 & Hb2 & Hm & Hd).
    specialize (IHl Hl); specialize (IHr Hr).
    cbn [height elements]. rewrite app_length; cbn [length].
    subst h. replace (S (Nat.max (height l) (height r)) + 2)
      with (S (S (Nat.max (height l) (height r) + 1))) by lia.
    rewrite fib_SS.
    destruct (Nat.max_spec (height l) (height r)) as [[Hlt ->]|[Hge ->]].
    - replace (S (height r + 1)) with (height r + 2) by lia.
      pose proof (fib_mono (height r + 1) (height l + 2)). lia.
    - replace (S (height l + 1)) with (height l + 2) by lia.
      pose proof (fib_mono (height l + 1) (height r + 2)). lia.
  Qed.

  Lemma fib_pow2 n : 2 ^ n <= fib (2 * n + 2) /\ 2 ^ n <= fib (2 * n + 1).
  Proof.
    induction n as [|n [IH1 IH2]]; [simpl; lia|].
    replace (2 * S n + 2) with (S (S (2 * n + 2))) by lia.
    replace (2 * S n + 1) with (S (2 * n + 2)) by lia.
    cbn [Nat.pow].
    assert (E : fib (S (2 * n + 2)) = fib (2 * n + 2) + fib (2 * n + 1)).
    { replace (2 * n + 2) with (S (2 * n + 1)) by lia. apply fib_SS. }
    rewrite fib_SS, E. split; lia.
  Qed.

  Lemma sorted_NoDup l : sorted l -> NoDup (map fst l).
  Proof.
    unfold sorted. induction (map fst l) as [|a l' IH]; intros Hs; constructor.
    - inversion Hs as [|? ? Hss Hf]; subst. intros Hin. rewrite Forall_forall in Hf.
      exact (klt_irrefl _ (Hf _ Hin)).
    - apply IH. inversion Hs; assumption.
  Qed.

  Lemma repr_size t m ks : repr t m -> NoDup ks -> (forall k, In k ks <-> m k <> []) ->
    length (elements t) = length ks.
  Proof.
    intros Hr Hnd Hks. pose proof Hr as (Hok & Hs & Hm).
    rewrite <- (map_length fst (elements t)).
    apply Nat.le_antisymm; apply NoDup_incl_length.
    - apply sorted_NoDup; assumption.
    - intros k Hk. apply Hks. apply (repr_In t m); assumption.
    - assumption.
    - intros k Hk. apply (repr_In t m); [assumption|]. apply Hks; assumption.
  Qed.

  (** ** RangePairIter *)
  Section Iter.
    Variables start fin : bound K.

    Fixpoint out (t : tr) : list (rng * V) :=
      match t with
      | Leaf => []
      | Node k d _ m l r =>
          (if left_relevant start m then out l else []) ++
          (if intersect start fin k then map (pair k) d else []) ++
          (if right_relevant fin (fst k) then out r else [])
      end.

    Definition out_entry (e : tr * visiting) : list (rng * V) :=
      match e with
      | (Leaf, _) => []
      | (Node k d h m l r as n, VLeft) => out n
      | (Node k d h m l r, VCenter) =>
          (if intersect start fin k then map (pair k) d else []) ++
          (if right_relevant fin (fst k) then out r else [])
      | (Node k d h m l r, VMiddle i) =>
          map (pair k) (skipn i d) ++ (if right_relevant fin (fst k) then out r else [])
      | (Node k d h m l r, VRight) => if right_relevant fin (fst k) then out r else []
      end.

    Definition mu_entry (e : tr * visiting) : nat :=
      match e with
      | (Leaf, _) => 1
      | (Node k d h m l r as n, VLeft) => iter_fuel n
      | (Node k d h m l r, VCenter) => 3 + length d + iter_fuel r
      | (Node k d h m l r, VMiddle i) => 2 + (length d - i) + iter_fuel r
      | (Node k d h m l r, VRight) => 1 + iter_fuel r
      end.

    Definition out_stack (s : list (tr * visiting)) := flat_map out_entry s.
    Definition mu (s : list (tr * visiting)) := list_sum (map mu_entry s).

    Lemma skipn_nth {A} (l : list A) i v : nth_error l i = Some v -> skipn i l = v :: skipn (S i) l.
    Proof.
      revert i; induction l as [|a l IH]; intros [|i]; simpl; try discriminate.
      - intros H; inversion H; reflexivity.
      - intros H. apply IH in H. simpl in H. exact H.
    Qed.

    Lemma iter_step_spec top rest stack' oit :
      iter_step start fin top rest = (stack', oit) ->
      out_stack (top :: rest) =
        match oit with Some it => it :: out_stack stack' | None => out_stack stack' end /\
      mu stack' < mu (top :: rest).
    Proof.
      unfold iter_step. destruct top as [[|k d h m l r] v].
      - intros H; inversion H; subst. unfold out_stack, mu, list_sum; simpl. split; [reflexivity|lia].
      - destruct v as [| |i|].
        + destruct l as [|lk ld lh lm ll lr].
          * intros H; inversion H; subst. unfold out_stack, mu, list_sum.
            cbn [flat_map out_entry out map mu_entry list_sum fold_right iter_fuel].
            split; [|lia]. destruct (left_relevant start m); reflexivity.
          * remember (Node lk ld lh lm ll lr) as l.
            destruct (left_relevant start m) eqn:E; intros H; inversion H; subst stack' oit;
              unfold out_stack, mu, list_sum.
            -- assert (El : out_entry (l, VLeft) = out l) by (subst l; reflexivity).
               assert (Em : mu_entry (l, VLeft) = iter_fuel l) by (subst l; reflexivity).
               cbn [flat_map map list_sum fold_right]. rewrite El, Em.
               cbn [out_entry out mu_entry iter_fuel]. rewrite E.
               repeat (rewrite <- ?app_assoc). split; [reflexivity|lia].
            -- cbn [flat_map map list_sum fold_right out_entry out mu_entry iter_fuel]. rewrite E.
               split; [reflexivity|lia].
        + destruct (intersect start fin k) eqn:E; intros H; inversion H; subst stack' oit;
            unfold out_stack, mu, list_sum;
            cbn [flat_map map list_sum fold_right out_entry mu_entry iter_fuel skipn]; rewrite E;
            (split; [reflexivity|lia]).
        + destruct (nth_error d i) as [w|] eqn:E; intros H; inversion H; subst stack' oit;
            unfold out_stack, mu, list_sum;
            cbn [flat_map map list_sum fold_right out_entry mu_entry iter_fuel].
          * rewrite (skipn_nth _ _ _ E). replace (i + 1) with (S i) by lia.
            split; [reflexivity|].
            assert (i < length d) by (apply nth_error_Some; congruence). lia.
          * apply nth_error_None in E. rewrite skipn_all2 by assumption.
            split; [reflexivity|lia].
        + destruct (right_relevant fin (fst k)) eqn:E; [destruct r as [|rk rd rh rm rl rr]|];
            intros H; inversion H; subst stack' oit; unfold out_stack, mu, list_sum;
            cbn [flat_map map list_sum fold_right out_entry mu_entry iter_fuel out]; rewrite E;
            (split; [reflexivity|lia]).
    Qed.

    Lemma iter_next_spec fuel : forall stack, mu stack < fuel ->
      (exists it stack', iter_next fuel start fin stack = Some (Some it, stack') /\
         out_stack stack = it :: out_stack stack' /\ mu stack' < mu stack) \/
      (iter_next fuel start fin stack = Some (None, []) /\ out_stack stack = []).
    Proof.
      induction fuel as [|fuel IH]; intros stack Hmu; [lia|].
      destruct stack as [|top rest]; [right; split; reflexivity|].
      cbn [iter_next]. destruct (iter_step start fin top rest) as [stack' [it|]] eqn:E;
        apply iter_step_spec in E as [Eo Em].
      - left. exists it, stack'. auto.
      - destruct (IH stack') as [(it & st & E1 & E2 & E3)|[E1 E2]]; [lia| |].
        + left. exists it, st. rewrite Eo. repeat split; auto; lia.
        + right. rewrite Eo. auto.
    Qed.

    Lemma iter_collect_spec fuel : forall stack inner, mu stack < fuel -> mu stack < inner ->
      iter_collect fuel inner start fin stack = Some (out_stack stack).
    Proof.
      induction fuel as [|fuel IH]; intros stack inner Hf Hi; [lia|]. cbn [iter_collect].
      destruct (iter_next_spec inner stack Hi) as [(it & st & -> & E2 & E3)|[-> E2]].
      - rewrite IH by lia. rewrite E2. reflexivity.
      - rewrite E2. reflexivity.
    Qed.

    Lemma pairs_between_out t : pairs_between t start fin = Some (out t).
    Proof.
      unfold pairs_between. destruct t as [|k d h m l r]; [reflexivity|].
      remember (Node k d h m l r) as t.
      assert (Ei : iter_init t = [(t, VLeft)]) by (subst; reflexivity). rewrite Ei.
      rewrite iter_collect_spec.
      - unfold out_stack. cbn [flat_map]. rewrite app_nil_r. subst; reflexivity.
      - unfold mu. subst; cbn; lia.
      - unfold mu. subst; cbn; lia.
    Qed.

    (** The pruned walk lists what an unpruned filter lists. *)
    Lemma bump_max_ge m (t : tr) : kle m (bump_max m t).
    Proof.
      destruct t as [|? ? ? m' ? ?]; simpl; [apply kle_refl|].
      destruct (kltb_spec m m'); [apply klt_kle; assumption | apply kle_refl].
    Qed.

    Lemma bump_max_ge_max m k d h m' l r : kle m' (bump_max m (Node k d h m' l r : tr)).
    Proof.
      simpl. destruct (kltb_spec m m') as [H|H]; [apply kle_refl | apply not_klt; assumption].
    Qed.

    Definition tmax_ge (t : tr) (x : K) : Prop :=
      match t with Leaf => False | Node _ _ _ m _ _ => kle x m end.

    Lemma ok_max t : ok t -> forall p, In p (elements t) -> tmax_ge t (snd (fst p)).
    Proof.
      induction t as [|k d h m l IHl r IHr]; simpl; [tauto|].
      intros (Hl & Hr & _ & _ & _ & Hm & Hd) p Hp. subst m.
      apply in_app_iff in Hp as [Hp|[<-|Hp]].
      - specialize (IHl Hl p Hp). destruct l as [|lk ld lh lm ll lr]; [contradiction|].
        simpl in IHl. eapply kle_trans; [exact IHl|].
        eapply kle_trans; [|apply bump_max_ge]. apply bump_max_ge_max.
      - simpl. eapply kle_trans; [|apply bump_max_ge]. apply bump_max_ge.
      - specialize (IHr Hr p Hp). destruct r as [|rk rd rh rm rl rr]; [contradiction|].
        simpl in IHr. eapply kle_trans; [exact IHr|]. apply bump_max_ge_max.
    Qed.

    Definition sel (l : list (rng * list V)) : list (rng * V) :=
      flat_map (fun p => map (pair (fst p)) (snd p)) (filter (fun p => intersect start fin (fst p)) l).

    Lemma sel_app l1 l2 : sel (l1 ++ l2) = sel l1 ++ sel l2.
    Proof.
      unfold sel. induction l1 as [|p l1 IH]; simpl; [reflexivity|].
      destruct (intersect start fin (fst p)); simpl; rewrite IH; [rewrite app_assoc|]; reflexivity.
    Qed.

    Lemma sel_none l : (forall p, In p l -> intersect start fin (fst p) = false) -> sel l = [].
    Proof.
      unfold sel. induction l as [|p l IH]; simpl; intros Hn; [reflexivity|].
      rewrite Hn by (left; reflexivity). apply IH. intros q Hq; apply Hn; right; assumption.
    Qed.

    Lemma left_irrelevant m k : left_relevant start m = false -> kle (snd k) m ->
      intersect start fin k = false.
    Proof.
      unfold left_relevant, intersect. intros Hl Hm. apply andb_false_iff. left.
      destruct start as [s|s|]; [| |discriminate].
      - apply not_true_iff_false. rewrite kleb_true. intros Hs.
        assert (kle s m) by (eapply kle_trans; eassumption).
        apply kleb_true in H. congruence.
      - apply not_true_iff_false. rewrite kltb_true. intros Hs.
        assert (klt s m) by (eapply klt_kle_trans; eassumption).
        apply kltb_true in H. congruence.
    Qed.

    Lemma right_irrelevant ks k : right_relevant fin ks = false -> kle ks (fst k) ->
      intersect start fin k = false.
    Proof.
      unfold right_relevant, intersect. intros Hl Hm. apply andb_false_iff. right.
      destruct fin as [s|s|]; [| |discriminate].
      - apply not_true_iff_false. rewrite kleb_true. intros Hs.
        assert (kle ks s) by (eapply kle_trans; eassumption).
        apply kleb_true in H. congruence.
      - apply not_true_iff_false. rewrite kltb_true. intros Hs.
        assert (klt ks s) by (eapply kle_klt_trans; eassumption).
        apply kltb_true in H. congruence.
    Qed.

    Lemma klt_fst (a b : rng) : klt a b -> kle (fst a) (fst b).
    Proof.
      unfold klt, kle. change (kcmp a b) with (lexcmp a b). unfold lexcmp.
      destruct (kcmp (fst a) (fst b)); congruence.
    Qed.

    Lemma out_sel t : ok t -> sorted (elements t) -> out t = sel (elements t).
    Proof.
      induction t as [|k d h m l IHl r IHr]; intros Hok Hs; [reflexivity|].
      pose proof Hok as (Hl & Hr & Hh & Hb1 & Hb2 & Hm & Hd).
      cbn [out elements] in *. pose proof Hs as Hs0.
      apply sorted_app in Hs as (Hsl & Hsr & H1 & H2); cbn [fst] in *.
      change ((k, d) :: elements r) with ([(k, d)] ++ elements r).
      rewrite !sel_app. f_equal; [|f_equal].
      - destruct (left_relevant start m) eqn:E; [auto|].
        symmetry; apply sel_none. intros p Hp. apply (left_irrelevant m); [assumption|].
        apply (ok_max (Node k d h m l r) Hok). cbn [elements]. apply in_app_iff. left; assumption.
      - unfold sel. cbn [filter fst flat_map].
        destruct (intersect start fin k); cbn [flat_map snd]; [rewrite app_nil_r|]; reflexivity.
      - destruct (right_relevant fin (fst k)) eqn:E; [auto|].
        symmetry; apply sel_none. intros p Hp. apply (right_irrelevant (fst k)); [assumption|].
        apply klt_fst. auto.
    Qed.

    Lemma sorted_filter f l : sorted l -> sorted (filter f l).
    Proof.
      induction l as [|p l IH]; simpl; intros Hs; [assumption|].
      apply sorted_cons in Hs as [Hs Hl]. destruct (f p); [|auto].
      apply sorted_cons; split; [auto|]. intros q Hq. apply filter_In in Hq as [Hq _]. auto.
    Qed.

    Lemma pairs_between_exact t m : repr t m ->
      exists res, pairs_between t start fin = Some res /\
        lists_exactly m (fun k => intersect start fin k = true) res.
    Proof.
      intros Hr. pose proof Hr as (Hok & Hs & Hm).
      exists (out t). split; [apply pairs_between_out|].
      rewrite out_sel by assumption. unfold sel.
      exists (map fst (filter (fun p => intersect start fin (fst p)) (elements t))).
      split; [apply sorted_filter; assumption|]. split.
      - intros k. rewrite <- (repr_In t m k Hr). rewrite !in_map_iff. split.
        + intros (p & <- & Hp). apply filter_In in Hp as [Hp Hi]. split; [assumption|].
          exists p; auto.
        + intros (Hi & p & <- & Hp). exists p; split; [reflexivity|]. apply filter_In; auto.
      - assert (Hall : forall p, In p (filter (fun p => intersect start fin (fst p)) (elements t)) ->
                       snd p = m (fst p)).
        { intros [k d] Hp. apply filter_In in Hp as [Hp _]. simpl.
          rewrite <- Hm. symmetry. apply llook_In; assumption. }
        revert Hall. generalize (filter (fun p => intersect start fin (fst p)) (elements t)).
        intros l. induction l as [|p l IH]; simpl; intros Hall; [reflexivity|].
        rewrite IH by auto. rewrite (Hall p) by auto. reflexivity.
    Qed.
  End Iter.

  Lemma lists_exactly_ext (m : rng -> list V) (P Q : rng -> Prop) (res : list (rng * V)) :
    (forall k, P k <-> Q k) -> lists_exactly m P res -> lists_exactly m Q res.
  Proof.
    intros Heq (ks & H1 & H2 & H3). exists ks. split; [assumption|]. split; [|assumption].
    intros k. rewrite H2. rewrite Heq. reflexivity.
  Qed.

  Lemma query_exact t m q : repr t m ->
    exists res, query t q = Some res /\ lists_exactly m (fun k => meets k q) res.
  Proof.
    intros Hr. destruct (pairs_between_exact (Included (fst q)) (Included (snd q)) t m Hr) as (res & E & Hres).
    exists res. split; [exact E|]. eapply lists_exactly_ext; [|exact Hres].
    intros k. unfold meets. unfold intersect. rewrite andb_true_iff, !kleb_true. tauto.
  Qed.

  Lemma iter_exact t m : repr t m ->
    exists res, iter t = Some res /\ lists_exactly m (fun _ => True) res.
  Proof.
    intros Hr. destruct (pairs_between_exact Unbounded Unbounded t m Hr) as (res & E & Hres).
    exists res. split; [exact E|]. eapply lists_exactly_ext; [|exact Hres].
    intros k. simpl. tauto.
  Qed.

  (** Two listings of the same thing are the same list. *)
  Lemma StronglySorted_unique (l1 l2 : list rng) :
    StronglySorted klt l1 -> StronglySorted klt l2 -> (forall k, In k l1 <-> In k l2) -> l1 = l2.
  Proof.
    revert l2; induction l1 as [|a l1 IH]; intros [|b l2] H1 H2 Heq; [reflexivity| | |].
    - exfalso. apply (proj2 (Heq b)). left; reflexivity.
    - exfalso. apply (proj1 (Heq a)). left; reflexivity.
    - inversion H1 as [|? ? Hs1 Hf1]; inversion H2 as [|? ? Hs2 Hf2]; subst.
      rewrite Forall_forall in Hf1, Hf2.
      assert (Hab : a = b).
      { destruct (proj1 (Heq a) (or_introl eq_refl)) as [->|Ha]; [reflexivity|].
        destruct (proj2 (Heq b) (or_introl eq_refl)) as [->|Hb]; [reflexivity|].
        exfalso. apply (klt_irrefl a). eapply klt_trans; [apply Hf1; exact Hb | apply Hf2; exact Ha]. }
      subst b. f_equal. apply IH; auto. intros k. split; intros Hk.
      + destruct (proj1 (Heq k) (or_intror Hk)) as [<-|]; [|assumption].
        exfalso. exact (klt_irrefl _ (Hf1 _ Hk)).
      + destruct (proj2 (Heq k) (or_intror Hk)) as [<-|]; [|assumption].
        exfalso. exact (klt_irrefl _ (Hf2 _ Hk)).
  Qed.

  (** ** IntoIter *)
  Definition pairs_of (l : list (rng * list V)) : list (rng * V) :=
    flat_map (fun p => map (pair (fst p)) (snd p)) l.

  Definition into_out_stack (s : list (@into_entry K V)) : list (rng * V) :=
    flat_map (fun e => map (pair (fst (fst e))) (snd (fst e)) ++ pairs_of (elements (snd e))) s.

  Definition into_out (s : list (@into_entry K V)) (c : option (rng * list V)) : list (rng * V) :=
    match c with Some (k, d) => map (pair k) d | None => [] end ++ into_out_stack s.

  Definition into_mu_stack (s : list (@into_entry K V)) : nat :=
    list_sum (map (fun e => 1 + length (snd (fst e)) + into_fuel (snd e)) s).

  Definition into_mu s (c : option (rng * list V)) : nat :=
    match c with Some (_, d) => length d | None => 0 end + into_mu_stack s.

  Lemma pairs_of_app l1 l2 : pairs_of (l1 ++ l2) = pairs_of l1 ++ pairs_of l2.
  Proof. apply flat_map_app. Qed.

  Lemma push_node_out t : forall s, into_out_stack (push_node t s) = pairs_of (elements t) ++ into_out_stack s.
  Proof.
    induction t as [|k d h m l IHl r IHr]; intros s; [reflexivity|].
    cbn [push_node elements]. rewrite IHl. unfold into_out_stack at 1. cbn [flat_map fst snd].
    rewrite pairs_of_app. unfold pairs_of at 5. cbn [flat_map fst snd].
    rewrite <- !app_assoc. reflexivity.
  Qed.

  Lemma push_node_mu t : forall s, into_mu_stack (push_node t s) = into_fuel t + into_mu_stack s.
  Proof.
    induction t as [|k d h m l IHl r IHr]; intros s; [reflexivity|].
    cbn [push_node into_fuel]. rewrite IHl. unfold into_mu_stack, list_sum. cbn [map list_sum fold_right fst snd]. lia.
  Qed.

  Lemma into_next_spec fuel : forall s c, into_mu s c < fuel ->
    (exists it s' c', into_next fuel s c = Some (Some it, s', c') /\
       into_out s c = it :: into_out s' c' /\ into_mu s' c' < into_mu s c) \/
    (into_next fuel s c = Some (None, [], None) /\ into_out s c = []).
  Proof.
    induction fuel as [|fuel IH]; intros s c Hmu; [lia|]. cbn [into_next].
    assert (Hrest : (c = None \/ exists k, c = Some (k, [])) ->
      (exists it s' c', match s with
            | [] => Some (None, [], None)
            | (k, d, r) :: rest => into_next fuel (push_node r rest) (Some (k, d))
            end = Some (Some it, s', c') /\
       into_out s c = it :: into_out s' c' /\ into_mu s' c' < into_mu s c) \/
      (match s with
            | [] => Some (None, [], None)
            | (k, d, r) :: rest => into_next fuel (push_node r rest) (Some (k, d))
            end = Some (None, [], None) /\ into_out s c = [])).
    { intros Hc.
      assert (Eo : into_out s c = into_out_stack s) by (destruct Hc as [->|[k ->]]; reflexivity).
      assert (Em : into_mu s c = into_mu_stack s) by (destruct Hc as [->|[k ->]]; reflexivity).
      rewrite Eo. rewrite Em. rewrite Em in Hmu. clear Eo Em Hc. destruct s as [|[[k d] r] rest]; [right; split; reflexivity|].
      assert (Em2 : into_mu (push_node r rest) (Some (k, d)) < into_mu_stack ((k, d, r) :: rest)).
      { unfold into_mu. rewrite push_node_mu. unfold into_mu_stack, list_sum. cbn [map list_sum fold_right fst snd]. lia. }
      assert (Eo2 : into_out_stack ((k, d, r) :: rest) = into_out (push_node r rest) (Some (k, d))).
      { unfold into_out. rewrite push_node_out. unfold into_out_stack. cbn [flat_map fst snd].
        rewrite <- app_assoc. reflexivity. }
      destruct (IH (push_node r rest) (Some (k, d))) as [(it & s' & c' & E1 & E2 & E3)|[E1 E2]];
        [exact (Nat.lt_le_trans _ _ _ Em2 (le_S_n _ _ Hmu))| |].
      - left. exists it, s', c'. split; [exact E1|]. split; [exact (eq_trans Eo2 E2)|].
        exact (Nat.lt_trans _ _ _ E3 Em2).
      - right. split; [exact E1|exact (eq_trans Eo2 E2)]. }
    destruct c as [[k [|v vs]]|].
    - apply Hrest. right; eexists; reflexivity.
    - left. exists (k, v), s, (Some (k, vs)). repeat split. unfold into_mu; simpl; lia.
    - apply Hrest. left; reflexivity.
  Qed.

  Lemma into_collect_spec fuel : forall s c inner, into_mu s c < fuel -> into_mu s c < inner ->
    into_collect fuel inner s c = Some (into_out s c).
  Proof.
    induction fuel as [|fuel IH]; intros s c inner Hf Hi; [lia|]. cbn [into_collect].
    destruct (into_next_spec inner s c Hi) as [(it & s' & c' & -> & E2 & E3)|[-> E2]].
    - rewrite IH by lia. rewrite E2. reflexivity.
    - rewrite E2. reflexivity.
  Qed.

  Lemma into_iter_pairs t : into_iter t = Some (pairs_of (elements t)).
  Proof.
    unfold into_iter. rewrite into_collect_spec.
    - unfold into_out. rewrite push_node_out. cbn. rewrite app_nil_r. reflexivity.
    - unfold into_mu. rewrite push_node_mu. cbn. lia.
    - unfold into_mu. rewrite push_node_mu. cbn. lia.
  Qed.

  Lemma iter_pairs t m : repr t m -> iter t = Some (pairs_of (elements t)).
  Proof.
    intros (Hok & Hs & _). unfold iter. rewrite pairs_between_out, out_sel by assumption.
    unfold sel, pairs_of.
    assert (E : forall l : list (rng * list V),
               filter (fun p => intersect Unbounded Unbounded (fst p)) l = l).
    { induction l as [|p l IH]; simpl; [reflexivity|]. rewrite IH; reflexivity. }
    rewrite E. reflexivity.
  Qed.

  (** ** min / max *)
  Lemma min_elements t : min t = hd_error (elements t).
  Proof.
    induction t as [|k d h m l IHl r IHr]; [reflexivity|].
    destruct l as [|lk ld lh lm ll lr]; [reflexivity|].
    remember (Node lk ld lh lm ll lr) as l.
    assert (E : min (Node k d h m l r) = min l) by (subst l; reflexivity).
    rewrite E, IHl. cbn [elements]. destruct (elements l) eqn:El; [|reflexivity].
    subst l. simpl in El. destruct (elements ll); discriminate.
  Qed.

  Lemma max_elements t : max t = hd_error (rev (elements t)).
  Proof.
    induction t as [|k d h m l IHl r IHr]; [reflexivity|].
    destruct r as [|rk rd rh rm rl rr].
    - cbn. rewrite rev_app_distr. reflexivity.
    - remember (Node rk rd rh rm rl rr) as r.
      assert (E : max (Node k d h m l r) = max r) by (subst r; reflexivity).
      rewrite E, IHr. cbn [elements]. rewrite rev_app_distr. cbn [rev].
      destruct (rev (elements r)) eqn:Er; [|reflexivity].
      apply (f_equal (@rev _)) in Er. rewrite rev_involutive in Er.
      subst r. simpl in Er. destruct (elements rl); discriminate.
  Qed.

  Lemma min_spec t (m : rng -> list V) : repr t m ->
    match min t with
    | None => forall k, m k = []
    | Some (k, d) => m k = d /\ d <> [] /\ forall k', m k' <> [] -> kle k k'
    end.
  Proof.
    intros Hr. pose proof Hr as (Hok & Hs & Hm). rewrite min_elements.
    destruct (elements t) as [|[k d] l] eqn:E; simpl.
    - intros k. rewrite <- Hm. reflexivity.
    - split; [|split].
      + rewrite <- Hm. apply llook_In; [assumption|left; reflexivity].
      + apply (ok_data t Hok (k, d)). rewrite E; left; reflexivity.
      + intros k' Hk'. apply (repr_In t m k' Hr) in Hk'. rewrite E in Hk'.
        apply sorted_cons in Hs as [Hs Hl]. destruct Hk' as [<-|Hk']; [apply kle_refl|].
        apply in_map_iff in Hk' as (p & <- & Hp). apply klt_kle. apply Hl in Hp. exact Hp.
  Qed.

  Lemma max_spec t (m : rng -> list V) : repr t m ->
    match max t with
    | None => forall k, m k = []
    | Some (k, d) => m k = d /\ d <> [] /\ forall k', m k' <> [] -> kle k' k
    end.
  Proof.
    intros Hr. pose proof Hr as (Hok & Hs & Hm). rewrite max_elements.
    destruct (rev (elements t)) as [|[k d] l] eqn:E; simpl;
      apply (f_equal (@rev _)) in E; rewrite rev_involutive in E.
    - intros k. rewrite <- Hm, E. reflexivity.
    - cbn [rev] in E. rewrite E in *. split; [|split].
      + rewrite <- Hm. apply llook_In; [assumption|]. apply in_app_iff; right; left; reflexivity.
      + apply (ok_data t Hok (k, d)). rewrite E. apply in_app_iff; right; left; reflexivity.
      + intros k' Hk'. apply (repr_In t m k' Hr) in Hk'. rewrite E in Hk'.
        apply sorted_app in Hs as (_ & _ & Hl & _). rewrite map_app, in_app_iff in Hk'.
        destruct Hk' as [Hk'|[<-|[]]]; [|apply kle_refl].
        apply in_map_iff in Hk' as (p & <- & Hp). apply klt_kle. apply Hl in Hp. exact Hp.
  Qed.

  (** ** merge *)
  Lemma spec_inserts l : forall m0 k, sorted l ->
    fold_left spec_step (map (fun p => Insert (fst p) (snd p)) (pairs_of l)) m0 k = m0 k ++ llook l k.
  Proof.
    induction l as [|[k0 d] l IH]; intros m0 k Hs; [simpl; rewrite app_nil_r; reflexivity|].
    apply sorted_cons in Hs as [Hs Hl]; cbn [fst] in Hl.
    unfold pairs_of. cbn [flat_map fst snd]. rewrite map_app, fold_left_app.
    fold (pairs_of l). rewrite IH by assumption. simpl llook.
    assert (Hd : forall (d : list V) (m0 : rng -> list V), fold_left spec_step (map (fun p => Insert (fst p) (snd p)) (map (pair k0) d)) m0 k
                 = if keq_dec k k0 then m0 k ++ d else m0 k).
    { clear. induction d as [|v d IH]; intros m0; simpl.
      - rewrite app_nil_r. destruct (keq_dec k k0); reflexivity.
      - rewrite IH. destruct (keq_dec k k0); [|reflexivity]. rewrite <- app_assoc. reflexivity. }
    rewrite Hd. destruct (keq_dec k k0) as [->|Hne].
    - destruct (keq_dec k0 k0); [|congruence].
      rewrite (llook_notin l k0); [rewrite app_nil_r; reflexivity|].
      intros q Hq Heq. apply Hl in Hq. rewrite Heq in Hq. exact (klt_irrefl _ Hq).
    - destruct (keq_dec k0 k); [congruence|reflexivity].
  Qed.

  Lemma repr_ext t m1 m2 : (forall k, m1 k = m2 k) -> repr t m1 -> repr t m2.
  Proof. intros He (H1 & H2 & H3). repeat split; auto. intros k; rewrite H3; auto. Qed.

  Lemma merge_repr t1 (m1 : rng -> list V) t2 m2 : repr t1 m1 -> repr t2 m2 ->
    exists t, merge t1 t2 = Some t /\ repr t (fun k => m1 k ++ m2 k).
  Proof.
    intros H1 (Hok2 & Hs2 & Hm2). unfold merge. rewrite into_iter_pairs.
    destruct (run_repr (map (fun p => Insert (fst p) (snd p)) (pairs_of (elements t2))) t1 m1 H1)
      as (t & -> & Ht).
    exists t; split; [reflexivity|]. eapply repr_ext; [|exact Ht].
    intros k. cbn beta. rewrite spec_inserts by assumption. rewrite Hm2. reflexivity.
  Qed.
  (** ** The property lemmas *)
  Lemma repr_is_empty t m : repr t m -> (is_empty t = true <-> forall k, m k = []).
  Proof.
    intros (Hok & Hs & Hm). destruct t as [|k d h mx l r]; simpl.
    - split; [|reflexivity]. intros _ k. rewrite <- Hm. reflexivity.
    - split; [discriminate|]. intros Hall. exfalso.
      assert (Hin : In (k, d) (elements (Node k d h mx l r)))
        by (simpl; apply in_app_iff; right; left; reflexivity).
      apply (ok_data _ Hok _ Hin). simpl. rewrite <- (Hall k), <- Hm.
      symmetry. apply llook_In; assumption.
  Qed.

  Lemma multimap_lemma (ops : list (op K V)) :
    exists t, run Leaf ops = Some t /\
      (forall k, get t k = match spec ops k with [] => None | vs => Some vs end) /\
      (forall k, contains t k = true <-> spec ops k <> []) /\
      (forall k dflt, get_or t k dflt = match spec ops k with [] => dflt | vs => vs end) /\
      (is_empty t = true <-> forall k, spec ops k = []).
  Proof.
    destruct (run_new ops) as (t & Hrun & Hr). exists t. split; [assumption|].
    assert (Hg := fun k => repr_get t (spec ops) k Hr).
    repeat split.
    - exact Hg.
    - unfold contains. rewrite Hg. destruct (spec ops k); [discriminate|]. intros _ Hx; discriminate.
    - unfold contains. rewrite Hg. destruct (spec ops k); [congruence|reflexivity].
    - intros k dflt. unfold get_or. rewrite Hg. destruct (spec ops k); reflexivity.
    - apply (repr_is_empty t _ Hr).
    - apply (repr_is_empty t _ Hr).
  Qed.

  Lemma shallow_lemma (ops : list (op K V)) (ks : list rng) :
    NoDup ks -> (forall k, In k ks <-> spec ops k <> []) ->
    exists t, run Leaf ops = Some t /\
      fib (height t + 2) <= length ks + 1 /\ 2 ^ (height t / 2) <= length ks + 1.
  Proof.
    intros Hnd Hks. destruct (run_new ops) as (t & Hrun & Hr). exists t. split; [assumption|].
    pose proof (ok_size t (proj1 Hr)) as Hsz.
    rewrite (repr_size t _ ks Hr Hnd Hks) in Hsz. split; [assumption|].
    etransitivity; [|exact Hsz].
    etransitivity; [apply (fib_pow2 (height t / 2))|]. apply fib_mono.
    pose proof (Nat.div_mod (height t) 2 ltac:(lia)). lia.
  Qed.

  Lemma live_keys_lemma (ops : list (op K V)) :
    exists ks : list rng, NoDup ks /\ forall k, In k ks <-> spec ops k <> [].
  Proof.
    destruct (run_new ops) as (t & Hrun & Hr). exists (map fst (elements t)). split.
    - apply sorted_NoDup. apply Hr.
    - intros k. apply (repr_In t); assumption.
  Qed.

  Lemma query_lemma (ops : list (op K V)) (q : rng) :
    exists t res, run Leaf ops = Some t /\ query t q = Some res /\
      lists_exactly (spec ops) (fun k => meets k q) res.
  Proof.
    destruct (run_new ops) as (t & Hrun & Hr).
    destruct (query_exact t _ q Hr) as (res & E & Hl). exists t, res; auto.
  Qed.

  Lemma iter_lemma (ops : list (op K V)) :
    exists t res, run Leaf ops = Some t /\ iter t = Some res /\
      lists_exactly (spec ops) (fun _ => True) res.
  Proof.
    destruct (run_new ops) as (t & Hrun & Hr).
    destruct (iter_exact t _ Hr) as (res & E & Hl). exists t, res; auto.
  Qed.

  Lemma min_max_lemma (ops : list (op K V)) :
    exists t, run Leaf ops = Some t /\
      match min t with
      | None => forall k, spec ops k = []
      | Some (k, vs) => vs = spec ops k /\ vs <> [] /\ forall k', spec ops k' <> [] -> kle k k'
      end /\
      match max t with
      | None => forall k, spec ops k = []
      | Some (k, vs) => vs = spec ops k /\ vs <> [] /\ forall k', spec ops k' <> [] -> kle k' k
      end.
  Proof.
    destruct (run_new ops) as (t & Hrun & Hr). exists t. split; [assumption|].
    pose proof (min_spec t _ Hr) as H1. pose proof (max_spec t _ Hr) as H2. split.
    - destruct (min t) as [[k d]|]; [|exact H1]. destruct H1 as (<- & ? & ?); auto.
    - destruct (max t) as [[k d]|]; [|exact H2]. destruct H2 as (<- & ? & ?); auto.
  Qed.

  Lemma into_iter_lemma (ops : list (op K V)) :
    exists t res, run Leaf ops = Some t /\ into_iter t = Some res /\ iter t = Some res /\
      lists_exactly (spec ops) (fun _ => True) res.
  Proof.
    destruct (run_new ops) as (t & Hrun & Hr).
    destruct (iter_exact t _ Hr) as (res & E & Hl). exists t, res.
    split; [assumption|]. split; [|auto]. rewrite into_iter_pairs, <- E. symmetry.
    apply (iter_pairs t _ Hr).
  Qed.

  Lemma merge_lemma (ops1 ops2 : list (op K V)) :
    exists t1 t2 t, run Leaf ops1 = Some t1 /\ run Leaf ops2 = Some t2 /\ merge t1 t2 = Some t /\
      (forall k, get t k = match spec ops1 k ++ spec ops2 k with [] => None | vs => Some vs end) /\
      (forall q, exists res, query t q = Some res /\
         lists_exactly (fun k => spec ops1 k ++ spec ops2 k) (fun k => meets k q) res).
  Proof.
    destruct (run_new ops1) as (t1 & Hrun1 & Hr1). destruct (run_new ops2) as (t2 & Hrun2 & Hr2).
    destruct (merge_repr _ _ _ _ Hr1 Hr2) as (t & Hm & Hr).
    exists t1, t2, t. repeat split; try assumption.
    - intros k. apply (repr_get t _ k Hr).
    - intros q. apply query_exact. assumption.
  Qed.
End Proofs.
