(** Lemmas for C24 and C37. *)
From Coq Require Import List Arith Lia Bool Sorting.Permutation Sorting.Sorted.
From Verif Require Import Common.Order Common.Text Objtree.Ispath Editor.Pool Editor.Atoms.
Import ListNotations.
Open Scope nat_scope.

(** ** lists *)
Lemma vec_insert_app : forall A (x : A) a b, vec_insert (List.length a) x (a ++ b) = Some (a ++ x :: b).
Proof. induction a as [|y a IH]; intro b; cbn [List.length app vec_insert]; [destruct b; reflexivity|]. rewrite IH. reflexivity. Qed.
Lemma vec_remove_app : forall A (x : A) a b, vec_remove (List.length a) (a ++ x :: b) = Some (a ++ b).
Proof. induction a as [|y a IH]; intro b; cbn [List.length app vec_remove]; [reflexivity|]. rewrite IH. reflexivity. Qed.
Lemma set_nth_app : forall A (x y : A) a b, set_nth (List.length a) y (a ++ x :: b) = Some (a ++ y :: b).
Proof. induction a as [|z a IH]; intro b; cbn [List.length app set_nth]; [reflexivity|]. rewrite IH. reflexivity. Qed.
Lemma nth_error_at : forall A (x : A) a b, nth_error (a ++ x :: b) (List.length a) = Some x.
Proof. intros. rewrite nth_error_app2, Nat.sub_diag by lia. reflexivity. Qed.
Lemma split_at : forall A (l : list A) n, n <= List.length l -> exists a b, l = a ++ b /\ List.length a = n.
Proof. intros A l n H. exists (firstn n l), (skipn n l). split; [symmetry; apply firstn_skipn | apply firstn_length_le; exact H]. Qed.
Lemma app_split_eq : forall A (a b c d : list A), List.length a = List.length c -> a ++ b = c ++ d -> a = c /\ b = d.
Proof.
  induction a as [|x a IH]; intros b [|y c] d L E; cbn [List.length] in L; try lia; cbn [app] in E; [auto|].
  injection E as -> E. destruct (IH b c d ltac:(lia) E) as [-> ->]. auto.
Qed.

Lemma all_some_iff : forall A B (f : A -> option B) l r, all_some (map f l) = Some r <-> Forall2 (fun x y => f x = Some y) l r.
Proof.
  induction l as [|x l IH]; intro r; cbn [map all_some].
  - split; [intro H; injection H as <-; constructor | intro H; inversion H; reflexivity].
  - destruct (f x) as [y|] eqn:E.
    + split.
      * destruct (all_some (map f l)) as [r'|] eqn:E2; [|discriminate]. intro H. injection H as <-. constructor; [exact E | apply IH; reflexivity].
      * intro H. inversion H as [|? y' ? r' H1 H2]; subst. apply IH in H2. rewrite H2. cbn. congruence.
    + split; [discriminate|]. intro H. inversion H; subst. congruence.
Qed.

Lemma position_some : forall l i p, position i l = Some p -> exists a b, l = a ++ i :: b /\ List.length a = p /\ ~ In i a.
Proof.
  induction l as [|y l IH]; intros i p H; cbn [position] in H; [discriminate|].
  destruct (Nat.eqb_spec y i) as [->|Hne].
  - injection H as <-. exists [], l. auto.
  - destruct (position i l) as [q|] eqn:E; [|discriminate]. injection H as <-.
    destruct (IH i q E) as (a & b & -> & <- & Hn). exists (y :: a), b. split; [reflexivity|]. split; [reflexivity|].
    intros [|]; [congruence | contradiction].
Qed.
Lemma position_none : forall l i, position i l = None -> ~ In i l.
Proof.
  induction l as [|y l IH]; intros i H; cbn [position] in H; [intros []|].
  destruct (Nat.eqb_spec y i) as [->|Hne]; [discriminate|].
  destruct (position i l) eqn:E; [discriminate|]. intros [|]; [congruence | apply (IH i E); assumption].
Qed.

(** ** draw calls, in units of one instance *)
Definition scale (ms : list (nat * nat)) : list (nat * nat) := map (fun q => (fst q, 6 * snd q)) ms.
Definition expand1 (ms : list (nat * nat)) : list nat := flat_map (fun q => repeat (fst q) (snd q)) ms.
Definition allpos (ms : list (nat * nat)) : Prop := Forall (fun q => 0 < snd q) ms.
Definition total (ms : list (nat * nat)) : nat := List.length (expand1 ms).

Lemma expand1_app : forall a b, expand1 (a ++ b) = expand1 a ++ expand1 b.
Proof. intros. unfold expand1. apply flat_map_app. Qed.
Lemma expand1_cons : forall t m b, expand1 ((t, m) :: b) = repeat t m ++ expand1 b.
Proof. reflexivity. Qed.
Lemma total_cons : forall t m b, total ((t, m) :: b) = m + total b.
Proof. intros. unfold total. rewrite expand1_cons, app_length, repeat_length. reflexivity. Qed.
Lemma scale_length : forall ms, List.length (scale ms) = List.length ms.
Proof. intros. apply map_length. Qed.

Lemma find_scale : forall ms i s pos, s <= pos ->
  (exists pre t m post, ms = pre ++ (t, m) :: post /\ find_from i (6 * s) (scale ms) (6 * pos) = (i + List.length pre, 6 * (s + total pre)) /\
     s + total pre <= pos < s + total pre + m) \/
  (s + total ms <= pos /\ find_from i (6 * s) (scale ms) (6 * pos) = (i + List.length ms, 6 * (s + total ms))).
Proof.
  induction ms as [|[t m] ms IH]; intros i s pos Hs.
  - right. cbn [scale map find_from total expand1 flat_map List.length]. rewrite !Nat.add_0_r. split; [lia | reflexivity].
  - cbn [scale map fst snd find_from]. destruct (Nat.leb_spec (6 * s) (6 * pos)) as [_|]; [|lia].
    destruct (Nat.ltb_spec (6 * pos) (6 * s + 6 * m)) as [L|L]; cbn [andb].
    + left. exists [], t, m, ms. cbn [total expand1 flat_map List.length app]. rewrite !Nat.add_0_r. split; [reflexivity|]. split; [reflexivity | lia].
    + replace (6 * s + 6 * m) with (6 * (s + m)) by lia. fold (scale ms).
      destruct (IH (S i) (s + m) pos ltac:(lia)) as [(pre & t' & m' & post & -> & E & B)|[B E]].
      * left. exists ((t, m) :: pre), t', m', post. rewrite E, total_cons. split; [reflexivity|]. cbn [List.length].
        split; [f_equal; lia | lia].
      * right. rewrite E, total_cons. cbn [List.length]. split; [lia | f_equal; lia].
Qed.

Lemma scale_app : forall a b, scale (a ++ b) = scale a ++ scale b.
Proof. intros. apply map_app. Qed.
Lemma scale_cons : forall t m b, scale ((t, m) :: b) = (t, 6 * m) :: scale b.
Proof. reflexivity. Qed.
Lemma allpos_app : forall a b, allpos (a ++ b) <-> allpos a /\ allpos b.
Proof. intros. apply Forall_app. Qed.
Lemma allpos_cons : forall t m b, allpos ((t, m) :: b) <-> 0 < m /\ allpos b.
Proof. intros. split; [intro H; inversion H; auto | intros [? ?]; constructor; auto]. Qed.
Lemma repeat_snoc : forall A (t : A) m, repeat t m ++ [t] = t :: repeat t m.
Proof. induction m as [|m IH]; cbn [repeat app]; [reflexivity|]. rewrite IH. reflexivity. Qed.
Lemma repeat_add : forall A (t : A) a b, repeat t (a + b) = repeat t a ++ repeat t b.
Proof. intros. apply repeat_app. Qed.

Lemma grow_scale : forall ms a b t, allpos ms -> expand1 ms = a ++ b ->
  exists ms', grow_calls (scale ms) (6 * List.length a) t = Some (scale ms') /\ allpos ms' /\ expand1 ms' = a ++ t :: b.
Proof.
  intros ms a b t Hp E. unfold grow_calls, find_draw_call.
  assert (HL : List.length a + List.length b = total ms) by (unfold total; rewrite E, app_length; reflexivity).
  destruct (find_scale ms 0 0 (List.length a) ltac:(lia)) as [(pre & t0 & m & post & -> & F & B)|[B F]];
    rewrite Nat.mul_0_r in F; rewrite F; cbn [fst snd Nat.add] in *; clear F.
  - rewrite expand1_app, expand1_cons in E. rewrite allpos_app, allpos_cons in Hp. destruct Hp as (Hp1 & Hm & Hp2).
    destruct (Nat.eqb_spec (6 * List.length a) (6 * total pre)) as [Eq|Ne].
    + assert (HA : List.length a = total pre) by lia. unfold total in HA.
      destruct (app_split_eq _ _ _ _ _ (eq_sym HA) E) as [<- <-].
      destruct (Nat.ltb_spec 0 (List.length pre)) as [L|L]; cbn [andb].
      * destruct (exists_last (l := pre)) as (pre0 & [t1 m1] & ->); [intros ->; cbn in L; lia|].
        rewrite app_length. cbn [List.length]. replace (List.length pre0 + 1 - 1) with (List.length (scale pre0)) by (rewrite scale_length; lia).
        rewrite <- app_assoc. cbn [app]. rewrite scale_app, !scale_cons, nth_error_at.
        rewrite allpos_app, allpos_cons in Hp1. destruct Hp1 as (Hp0 & Hm1 & _).
        destruct (Nat.eqb_spec t1 t) as [->|Hne].
        { exists (pre0 ++ (t, m1 + 1) :: (t0, m) :: post). split; [|split].
          - rewrite set_nth_app, scale_app, !scale_cons. do 4 f_equal. lia.
          - rewrite allpos_app, !allpos_cons. repeat split; try assumption; lia.
          - rewrite !expand1_app, !expand1_cons, repeat_add. cbn [repeat expand1 flat_map fst snd]. rewrite app_nil_r, <- !app_assoc. reflexivity. }
        replace (List.length pre0 + 1) with (List.length (scale pre0 ++ [(t1, 6 * m1)])) by (rewrite app_length, scale_length; cbn; lia).
        replace (scale pre0 ++ (t1, 6 * m1) :: (t0, 6 * m) :: scale post)
          with ((scale pre0 ++ [(t1, 6 * m1)]) ++ (t0, 6 * m) :: scale post) by (rewrite <- app_assoc; reflexivity).
        rewrite nth_error_at.
        destruct (Nat.ltb_spec (List.length (scale pre0 ++ [(t1, 6 * m1)])) (List.length ((scale pre0 ++ [(t1, 6 * m1)]) ++ (t0, 6 * m) :: scale post))) as [_|L2];
          [|rewrite (app_length (scale pre0 ++ _)) in L2; cbn [List.length] in L2; lia]. cbn [andb].
        destruct (Nat.eqb_spec t0 t) as [->|Hne0].
        { exists (pre0 ++ (t1, m1) :: (t, m + 1) :: post). split; [|split].
          - rewrite set_nth_app, scale_app, !scale_cons, <- app_assoc. cbn [app]. do 5 f_equal. lia.
          - rewrite allpos_app, !allpos_cons. repeat split; try assumption; lia.
          - rewrite !expand1_app, !expand1_cons, (Nat.add_comm m 1), repeat_add. cbn [repeat expand1 flat_map fst snd app]. rewrite app_nil_r, <- !app_assoc. reflexivity. }
        exists (pre0 ++ (t1, m1) :: (t, 1) :: (t0, m) :: post). split; [|split].
        -- rewrite vec_insert_app, scale_app, !scale_cons, <- app_assoc. reflexivity.
        -- rewrite allpos_app, !allpos_cons. repeat split; try assumption; lia.
        -- rewrite !expand1_app, !expand1_cons. cbn [repeat expand1 flat_map fst snd app]. rewrite app_nil_r, <- !app_assoc. reflexivity.
      * assert (pre = []) as -> by (destruct pre; [reflexivity | cbn in L; lia]). cbn [app List.length scale map nth_error expand1 flat_map fst snd].
        cbn [Nat.ltb Nat.leb andb].
        destruct (Nat.eqb_spec t0 t) as [->|Hne0].
        { exists ((t, m + 1) :: post). split; [|split].
          - cbn [set_nth]. rewrite scale_cons. unfold scale. do 3 f_equal. lia.
          - rewrite allpos_cons. split; [lia | assumption].
          - rewrite expand1_cons, (Nat.add_comm m 1), repeat_add. reflexivity. }
        exists ((t, 1) :: (t0, m) :: post). split; [reflexivity|]. split; [|reflexivity].
        rewrite !allpos_cons. repeat split; try assumption; lia.
    + assert (Hk0 : exists k, List.length a = total pre + k /\ 0 < k < m) by (exists (List.length a - total pre); lia). destruct Hk0 as (k & HAk & Hk).
      assert (Ea : a = expand1 pre ++ repeat t0 k /\ b = repeat t0 (m - k) ++ expand1 post).
      { apply app_split_eq.
        - rewrite app_length, repeat_length. unfold total in *. lia.
        - rewrite <- E, <- app_assoc. f_equal. rewrite app_assoc, <- repeat_add. do 2 f_equal. lia. }
      destruct Ea as [-> ->]. rewrite scale_app, scale_cons.
      replace (List.length pre) with (List.length (scale pre)) by apply scale_length. rewrite nth_error_at.
      destruct (Nat.eqb_spec t0 t) as [->|Hne].
      * exists (pre ++ (t, m + 1) :: post). split; [|split].
        -- rewrite set_nth_app, scale_app, scale_cons. do 4 f_equal. lia.
        -- rewrite allpos_app, allpos_cons. repeat split; try assumption; lia.
        -- rewrite expand1_app, expand1_cons, <- app_assoc. f_equal.
           replace (m + 1) with (k + (1 + (m - k))) by lia. rewrite !repeat_add, <- !app_assoc. reflexivity.
      * replace (6 * List.length (expand1 pre ++ repeat t0 k) - 6 * total pre) with (6 * k)
          by (unfold total; rewrite app_length, repeat_length; lia).
        rewrite set_nth_app, vec_insert_app, vec_insert_app.
        exists (pre ++ (t0, k) :: (t, 1) :: (t0, m - k) :: post). split; [|split].
        -- rewrite scale_app, !scale_cons. do 6 f_equal. lia.
        -- rewrite allpos_app, !allpos_cons. repeat split; try assumption; lia.
        -- rewrite expand1_app, !expand1_cons. cbn [repeat app]. rewrite <- !app_assoc. reflexivity.
  - assert (b = []) as -> by (destruct b; [reflexivity | cbn in HL; lia]).
    assert (HA : List.length a = total ms) by (cbn in HL; lia). rewrite HA, Nat.eqb_refl. rewrite app_nil_r in E. subst a.
    rewrite scale_length, Nat.ltb_irrefl. cbn [andb].
    destruct (Nat.ltb_spec 0 (List.length ms)) as [L|L]; cbn [andb].
    + destruct (exists_last (l := ms)) as (pre0 & [t1 m1] & ->); [intros ->; cbn in L; lia|].
      rewrite app_length. cbn [List.length]. replace (List.length pre0 + 1 - 1) with (List.length (scale pre0)) by (rewrite scale_length; lia).
      rewrite scale_app, scale_cons, nth_error_at.
      rewrite allpos_app, allpos_cons in Hp. destruct Hp as (Hp0 & Hm1 & _).
      destruct (Nat.eqb_spec t1 t) as [->|Hne].
      { exists (pre0 ++ [(t, m1 + 1)]). split; [|split].
        - rewrite set_nth_app, scale_app, !scale_cons. do 4 f_equal. lia.
        - rewrite allpos_app, allpos_cons. repeat split; try assumption; try lia. constructor.
        - rewrite !expand1_app, !expand1_cons, repeat_add. cbn [repeat expand1 flat_map fst snd]. rewrite !app_nil_r, <- !app_assoc. reflexivity. }
      exists (pre0 ++ [(t1, m1); (t, 1)]). split; [|split].
      * replace (List.length pre0 + 1) with (List.length (scale pre0 ++ [(t1, 6 * m1)])) by (rewrite app_length, scale_length; cbn; lia).
        rewrite <- (app_nil_r (scale pre0 ++ (t1, 6 * m1) :: scale [])). rewrite vec_insert_app, scale_app, !scale_cons, <- app_assoc. reflexivity.
      * rewrite allpos_app, !allpos_cons. repeat split; try assumption; try lia. constructor.
      * rewrite !expand1_app, !expand1_cons. cbn [repeat expand1 flat_map fst snd app]. rewrite !app_nil_r, <- !app_assoc. reflexivity.
    + assert (ms = []) as -> by (destruct ms; [reflexivity | cbn in L; lia]).
      exists [(t, 1)]. split; [reflexivity|]. split; [constructor; [cbn; lia | constructor] | reflexivity].
Qed.

Lemma shrink_scale : forall ms a b t, allpos ms -> expand1 ms = a ++ t :: b ->
  exists ms', shrink_call (scale ms) (6 * List.length a) = Some (scale ms') /\ allpos ms' /\ expand1 ms' = a ++ b.
Proof.
  intros ms a b t Hp E. unfold shrink_call, find_draw_call.
  assert (HL : List.length a + S (List.length b) = total ms) by (unfold total; rewrite E, app_length; reflexivity).
  destruct (find_scale ms 0 0 (List.length a) ltac:(lia)) as [(pre & t0 & m & post & -> & F & B)|[B F]]; [|lia].
  rewrite Nat.mul_0_r in F. rewrite F. cbn [Nat.add] in *. clear F.
  rewrite expand1_app, expand1_cons in E. rewrite allpos_app, allpos_cons in Hp. destruct Hp as (Hp1 & Hm & Hp2).
  rewrite scale_app, scale_cons. replace (List.length pre) with (List.length (scale pre)) by apply scale_length. rewrite nth_error_at.
  destruct (Nat.ltb_spec (6 * m) 6) as [|_]; [lia|].
  assert (Hk0 : exists k, List.length a = total pre + k /\ k < m) by (exists (List.length a - total pre); lia). destruct Hk0 as (k & HAk & Hk).
  assert (Ea : a = expand1 pre ++ repeat t0 k /\ t :: b = repeat t0 (m - k) ++ expand1 post).
  { apply app_split_eq.
    - rewrite app_length, repeat_length. unfold total in *. lia.
    - rewrite <- E, <- app_assoc. f_equal. rewrite app_assoc, <- repeat_add. do 2 f_equal. lia. }
  destruct Ea as [-> Eb]. replace (m - k) with (S (m - k - 1)) in Eb by lia. cbn [repeat app] in Eb. injection Eb as -> ->.
  destruct (Nat.eqb_spec (6 * m - 6) 0) as [Ez|Ez].
  - assert (m = 1) as -> by lia. assert (k = 0) as -> by lia. exists (pre ++ post). rewrite vec_remove_app, scale_app. split; [reflexivity|].
    split; [apply allpos_app; auto|]. rewrite expand1_app. cbn [repeat Nat.sub app]. rewrite app_nil_r. reflexivity.
  - exists (pre ++ (t0, m - 1) :: post). rewrite set_nth_app, scale_app, scale_cons. split; [do 4 f_equal; lia|].
    split; [rewrite allpos_app, allpos_cons; repeat split; try assumption; lia|].
    rewrite expand1_app, expand1_cons, <- app_assoc. f_equal. rewrite app_assoc, <- repeat_add. do 2 f_equal. lia.
Qed.

Lemma build_scale : forall ts ms, allpos ms ->
  exists ms', build_calls (rev (scale ms)) ts = scale ms' /\ allpos ms' /\ expand1 ms' = expand1 ms ++ ts.
Proof.
  induction ts as [|t ts IH]; intros ms Hp; cbn [build_calls].
  - exists ms. rewrite rev_involutive, app_nil_r. auto.
  - destruct ms as [|[t1 m1] ms] using rev_ind.
    + change (rev (scale [])) with (@nil (nat * nat)). change [(t, 6)] with (rev (scale [(t, 1)])).
      destruct (IH [(t, 1)]) as (ms' & E1 & Hp' & E2); [constructor; [cbn; lia | constructor]|].
      exists ms'. split; [exact E1|]. split; [exact Hp' | exact E2].
    + clear IHms. rewrite scale_app, rev_app_distr, scale_cons. cbn [scale map rev app]. fold (scale ms).
      rewrite allpos_app, allpos_cons in Hp. destruct Hp as (Hp0 & Hm1 & _).
      destruct (Nat.eqb_spec t1 t) as [->|Hne].
      * replace ((t, 6 * m1 + 6) :: rev (scale ms)) with (rev (scale (ms ++ [(t, m1 + 1)]))).
        2:{ rewrite scale_app, rev_app_distr, scale_cons. cbn [scale map rev app]. do 2 f_equal. lia. }
        destruct (IH (ms ++ [(t, m1 + 1)])) as (ms' & -> & Hp' & E'); [rewrite allpos_app, allpos_cons; repeat split; [assumption | lia | constructor]|].
        exists ms'. split; [reflexivity|]. split; [exact Hp'|]. rewrite E', !expand1_app, !expand1_cons, repeat_add.
        cbn [repeat expand1 flat_map]. rewrite !app_nil_r, <- !app_assoc. reflexivity.
      * replace ((t, 6) :: (t1, 6 * m1) :: rev (scale ms)) with (rev (scale ((ms ++ [(t1, m1)]) ++ [(t, 1)]))).
        2:{ rewrite !scale_app, !rev_app_distr. reflexivity. }
        destruct (IH ((ms ++ [(t1, m1)]) ++ [(t, 1)])) as (ms' & -> & Hp' & E').
        { rewrite !allpos_app, !allpos_cons. repeat split; try assumption; try lia; constructor. }
        exists ms'. split; [reflexivity|]. split; [exact Hp'|]. rewrite E', !expand1_app, !expand1_cons.
        cbn [repeat expand1 flat_map app]. rewrite !app_nil_r, <- !app_assoc. reflexivity.
Qed.

(** ** the level invariant *)
Section Level.
  Context {P SK V : Type} `{TO : TotalOrd SK} (path_of : P -> text).
  Notation level := (level P V).
  Notation rpop := (rpop SK V).
  Notation instance := (instance P).

  (** the law of [binary_search_by_key] *)
  Definition lawful_search (bs : list SK -> SK -> search_result) : Prop :=
    forall l k, StronglySorted kle l ->
      match bs l k with
      | Found i => nth_error l i = Some k
      | Missing i => i <= List.length l /\ Forall (fun x => klt x k) (firstn i l) /\ Forall (klt k) (skipn i l)
      end.

  Lemma sorted_app : forall (a b : list SK), StronglySorted kle (a ++ b) ->
    StronglySorted kle a /\ StronglySorted kle b /\ (forall x y, In x a -> In y b -> kle x y).
  Proof.
    induction a as [|x a IH]; intros b H; cbn [app] in *.
    - split; [constructor|]. split; [exact H | intros ? ? []].
    - inversion H as [|? ? H1 H2]; subst. destruct (IH b H1) as (A & B & C). rewrite Forall_forall in H2.
      split; [|split; [exact B|]].
      + constructor; [exact A|]. apply Forall_forall. intros y Hy. apply H2, in_or_app. left. exact Hy.
      + intros u v [<-|Hu] Hv; [apply H2, in_or_app; right; exact Hv | apply C; assumption].
  Qed.
  Lemma sorted_glue : forall (a b : list SK), StronglySorted kle a -> StronglySorted kle b ->
    (forall x y, In x a -> In y b -> kle x y) -> StronglySorted kle (a ++ b).
  Proof.
    induction a as [|x a IH]; intros b Ha Hb H; cbn [app]; [exact Hb|].
    inversion Ha as [|? ? H1 H2]; subst. rewrite Forall_forall in H2. constructor.
    - apply IH; auto. intros u v Hu Hv. apply H; [right; exact Hu | exact Hv].
    - apply Forall_forall. intros y Hy. apply in_app_or in Hy. destruct Hy as [Hy|Hy]; [apply H2; exact Hy | apply H; [left; reflexivity | exact Hy]].
  Qed.

  Lemma search_split : forall bs l k, lawful_search bs -> StronglySorted kle l ->
    exists a b, l = a ++ b /\ List.length a = (match bs l k with Found i => i | Missing i => i end) /\ StronglySorted kle (a ++ k :: b).
  Proof.
    intros bs l k Hb Hs. specialize (Hb l k Hs). destruct (bs l k) as [i|i].
    - apply nth_error_split in Hb. destruct Hb as (a & b & -> & <-). exists a, (k :: b). split; [reflexivity|]. split; [reflexivity|].
      destruct (sorted_app _ _ Hs) as (A & B & C). apply sorted_glue; [exact A| |].
      + constructor; [exact B|]. inversion B as [|? ? _ B2]; subst. constructor; [apply kle_refl | exact B2].
      + intros x y Hx [<-|Hy]; apply C; auto. left. reflexivity.
    - destruct Hb as (Hi & H1 & H2). exists (firstn i l), (skipn i l). split; [symmetry; apply firstn_skipn|].
      split; [apply firstn_length_le; exact Hi|]. rewrite <- (firstn_skipn i l) in Hs. destruct (sorted_app _ _ Hs) as (A & B & C).
      rewrite Forall_forall in H1, H2. apply sorted_glue; [exact A| |].
      + constructor; [exact B|]. apply Forall_forall. intros y Hy. apply klt_kle, H2. exact Hy.
      + intros x y Hx [<-|Hy]; [apply klt_kle, H1; exact Hx | apply C; assumption].
  Qed.

  (** [c] says which indices are alive and what they hold *)
  Record inv (rp : P -> rpop) (l : level) (c : contents instance V) : Prop := {
    inv_pool : wf (instances l) c;
    inv_nodup : NoDup (sorted_order l);
    inv_all : forall i, In i (sorted_order l) <-> c i <> None;
    inv_ib_len : List.length (index_buffer_ l) = List.length (sorted_order l);
    inv_ib : index_buffer_dirty l = false -> index_buffer_ l = map indices (sorted_order l) }.
  (** render order and draw calls, for the [rps] of the sorted order *)
  Record drawn (rp : P -> rpop) (l : level) (rps : list rpop) : Prop := {
    dr_rps : Forall2 (fun i r => pop_at rp l i = Some r) (sorted_order l) rps;
    dr_sorted : StronglySorted kle (map rp_key rps);
    dr_calls : exists ms, draw_calls l = scale ms /\ allpos ms /\ expand1 ms = map rp_texture rps }.

  Lemma live_pop : forall (rp : P -> rpop) (l : level) c i, wf (instances l) c -> c i <> None -> exists inst v, c i = Some (inst, v) /\
    get_key (instances l) i = Some inst /\ pop_at rp l i = Some (rp (pop inst)).
  Proof.
    intros rp l c i W H. assert (Hni : ~ In i (freelist (instances l))) by (intro Hi; destruct (wf_free _ _ W i Hi); contradiction).
    pose proof (wf_live _ _ W i Hni) as E. unfold pop_at, get_key.
    destruct (nth_error (keys (instances l)) i) as [inst|]; [|rewrite E in H; contradiction].
    destruct (nth_error (vals (instances l)) i) as [v|]; [|rewrite E in H; contradiction]. exists inst, v. auto.
  Qed.

  Lemma rps_exist : forall (rp : P -> rpop) (l : level) c so, wf (instances l) c -> (forall i, In i so -> c i <> None) ->
    exists rps, Forall2 (fun i r => pop_at rp l i = Some r) so rps.
  Proof.
    intros rp l c so W. induction so as [|i so IH]; intro H; [exists []; constructor|].
    destruct IH as [rps Hr]; [intros; apply H; right; assumption|].
    destruct (live_pop rp l c i W) as (inst & v & _ & _ & E); [apply H; left; reflexivity|].
    eexists. constructor; eassumption.
  Qed.

  Lemma Forall2_app_split : forall A B (R : A -> B -> Prop) a b r, Forall2 R (a ++ b) r ->
    exists ra rb, r = ra ++ rb /\ Forall2 R a ra /\ Forall2 R b rb /\ List.length ra = List.length a.
  Proof.
    intros A B R a b r H. apply Forall2_app_inv_l in H. destruct H as (ra & rb & Ha & Hb & ->).
    exists ra, rb. split; [reflexivity|]. split; [exact Ha|]. split; [exact Hb|]. symmetry.
    clear -Ha. induction Ha; cbn; congruence.
  Qed.
  Lemma Forall2_ext_in : forall A B (R R' : A -> B -> Prop) a r, (forall x y, In x a -> R x y -> R' x y) -> Forall2 R a r -> Forall2 R' a r.
  Proof.
    intros A B R R' a r H F. induction F; constructor.
    - apply H; [left; reflexivity | assumption].
    - apply IHF. intros u v Hu. apply H. right. exact Hu.
  Qed.

  (** removing a live instance *)
  Lemma remove_ok : forall (rp : P -> rpop) (l : level) c rps i, inv rp l c -> drawn rp l rps -> c i <> None ->
    exists l' inst v rps', remove_instance l i = Some (l', inst) /\ c i = Some (inst, v) /\
      inv rp l' (update c i None) /\ drawn rp l' rps' /\ freelist (instances l') = i :: freelist (instances l).
  Proof.
    intros rp l c rps i I D Hi. destruct (live_pop rp l c i (inv_pool _ _ _ I) Hi) as (inst & v & Ec & Eg & Ep).
    unfold remove_instance. rewrite Eg. destruct (wf_free_op _ _ i (inv_pool _ _ _ I) Hi) as (p' & Ef & Wp). rewrite Ef.
    destruct (position i (sorted_order l)) as [pos|] eqn:Epos.
    2:{ apply position_none in Epos. contradiction Epos. apply (inv_all _ _ _ I). exact Hi. }
    apply position_some in Epos. destruct Epos as (a & b & Es & <- & Hna).
    destruct D as [D1 D2 (ms & D3 & D4 & D5)]. rewrite Es in D1.
    destruct (Forall2_app_split _ _ _ _ _ _ D1) as (ra & rb & -> & Fa & Fb & La).
    inversion Fb as [|? r ? rb' Hr Fb']; subst.
    rewrite map_app in D5. cbn [map] in D5.
    destruct (shrink_scale ms (map rp_texture ra) (map rp_texture rb') (rp_texture r) D4 D5) as (ms' & E' & P' & X').
    rewrite map_length, La in E'. rewrite D3, E', Es, vec_remove_app.
    destruct (split_at _ (index_buffer_ l) (List.length a)) as (ia & ib & Eib & Lia).
    { rewrite (inv_ib_len _ _ _ I), Es, app_length. lia. }
    pose proof (inv_ib_len _ _ _ I) as HL. rewrite Es, Eib, !app_length in HL. cbn [List.length] in HL.
    destruct ib as [|x ib]; [cbn [List.length] in HL; lia|]. rewrite Eib, <- Lia, vec_remove_app.
    pose proof (inv_nodup _ _ _ I) as Hnd. rewrite Es in Hnd. pose proof (NoDup_remove_2 _ _ _ Hnd) as Hnb. apply NoDup_remove_1 in Hnd.
    eexists _, inst, v, (ra ++ rb'). split; [reflexivity|]. split; [exact Ec|]. split; [|split].
    - split; cbn [instances sorted_order index_buffer_ index_buffer_dirty].
      + exact Wp.
      + exact Hnd.
      + intro j. unfold update. destruct (Nat.eqb_spec j i) as [->|Hne].
        * split; [intro H; contradiction | intro H; contradiction H; reflexivity].
        * rewrite <- (inv_all _ _ _ I j), Es, !in_app_iff. cbn [In]. split; [tauto|]. intros [|[|]]; auto. congruence.
      + rewrite !app_length. cbn [List.length] in HL. lia.
      + intro Hd. pose proof (inv_ib _ _ _ I Hd) as Hib. rewrite Es, Eib, map_app in Hib. cbn [map] in Hib.
        apply app_split_eq in Hib; [|rewrite map_length; exact Lia]. destruct Hib as [-> Hib]. injection Hib as _ ->.
        rewrite map_app. reflexivity.
    - split; cbn [instances sorted_order draw_calls].
      + apply Forall2_app; (eapply Forall2_ext_in; [|eassumption]); intros x0 y Hx H; unfold pop_at, get_key in *; cbn [instances];
          unfold free in Ef; destruct (mem i (freelist (instances l))); try discriminate; injection Ef as <-; exact H.
      + rewrite map_app in *. cbn [map] in D2. destruct (sorted_app _ _ D2) as (A & B & C). inversion B; subst.
        apply sorted_glue; auto. intros x0 y Hx Hy. apply C; [exact Hx | right; exact Hy].
      + exists ms'. split; [reflexivity|]. split; [exact P'|]. rewrite map_app. exact X'.
    - cbn [instances]. unfold free in Ef. destruct (mem i _); [discriminate|]. injection Ef as <-. reflexivity.
  Qed.

  (** the new index is not alive; on a pool with free slots it is the last one freed *)
  Lemma prep_ok : forall (rp : P -> rpop) (l : level) c x y p, wf (instances l) c ->
    exists l' idx, prep_instance rp l x y p = Some (l', idx) /\ c idx = None /\
      wf (instances l') (update c idx (Some ({| ix := x; iy := y; pop := p |}, rp_vertices (rp p) (x, y)))) /\
      sorted_order l' = sorted_order l /\ index_buffer_ l' = index_buffer_ l /\ index_buffer_dirty l' = index_buffer_dirty l /\
      draw_calls l' = draw_calls l /\ (forall j fl, freelist (instances l) = j :: fl -> idx = j /\ freelist (instances l') = fl).
  Proof.
    intros rp l c x y p W. unfold prep_instance.
    destruct (wf_push _ _ {| ix := x; iy := y; pop := p |} (rp_vertices (rp p) (x, y)) W) as (p' & idx & E & Hc & W').
    rewrite E. eexists _, idx. split; [reflexivity|]. cbn. do 6 (split; [first [exact Hc | exact W' | reflexivity]|]).
    intros j fl Hf. unfold push in E. rewrite Hf in E.
    destruct (set_nth j _ (keys _)); [|discriminate]. destruct (set_nth j _ (vals _)); [|discriminate]. injection E as <- <-. auto.
  Qed.

  Lemma pop_at_update : forall (rp : P -> rpop) (l l' : level) c idx x, wf (instances l) c -> wf (instances l') (update c idx x) -> c idx = None ->
    forall i, c i <> None -> pop_at rp l' i = pop_at rp l i.
  Proof.
    intros rp l l' c idx x W W' Hn i Hi. destruct (live_pop rp l c i W Hi) as (inst & v & E & _ & ->).
    assert (Hi' : update c idx x i <> None) by (unfold update; destruct (Nat.eqb_spec i idx); congruence).
    destruct (live_pop rp l' _ i W' Hi') as (inst' & v' & E' & _ & ->).
    unfold update in E'. destruct (Nat.eqb_spec i idx); [congruence|]. rewrite E in E'. injection E' as <- <-. reflexivity.
  Qed.

  Variable bs : list SK -> SK -> search_result.
  Hypothesis Hbs : lawful_search bs.

  (** inserting without replacement *)
  Lemma insert_ok : forall (rp : P -> rpop) (l : level) c rps x y p, inv rp l c -> drawn rp l rps ->
    exists l2 idx rps2 rp2 so ib dcs,
      prep_instance rp l x y p = Some (l2, idx) /\ c idx = None /\
      (forall j fl, freelist (instances l) = j :: fl -> idx = j) /\
      all_some (map (pop_at rp l2) (sorted_order l2)) = Some rps2 /\ pop_at rp l2 idx = Some rp2 /\
      let pos := match bs (map rp_key rps2) (rp_key rp2) with Found i => i | Missing i => i end in
      vec_insert pos idx (sorted_order l2) = Some so /\ vec_insert pos (indices idx) (index_buffer_ l2) = Some ib /\
      grow_calls (draw_calls l2) (6 * pos) (rp_texture rp2) = Some dcs /\
      let l' := {| instances := instances l2; sorted_order := so; index_buffer_ := ib;
                   index_buffer_dirty := index_buffer_dirty l2; draw_calls := dcs |} in
      inv rp l' (update c idx (Some ({| ix := x; iy := y; pop := p |}, rp_vertices (rp p) (x, y)))) /\
      exists rps', drawn rp l' rps'.
  Proof.
    intros rp l c rps x y p I D.
    destruct (prep_ok rp l c x y p (inv_pool _ _ _ I)) as (l2 & idx & E & Hc & W & S1 & S2 & S3 & S4 & S5).
    assert (Hold : forall i, In i (sorted_order l) -> pop_at rp l2 i = pop_at rp l i).
    { intros i Hi. eapply pop_at_update; [apply (inv_pool _ _ _ I) | exact W | exact Hc|]. apply (inv_all _ _ _ I). exact Hi. }
    destruct D as [D1 D2 (ms & D3 & D4 & D5)].
    assert (D1' : Forall2 (fun i r => pop_at rp l2 i = Some r) (sorted_order l2) rps).
    { rewrite S1. eapply Forall2_ext_in; [|exact D1]. intros i r Hi H. cbn beta. rewrite Hold; assumption. }
    destruct (live_pop rp l2 _ idx W) as (inst & v & Ei & _ & Ep); [unfold update; rewrite Nat.eqb_refl; discriminate|].
    unfold update in Ei. rewrite Nat.eqb_refl in Ei. injection Ei as <- <-. cbn [pop] in Ep.
    destruct (search_split bs (map rp_key rps) (rp_key (rp p)) Hbs D2) as (ka & kb & Ek & Lk & Hsort).
    set (pos := match bs (map rp_key rps) (rp_key (rp p)) with Found i => i | Missing i => i end) in *.
    assert (HLr : List.length (sorted_order l) = List.length rps) by (clear -D1; induction D1; cbn; congruence).
    assert (Hpos : pos <= List.length rps).
    { rewrite <- Lk, <- (map_length rp_key rps), Ek, app_length. lia. }
    destruct (split_at _ (sorted_order l) pos ltac:(lia)) as (sa & sb & Es & Ls).
    destruct (split_at _ rps pos Hpos) as (ra & rb & Er & Lr).
    destruct (split_at _ (index_buffer_ l) pos) as (ia & ib & Eib & Lib); [rewrite (inv_ib_len _ _ _ I); lia|].
    assert (Ekr : ka = map rp_key ra /\ kb = map rp_key rb).
    { apply app_split_eq; [rewrite map_length; lia|]. rewrite <- map_app, <- Er. symmetry. exact Ek. }
    destruct Ekr as [-> ->].
    rewrite Er, map_app in D5.
    destruct (grow_scale ms (map rp_texture ra) (map rp_texture rb) (rp_texture (rp p)) D4 D5) as (ms' & E' & P' & X').
    rewrite map_length, Lr in E'.
    exists l2, idx, rps, (rp p), (sa ++ idx :: sb), (ia ++ indices idx :: ib), (scale ms').
    split; [exact E|]. split; [exact Hc|]. split; [intros j fl Hf; apply (S5 j fl Hf)|].
    split; [apply all_some_iff; exact D1'|]. split; [exact Ep|]. fold pos. cbv zeta.
    split; [rewrite S1, Es, <- Ls; apply vec_insert_app|].
    split; [rewrite S2, Eib, <- Lib; apply vec_insert_app|].
    split; [rewrite S4, D3; exact E'|].
    assert (Hni : ~ In idx (sorted_order l)) by (intro H; apply (inv_all _ _ _ I) in H; contradiction).
    split.
    - split; cbn [instances sorted_order index_buffer_ index_buffer_dirty].
      + exact W.
      + pose proof (inv_nodup _ _ _ I) as Hnd. rewrite Es in Hnd, Hni. apply (NoDup_Add (a := idx) (l := sa ++ sb)); [apply Add_app|]. auto.
      + intro j. unfold update. rewrite in_app_iff. cbn [In]. pose proof (inv_all _ _ _ I j) as Hj. rewrite Es, in_app_iff in Hj.
        destruct (Nat.eqb_spec j idx) as [->|Hne]; [split; [discriminate | auto]|]. rewrite <- Hj. split; [intros [|[|]]; auto; congruence | tauto].
      + pose proof (inv_ib_len _ _ _ I) as HL. rewrite Es, Eib, !app_length in HL. rewrite !app_length. cbn [List.length]. lia.
      + rewrite S3. intro Hd. pose proof (inv_ib _ _ _ I Hd) as Hib. rewrite Es, Eib, map_app in Hib.
        apply app_split_eq in Hib; [|rewrite map_length; lia]. destruct Hib as [-> ->]. rewrite map_app. reflexivity.
    - exists (ra ++ rp p :: rb). split; cbn [instances sorted_order draw_calls].
      + rewrite Es, Er in D1. destruct (Forall2_app_split _ _ _ _ _ _ D1) as (ra' & rb' & Err & Fa & Fb & La).
        apply app_split_eq in Err; [|lia]. destruct Err as [<- <-].
        apply Forall2_app; [|constructor].
        * eapply Forall2_ext_in; [|exact Fa]. intros i r Hi H. change (pop_at rp l2 i = Some r). rewrite Hold; [exact H | rewrite Es; apply in_or_app; left; exact Hi].
        * exact Ep.
        * eapply Forall2_ext_in; [|exact Fb]. intros i r Hi H. change (pop_at rp l2 i = Some r). rewrite Hold; [exact H | rewrite Es; apply in_or_app; right; exact Hi].
      + rewrite map_app. exact Hsort.
      + exists ms'. split; [reflexivity|]. split; [exact P'|]. rewrite map_app. exact X'.
  Qed.

  Lemma find_replaced_some : forall (l : level) c x y cat i, wf (instances l) c -> find_replaced path_of l x y cat = Some i ->
    exists inst v, c i = Some (inst, v) /\ ix inst = x /\ iy inst = y /\ ispath (path_of (pop inst)) cat = true /\
      (forall j inst' v', c j = Some (inst', v') -> ix inst' = x -> iy inst' = y -> ispath (path_of (pop inst')) cat = true -> i <= j).
  Proof.
    intros l c x y cat i W H. unfold find_replaced in H.
    destruct (find _ (keys_iter (instances l))) as [[j inst]|] eqn:E; [|discriminate]. cbn in H. injection H as ->.
    pose proof (find_some _ _ E) as [Hin Ht]. cbn [snd fst] in Ht. apply andb_true_iff in Ht. destruct Ht as [Ht T3].
    apply andb_true_iff in Ht. destruct Ht as [T1 T2]. apply Nat.eqb_eq in T1, T2.
    apply (keys_iter_In _ c) in Hin; [|exact W]. destruct Hin as [v Hv]. exists inst, v. do 4 (split; [assumption|]).
    intros j inst' v' Hj X Y Z.
    assert (Hin' : In (j, inst') (keys_iter (instances l))) by (apply (keys_iter_In _ c); eauto).
    assert (Hs : StronglySorted lt (map fst (keys_iter (instances l)))).
    { rewrite keys_iter_fst. apply filter_sorted, seq_sorted. }
    clear W Hv Hj. induction (keys_iter (instances l)) as [|q k IH]; [discriminate|].
    cbn [find] in E. cbn [map] in Hs. apply StronglySorted_inv in Hs. destruct Hs as [Hs1 Hs2].
    destruct ((ix (snd q) =? x) && (iy (snd q) =? y) && ispath (path_of (pop (snd q))) cat) eqn:Eq.
    - injection E as ->. destruct Hin' as [He|Hin']; [injection He as -> _; lia|].
      rewrite Forall_forall in Hs2. specialize (Hs2 j (in_map fst k (j, inst') Hin')). cbn in Hs2. lia.
    - destruct Hin' as [->|Hin'].
      + cbn [snd] in Eq. rewrite X, Y, Z, !Nat.eqb_refl in Eq. discriminate.
      + apply IH; auto.
  Qed.
  Lemma find_replaced_none : forall (l : level) c x y cat, wf (instances l) c -> find_replaced path_of l x y cat = None ->
    forall j inst v, c j = Some (inst, v) -> ix inst = x -> iy inst = y -> ispath (path_of (pop inst)) cat = false.
  Proof.
    intros l c x y cat W H j inst v Hj X Y. unfold find_replaced in H.
    destruct (find _ (keys_iter (instances l))) as [q|] eqn:E; [discriminate|].
    assert (Hin : In (j, inst) (keys_iter (instances l))) by (apply (keys_iter_In _ c); eauto).
    pose proof (find_none _ _ E _ Hin) as Hn. cbn [snd] in Hn. rewrite X, Y, !Nat.eqb_refl in Hn. exact Hn.
  Qed.

  (** what adding does to the contents *)
  Inductive added (c : contents instance V) (x y : nat) (p : P) : nat -> option instance -> contents instance V -> Prop :=
  | added_plain : forall idx,
      (forall cat, should_replace (path_of p) = Some cat -> forall j inst v, c j = Some (inst, v) ->
         ix inst = x -> iy inst = y -> ispath (path_of (pop inst)) cat = false) ->
      c idx = None -> added c x y p idx None c
  | added_replacing : forall idx cat inst v,
      should_replace (path_of p) = Some cat -> c idx = Some (inst, v) -> ix inst = x -> iy inst = y ->
      ispath (path_of (pop inst)) cat = true ->
      (forall j inst' v', c j = Some (inst', v') -> ix inst' = x -> iy inst' = y -> ispath (path_of (pop inst')) cat = true -> idx <= j) ->
      added c x y p idx (Some inst) (update c idx None).

  Lemma add_ok : forall (rp : P -> rpop) (l : level) c rps x y p, inv rp l c -> drawn rp l rps ->
    exists l' idx replaced c1, add_level path_of bs rp l x y p = Some (l', idx, replaced) /\
      added c x y p idx replaced c1 /\ (replaced = None -> forall j fl, freelist (instances l) = j :: fl -> idx = j) /\
      inv rp l' (update c1 idx (Some ({| ix := x; iy := y; pop := p |}, rp_vertices (rp p) (x, y)))) /\
      exists rps', drawn rp l' rps'.
  Proof.
    intros rp l c rps x y p I D. unfold add_level.
    assert (G : forall (l1 : level) rps1 c1 (r : option instance), inv rp l1 c1 -> drawn rp l1 rps1 -> (r <> None -> exists j fl, freelist (instances l1) = j :: fl) ->
      exists l' idx, match prep_instance rp l1 x y p with
        | None => None
        | Some (l2, idx) =>
            match all_some (map (pop_at rp l2) (sorted_order l2)), pop_at rp l2 idx with
            | Some rps, Some rp0 =>
                let pos := match bs (map rp_key rps) (rp_key rp0) with Found i => i | Missing i => i end in
                match vec_insert pos idx (sorted_order l2), vec_insert pos (indices idx) (index_buffer_ l2),
                      grow_calls (draw_calls l2) (6 * pos) (rp_texture rp0) with
                | Some so, Some ib, Some dcs =>
                    Some ({| instances := instances l2; sorted_order := so; index_buffer_ := ib;
                             index_buffer_dirty := index_buffer_dirty l2; draw_calls := dcs |}, idx, r)
                | _, _, _ => None
                end
            | _, _ => None
            end
        end = Some (l', idx, r) /\ c1 idx = None /\ (forall j fl, freelist (instances l1) = j :: fl -> idx = j) /\
        inv rp l' (update c1 idx (Some ({| ix := x; iy := y; pop := p |}, rp_vertices (rp p) (x, y)))) /\ exists rps', drawn rp l' rps').
    { intros l1 rps1 c1 r I1 D1 _.
      destruct (insert_ok rp l1 c1 rps1 x y p I1 D1) as (l2 & idx & rps2 & rp2 & so & ib & dcs & E1 & E2 & E3 & E4 & E5 & E6).
      cbv zeta in E6. destruct E6 as (E6 & E7 & E8 & E9 & E10).
      rewrite E1, E4, E5. cbv zeta. rewrite E6, E7, E8. eexists _, idx. split; [reflexivity|]. auto. }
    destruct (should_replace (path_of p)) as [cat|] eqn:Es.
    - destruct (find_replaced path_of l x y cat) as [i|] eqn:Ef.
      + destruct (find_replaced_some l c x y cat i (inv_pool _ _ _ I) Ef) as (inst & v & Hc & X & Y & Z & Hmin).
        destruct (remove_ok rp l c rps i I D) as (l1 & inst1 & v1 & rps1 & E1 & Hc1 & I1 & D1 & F1); [congruence|].
        rewrite E1. cbn [option_map fst snd]. rewrite Hc in Hc1. injection Hc1 as <- <-.
        destruct (G l1 rps1 (update c i None) (Some inst) I1 D1) as (l' & idx & E & Hn & Hidx & I' & D'); [eauto|].
        specialize (Hidx _ _ F1). subst idx. exists l', i, (Some inst), (update c i None). split; [exact E|]. split; [|split; [discriminate | auto]].
        apply (added_replacing c x y p i cat inst v); assumption.
      + destruct (G l rps c None I D) as (l' & idx & E & Hn & Hidx & I' & D'); [congruence|].
        exists l', idx, None, c. split; [exact E|]. split; [|split; [intros _; exact Hidx | auto]]. constructor; [|exact Hn].
        intros cat' Hcat. rewrite Es in Hcat. injection Hcat as <-. apply (find_replaced_none l c x y cat (inv_pool _ _ _ I) Ef).
    - destruct (G l rps c None I D) as (l' & idx & E & Hn & Hidx & I' & D'); [congruence|].
      exists l', idx, None, c. split; [exact E|]. split; [|split; [intros _; exact Hidx | auto]]. constructor; [|exact Hn]. rewrite Es. discriminate.
  Qed.

  Lemma unsorted_ok : forall (rp : P -> rpop) (l : level) c x y p, inv rp l c ->
    exists l' idx, add_unsorted rp l x y p = Some l' /\ c idx = None /\
      inv rp l' (update c idx (Some ({| ix := x; iy := y; pop := p |}, rp_vertices (rp p) (x, y)))).
  Proof.
    intros rp l c x y p I. unfold add_unsorted.
    destruct (prep_ok rp l c x y p (inv_pool _ _ _ I)) as (l2 & idx & E & Hc & W & S1 & S2 & S3 & S4 & S5).
    rewrite E. eexists _, idx. split; [reflexivity|]. split; [exact Hc|].
    assert (Hni : ~ In idx (sorted_order l)) by (intro H; apply (inv_all _ _ _ I) in H; contradiction).
    split; cbn [instances sorted_order index_buffer_ index_buffer_dirty]; rewrite ?S1, ?S2, ?S3.
    - exact W.
    - apply (NoDup_Add (a := idx) (l := sorted_order l)); [|split; [apply (inv_nodup _ _ _ I) | exact Hni]].
      rewrite <- (app_nil_r (sorted_order l)) at 1. apply Add_app.
    - intro j. unfold update. rewrite in_app_iff. cbn [In]. pose proof (inv_all _ _ _ I j) as Hj.
      destruct (Nat.eqb_spec j idx) as [->|Hne]; [split; [discriminate | auto]|]. rewrite <- Hj. split; [intros [|[|[]]]; auto; congruence | tauto].
    - rewrite !app_length, (inv_ib_len _ _ _ I). reflexivity.
    - intro Hd. rewrite (inv_ib _ _ _ I Hd), map_app. reflexivity.
  Qed.

  Lemma insert_sorted_perm : forall (x : SK * nat) l, Permutation (insert_sorted x l) (x :: l).
  Proof.
    induction l as [|y l IH]; cbn [insert_sorted]; [reflexivity|]. destruct (kleb (fst x) (fst y)); [reflexivity|].
    rewrite IH. apply perm_swap.
  Qed.
  Lemma stable_sort_perm : forall l : list (SK * nat), Permutation (stable_sort l) l.
  Proof. induction l as [|x l IH]; [reflexivity|]. cbn [stable_sort fold_right]. fold (stable_sort l). rewrite insert_sorted_perm, IH. reflexivity. Qed.
  Lemma kleb_true : forall a b : SK, kleb a b = true -> kle a b.
  Proof. intros a b. unfold kleb, kle. destruct (kcmp a b); congruence. Qed.
  Lemma kleb_false : forall a b : SK, kleb a b = false -> kle b a.
  Proof. intros a b. unfold kleb, kle. rewrite (kcmp_opp a b). destruct (kcmp a b); cbn; congruence. Qed.
  Lemma insert_sorted_sorted : forall (x : SK * nat) l, StronglySorted kle (map fst l) -> StronglySorted kle (map fst (insert_sorted x l)).
  Proof.
    induction l as [|y l IH]; intro H; cbn [insert_sorted map].
    - constructor; constructor.
    - cbn [map] in H. inversion H as [|? ? H1 H2]; subst. destruct (kleb (fst x) (fst y)) eqn:E; cbn [map].
      + apply kleb_true in E. constructor; [exact H|]. constructor; [exact E|]. rewrite Forall_forall in *. intros z Hz. eapply kle_trans; [exact E | apply H2; exact Hz].
      + apply kleb_false in E. constructor; [apply IH; exact H1|]. rewrite Forall_forall in *. intros z Hz.
        assert (Hz' : In z (fst x :: map fst l)) by (eapply Permutation_in; [apply (Permutation_map fst (insert_sorted_perm x l)) | exact Hz]).
        destruct Hz' as [<-|Hz']; [exact E | apply H2; exact Hz'].
  Qed.
  Lemma stable_sort_sorted : forall l : list (SK * nat), StronglySorted kle (map fst (stable_sort l)).
  Proof. induction l as [|x l IH]; [constructor|]. cbn [stable_sort fold_right]. apply insert_sorted_sorted. exact IH. Qed.

  Lemma sort_ok : forall (rp0 rp : P -> rpop) (l : level) c, inv rp0 l c -> exists l' rps, sort_again rp l = Some l' /\ inv rp l' c /\ drawn rp l' rps /\
    instances l' = instances l.
  Proof.
    intros rp0 rp l c I. unfold sort_again.
    destruct (rps_exist rp l c (sorted_order l) (inv_pool _ _ _ I)) as [rps Hr]; [intros i Hi; apply (inv_all _ _ _ I); exact Hi|].
    apply all_some_iff in Hr. rewrite Hr. apply all_some_iff in Hr.
    set (pairs := combine (map rp_key rps) (sorted_order l)).
    assert (HL : List.length (map rp_key rps) = List.length (sorted_order l)) by (rewrite map_length; clear -Hr; induction Hr; cbn; congruence).
    assert (Hsnd : map snd pairs = sorted_order l).
    { unfold pairs. clear -HL. revert HL. generalize (map rp_key rps). induction (sorted_order l) as [|i so IH]; intros [|k ks] H; cbn in *; try lia; [reflexivity|]. f_equal. apply IH. lia. }
    assert (Hpair : forall k i, In (k, i) pairs -> option_map rp_key (pop_at rp l i) = Some k).
    { unfold pairs. clear -Hr. induction Hr as [|i r so rs H1 H2 IH]; cbn; intros k j Hin; [destruct Hin|].
      destruct Hin as [E|Hin]; [injection E as <- <-; rewrite H1; reflexivity | apply IH; exact Hin]. }
    assert (PP : Permutation (map snd (stable_sort pairs)) (sorted_order l)).
    { rewrite <- Hsnd. apply Permutation_map, stable_sort_perm. }
    assert (Hr2 : exists rps2, Forall2 (fun i r => pop_at rp l i = Some r) (map snd (stable_sort pairs)) rps2 /\ map rp_key rps2 = map fst (stable_sort pairs)).
    { assert (Hin : forall k i, In (k, i) (stable_sort pairs) -> option_map rp_key (pop_at rp l i) = Some k).
      { intros k i H. apply Hpair. eapply Permutation_in; [apply stable_sort_perm | exact H]. }
      clear -Hin. induction (stable_sort pairs) as [|[k i] ps IH]; [exists []; split; [constructor | reflexivity]|].
      destruct IH as (rps2 & A & B); [intros; apply Hin; right; assumption|].
      specialize (Hin k i (or_introl eq_refl)). destruct (pop_at rp l i) as [r|] eqn:E; [|discriminate]. injection Hin as <-.
      exists (r :: rps2). cbn [map snd fst]. split; [constructor; assumption | rewrite B; reflexivity]. }
    destruct Hr2 as (rps2 & Hr2 & Hk2). apply all_some_iff in Hr2. rewrite Hr2. apply all_some_iff in Hr2.
    eexists _, rps2. split; [reflexivity|]. split; [|split; [|reflexivity]].
    - split; cbn [instances sorted_order index_buffer_ index_buffer_dirty].
      + apply (inv_pool _ _ _ I).
      + eapply Permutation_NoDup; [symmetry; exact PP | apply (inv_nodup _ _ _ I)].
      + intro i. rewrite <- (inv_all _ _ _ I i). split; apply Permutation_in; [exact PP | symmetry; exact PP].
      + rewrite (inv_ib_len _ _ _ I). symmetry. apply Permutation_length, PP.
      + discriminate.
    - split; cbn [instances sorted_order draw_calls].
      + exact Hr2.
      + rewrite Hk2. apply stable_sort_sorted.
      + destruct (build_scale (map rp_texture rps2) []) as (ms & E & Hp & Hx); [constructor|].
        exists ms. split; [exact E|]. split; [exact Hp | exact Hx].
  Qed.

  Lemma add_all_ok : forall adds (rp : P -> rpop) (l : level) c, inv rp l c -> exists l' c', add_all rp l adds = Some l' /\ inv rp l' c'.
  Proof.
    induction adds as [|[[x y] p] adds IH]; intros rp l c I; cbn [add_all]; [eauto|].
    destruct (unsorted_ok rp l c x y p I) as (l1 & idx & E & _ & I1). rewrite E. apply (IH rp l1 _ I1).
  Qed.

  Lemma read_ok : forall (rp : P -> rpop) (l : level) c rps, inv rp l c -> drawn rp l rps ->
    snd (read_index l) = map indices (sorted_order l) /\ inv rp (fst (read_index l)) c /\ drawn rp (fst (read_index l)) rps.
  Proof.
    intros rp l c rps I D. unfold read_index. destruct (index_buffer_dirty l) eqn:E; cbn [fst snd].
    - split; [reflexivity|]. split.
      + split; cbn; try apply I; [apply map_length | reflexivity].
      + split; cbn; apply D.
    - split; [apply (inv_ib _ _ _ I E) | auto].
  Qed.

  Lemma empty_ok : forall (rp : P -> rpop), inv rp empty_level (fun _ => None) /\ drawn rp empty_level [].
  Proof.
    intro rp. split; split; cbn.
    - apply wf_empty.
    - constructor.
    - intro i. split; [intros [] | congruence].
    - reflexivity.
    - reflexivity.
    - constructor.
    - constructor.
    - exists []. split; [reflexivity|]. split; [constructor | reflexivity].
  Qed.
End Level.
