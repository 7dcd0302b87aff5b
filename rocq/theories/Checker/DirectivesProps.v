(** C53: the directives of procedures. *)
From Coq Require Import List Arith NArith Bool String Lia Relations.
From Verif Require Import Common.Text Objtree.Model Objtree.Spec Objtree.Calls Objtree.InheritProps Checker.CallTree Checker.Spec Checker.SleepProofs Checker.TreeFacts Checker.Directives Checker.DirectivesSpec.
Import ListNotations.
Open Scope nat_scope.

Section C53.
Variables V D L : Type.
Variable vloc : V -> L.
Variable dloc : D -> L.
Variable l_eqb : L -> L -> bool.
Hypothesis l_eqb_spec : forall a b, l_eqb a b = true <-> a = b.
Variable t : objtree V D.
Variable pre : list preport.
Hypothesis F : finished t pre.
Hypothesis AC : acyclic t.
Notation defined_ := (defined V D t).

(** *** where a procedure stands *)
Lemma chain_suffix name i l : chain t name i l -> forall a q rest, l = a ++ q :: rest -> exists a', chain t name (pr_ty q) (a' ++ q :: rest) /\ snd (fst q) = name.
Proof using Type.
  induction 1 as [i E|i p tail E C IH]; intros a q rest Q.
  - assert (H : In q (own t name i)) by (rewrite Q; apply in_or_app; right; left; reflexivity). apply own_in in H. destruct H as (<- & Hn & _). exists a. rewrite <- Q. split; [constructor; exact E|exact Hn].
  - destruct (app_eq_app _ _ _ _ Q) as (k & [[Ea Eb]|[Ea Eb]]).
    + destruct k as [|k0 k]; cbn [app] in Eb; [exact (IH [] q rest (eq_sym Eb))|]. assert (Ek : k0 = q) by congruence. subst k0. assert (H : In q (own t name i)) by (rewrite Ea; apply in_or_app; right; left; reflexivity). apply own_in in H. destruct H as (<- & Hn & _).
      exists a. split; [|exact Hn]. rewrite <- Q. econstructor; eauto.
    + exact (IH k q rest Eb).
Qed.
Lemma split_same {A : Type} (a b : list A) x c d : NoDup (a ++ x :: b) -> a ++ x :: b = c ++ x :: d -> a = c /\ b = d.
Proof using Type.
  revert c. induction a as [|y a IH]; intros [|z c] N E; cbn [app] in *.
  - assert (b = d) by congruence. auto.
  - inversion N as [|? ? N1 _]; subst. assert (Q : b = c ++ x :: d) by congruence. destruct N1. rewrite Q. apply in_or_app. right. left. reflexivity.
  - inversion N as [|? ? N1 _]; subst. assert (Q : y = x) by congruence. destruct N1. rewrite Q. apply in_or_app. right. left. reflexivity.
  - inversion N as [|? ? N1 N2]; subst. assert (Q : a ++ x :: b = c ++ x :: d) by congruence. destruct (IH c N2 Q) as [-> ->]. split; [congruence|reflexivity].
Qed.
Lemma parents_chain p rest a : chain t (snd (fst p)) (pr_ty p) (a ++ p :: rest) -> tree_parents t p = rest.
Proof using F AC.
  intro C. assert (Hd : defined_ p) by (apply (chain_nodup V D t AC _ _ _ C); apply in_or_app; right; left; reflexivity). destruct (tree_parents_iff V D t pre F AC p Hd) as (l & b & C' & E). pose proof (chain_fun V D t _ _ _ _ C' C) as Q. rewrite E in Q.
  destruct (chain_nodup V D t AC _ _ _ C) as [N _]. rewrite <- Q in N. apply (split_same b (tree_parents t p) p a rest N Q).
Qed.
Lemma parents_defined p q rest pre0 : defined_ p -> tree_parents t p = pre0 ++ q :: rest -> tree_parents t q = rest /\ defined_ q.
Proof using F AC.
  intros Hd E. destruct (tree_parents_iff V D t pre F AC p Hd) as (l & a & C & El). rewrite E in El. assert (El' : l = (a ++ p :: pre0) ++ q :: rest) by (rewrite El, <- app_assoc; reflexivity). destruct (chain_suffix _ _ _ C _ _ _ El') as (a' & C' & En). rewrite <- En in C'.
  split; [exact (parents_chain q rest a' C')|]. apply (chain_nodup V D t AC _ _ _ C'). apply in_or_app. right. left. reflexivity.
Qed.
Lemma next_iff p parent : defined_ p -> (next t p parent <-> exists rest, tree_parents t p = parent :: rest).
Proof using F AC.
  intro Hd. split.
  - intros (a & rest & C). exists rest. exact (parents_chain p _ a C).
  - intros (rest & E). destruct (tree_parents_iff V D t pre F AC p Hd) as (l & a & C & El). rewrite E in El. exists a, rest. rewrite <- El. exact C.
Qed.
Lemma first_entry_iff (m : entries L) ps q b l : one_each m -> (first_entry m ps = Some (q, b, l) <-> exists mid rest, ps = mid ++ q :: rest /\ (forall x v, In x mid -> ~ In (x, v) m) /\ In (q, (b, l)) m).
Proof using Type.
  intro N. induction ps as [|p ps IH]; cbn [first_entry].
  - split; [discriminate|]. intros ([|x mid] & rest & Q & _); discriminate.
  - destruct (pr_get p m) as [[b' l']|] eqn:E.
    + apply (pr_get_iff p m _ N) in E. split.
      * intro Q. injection Q as <- <- <-. exists [], ps. split; [reflexivity|]. split; [intros x v []|exact E].
      * intros ([|x mid] & rest & Q & H1 & H2); cbn [app] in Q; injection Q as Qx Q; subst; [apply (pr_get_iff _ m _ N) in E, H2; congruence|]. destruct (H1 x (b', l') (or_introl eq_refl) E).
    + rewrite pr_get_none in E. rewrite IH. split.
      * intros (mid & rest & -> & H1 & H2). exists (p :: mid), rest. split; [reflexivity|]. split; [|exact H2]. intros x v [<-|Hx]; auto.
      * intros ([|x mid] & rest & Q & H1 & H2); cbn [app] in Q; injection Q as Qx Q; subst; [destruct (E _ H2)|]. exists mid, rest. split; [reflexivity|]. split; [|exact H2]. intros y v Hy. apply H1. right. exact Hy.
Qed.
Lemma governs_iff (m : entries L) p q b l : defined_ p -> one_each m -> (get_self_or_parent t m p = Some (q, b, l) <-> governs t m p q b l).
Proof using F AC.
  intros Hd N. unfold get_self_or_parent. rewrite (first_entry_iff m _ q b l N). unfold governs. destruct (tree_parents_iff V D t pre F AC p Hd) as (ch & a & C & El). split.
  - intros (mid & rest & E & H1 & H2). exists a, mid, rest. rewrite <- E, <- El. split; [exact C|]. split; [|auto]. destruct mid; cbn [app] in *; injection E as <- _; reflexivity.
  - intros (a' & mid & rest & C' & Hh & H1 & H2). exists mid, rest. split; [|auto]. assert (Ex : exists rest', mid ++ q :: rest = p :: rest').
    { destruct mid; cbn [app hd_error] in *; injection Hh as <-; eauto. }
    destruct Ex as (rest' & Ex). rewrite Ex in C'. rewrite Ex, (parents_chain p rest' a' C'). reflexivity.
Qed.
Lemma governs_none (m : entries L) p : defined_ p -> one_each m -> (get_self_or_parent t m p = None <-> forall q b l, ~ governs t m p q b l).
Proof using F AC.
  intros Hd N. split.
  - intros E q b l G. apply (governs_iff m p q b l Hd N) in G. congruence.
  - intro H. destruct (get_self_or_parent t m p) as [[[q b] l]|] eqn:E; [|reflexivity]. apply (governs_iff m p q b l Hd N) in E. destruct (H _ _ _ E).
Qed.

(** *** gathering *)
Lemma elsewhere_iff p : elsewhere t vloc dloc l_eqb p = true <-> not_the_declaration t vloc dloc p.
Proof using F AC l_eqb_spec.
  unfold elsewhere, not_the_declaration. destruct (C50_declaration V D t pre (pr_ty p) (snd (fst p)) (List.length (graph t)) F AC (le_n _)) as (r & -> & Hr). split.
  - destruct r as [d|]; [|discriminate]. destruct (value_of t p) as [v|]; [|discriminate]. rewrite negb_true_iff. intro E. exists d, v. split; [exact Hr|]. split; [reflexivity|]. intro Q. apply l_eqb_spec in Q. congruence.
  - intros (d & v & Hd & -> & N). pose proof (Inherit.nearest_fun V D t _ _ _ _ Hr Hd) as ->. apply negb_true_iff. destruct (l_eqb (dloc d) (vloc v)) eqn:E; [apply l_eqb_spec in E; congruence|reflexivity].
Qed.
Notation acceptable_ := (acceptable t vloc dloc).
Notation first_accepted_ := (first_accepted t vloc dloc).
Notation refused_ := (refused t vloc dloc).
Notation gather_ := (gather t vloc dloc l_eqb).
Notation add_ := (add t vloc dloc l_eqb).
Lemma acceptable_value d s b b' : acceptable_ d s b -> acceptable_ d s b' -> b = b'.
Proof using Type. intros (E & _) (E' & _). congruence. Qed.
(** the map after these settings *)
Definition after (d : rules) (ss : list (setting L)) (m : entries L) : Prop := one_each m /\ forall p b l, In (p, (b, l)) m <-> first_accepted_ d ss p b l.
Lemma first_more d ss s p b l : first_accepted_ d (ss ++ [s]) p b l <-> first_accepted_ d ss p b l \/ (s_proc s = p /\ s_loc s = l /\ acceptable_ d s b /\ forall b0 l0, ~ first_accepted_ d ss p b0 l0).
Proof using F AC l_eqb_spec.
  assert (G : (forall b0 l0, ~ first_accepted_ d ss p b0 l0) -> forall s' b', In s' ss -> s_proc s' = p -> ~ acceptable_ d s' b').
  { induction ss as [|x ss0 IH] using rev_ind; intros H s' b' Hs Ep A; [destruct Hs|]. assert (H0 : forall b0 l0, ~ first_accepted_ d ss0 p b0 l0).
    { intros b0 l0 (be & s0 & af & -> & Q). apply (H b0 l0). exists be, s0, (af ++ [x]). split; [rewrite <- app_assoc; reflexivity|exact Q]. }
    apply in_app_or in Hs. destruct Hs as [Hs|[<-|[]]]; [exact (IH H0 s' b' Hs Ep A)|]. apply (H b' (s_loc x)). exists ss0, x, []. repeat split; try assumption; try apply A. intros s1 b1 H1 E1. exact (IH H0 s1 b1 H1 E1). }
  split.
  - intros (be & s0 & af & E & Ep & El & A & N). destruct af as [|y af] using rev_ind.
    + apply app_inj_tail in E. destruct E as [-> ->]. right. split; [exact Ep|]. split; [exact El|]. split; [exact A|]. intros b0 l0 (be' & s1 & af' & E' & Ep' & _ & A' & _). apply (N s1 b0); [rewrite E'; apply in_or_app; right; left; reflexivity|exact Ep'|exact A'].
    + clear IHaf. left. change (ss ++ [s] = be ++ (s0 :: af) ++ [y]) in E. rewrite app_assoc in E. apply app_inj_tail in E. destruct E as [-> _]. exists be, s0, af. auto.
  - intros [(be & s0 & af & -> & Q)|(Ep & El & A & N)].
    + exists be, s0, (af ++ [s]). split; [rewrite <- app_assoc; reflexivity|exact Q].
    + exists ss, s, []. repeat split; try assumption; try apply A. exact (G N).
Qed.
Lemma add_ok d ss m s : after d ss m ->
  match add_ d m s with
  | inl m' => after d (ss ++ [s]) m' /\ List.length m' = S (List.length m) /\ (forall r, ~ refused_ d ss s r)
  | inr r => after d (ss ++ [s]) m /\ (forall r', refused_ d ss s r' <-> r' = r)
  end.
Proof using F AC l_eqb_spec.
  intros [N A]. unfold add. destruct (set_at_definition d && elsewhere t vloc dloc l_eqb (s_proc s)) eqn:E1.
  - apply andb_true_iff in E1. destruct E1 as [E1 E2]. apply elsewhere_iff in E2. split.
    + split; [exact N|]. intros p b l. rewrite first_more, <- A. split; [auto|]. intros [H|(_ & _ & (_ & H & _) & _)]; [exact H|destruct (H E1 E2)].
    + intro r'. split; [|intros ->; apply not_here; assumption]. intros [H1 H2|H1 H2|b H1 H2 H3 H4|H1 H2 H3 H4|b b0 first (H1 & H2 & H3) H4]; try reflexivity; try (destruct (H1 E1 E2)); destruct (H2 E1 E2).
  - assert (E2 : set_at_definition d = true -> ~ not_the_declaration t vloc dloc (s_proc s)).
    { intros H Q. apply elsewhere_iff in Q. rewrite H, Q in E1. discriminate. }
    destruct (s_value s) as [b|] eqn:Ev.
    + unfold insert. destruct ((pr_ty (s_proc s) =? 0) && negb (can_be_global d)) eqn:E3.
      { apply andb_true_iff in E3. destruct E3 as [E3 E4]. apply Nat.eqb_eq in E3. apply negb_true_iff in E4. split.
        - split; [exact N|]. intros p b' l. rewrite first_more, <- A. split; [auto|]. intros [H|(_ & _ & (_ & _ & H & _) & _)]; [exact H|]. specialize (H E3). congruence.
        - intro r'. split; [|intros ->; apply not_global with (b := b); assumption]. intros [H1 H2|H1 H2|b' H1 H2 H3 H4|H1 H2 H3 H4|b' b0 first (H1 & H2 & H3 & H5) H4]; try reflexivity; [destruct (E2 H1 H2)|congruence|specialize (H3 E3); congruence|specialize (H3 E3); congruence]. }
      assert (E4 : pr_ty (s_proc s) = 0 -> can_be_global d = true).
      { intro H. rewrite (proj2 (Nat.eqb_eq _ _) H) in E3. destruct (can_be_global d); [reflexivity|discriminate]. }
      destruct (negb b && negb (can_be_disabled d)) eqn:E5.
      { apply andb_true_iff in E5. destruct E5 as [E5 E6]. apply negb_true_iff in E5, E6. subst b. split.
        - split; [exact N|]. intros p b' l. rewrite first_more, <- A. split; [auto|]. intros [H|(_ & _ & (H1 & _ & _ & H) & _)]; [exact H|]. rewrite Ev in H1. injection H1 as <-. specialize (H eq_refl). congruence.
        - intro r'. split; [|intros ->; apply not_disabled; assumption]. intros [H1 H2|H1 H2|b' H1 H2 H3 H4|H1 H2 H3 H4|b' b0 first (H1 & H2 & H3 & H5) H4]; try reflexivity; [destruct (E2 H1 H2)|congruence|specialize (E4 H3); congruence|]. rewrite Ev in H1. injection H1 as <-. specialize (H5 eq_refl). congruence. }
      assert (Ac : acceptable_ d s b).
      { split; [exact Ev|]. split; [exact E2|]. split; [exact E4|]. intros ->. destruct (can_be_disabled d); [reflexivity|discriminate]. }
      destruct (pr_get (s_proc s) m) as [[b0 first]|] eqn:E6.
      * apply (pr_get_iff _ m _ N) in E6. apply A in E6. split.
        -- split; [exact N|]. intros p b' l. rewrite first_more, <- A. split; [auto|]. intros [H|(<- & _ & _ & H)]; [exact H|]. destruct (H b0 first E6).
        -- intro r'. split; [|intros ->; apply twice with (b := b) (b0 := b0); assumption]. intros [H1 H2|H1 H2|b' H1 H2 H3 H4|H1 H2 H3 H4|b' b1 first' H1 H4].
           ++ destruct (E2 H1 H2).
           ++ congruence.
           ++ specialize (E4 H3). congruence.
           ++ destruct Ac as (Q & _ & _ & Q'). rewrite H2 in Q. injection Q as <-. specialize (Q' eq_refl). congruence.
           ++ apply A in E6, H4. apply (pr_get_iff _ m _ N) in E6, H4. congruence.
      * rewrite pr_get_none in E6. assert (No : forall b0 l0, ~ first_accepted_ d ss (s_proc s) b0 l0) by (intros b0 l0 H; apply A in H; exact (E6 _ H)). split; [split|split; [reflexivity|]].
        -- unfold one_each. cbn [map fst]. constructor; [|exact N]. intro Q. apply in_map_iff in Q. destruct Q as ([q v] & Eq & Q). cbn [fst] in Eq. subst q. exact (E6 v Q).
        -- intros p b' l. rewrite first_more, <- A. cbn [In]. split.
           ++ intros [Q|Q]; [|left; exact Q]. right. injection Q as <- <- <-. auto.
           ++ intros [Q|(<- & <- & Ac' & _)]; [right; exact Q|]. left. rewrite (acceptable_value d s b' b Ac' Ac). reflexivity.
        -- intros r [H1 H2|H1 H2|b' H1 H2 H3 H4|H1 H2 H3 H4|b' b1 first' H1 H4].
           ++ destruct (E2 H1 H2).
           ++ congruence.
           ++ specialize (E4 H3). congruence.
           ++ destruct Ac as (Q & _ & _ & Q'). rewrite H2 in Q. injection Q as <-. specialize (Q' eq_refl). congruence.
           ++ exact (No _ _ H4).
    + split.
      * split; [exact N|]. intros p b l. rewrite first_more, <- A. split; [auto|]. intros [H|(_ & _ & (H & _) & _)]; [exact H|congruence].
      * intro r'. split; [|intros ->; apply bad_value; assumption]. intros [H1 H2|H1 H2|b H1 H2 H3 H4|H1 H2 H3 H4|b b0 first (H1 & H2) H4]; try reflexivity; try congruence. destruct (E2 H1 H2).
Qed.
Lemma gather_ok d : forall rest ss m, after d ss m -> after d (ss ++ rest) (fst (gather_ d m rest)) /\
  (forall s r, In (s, r) (snd (gather_ d m rest)) <-> exists before aft, rest = before ++ s :: aft /\ refused_ d (ss ++ before) s r) /\
  List.length (fst (gather_ d m rest)) + List.length (snd (gather_ d m rest)) = List.length m + List.length rest.
Proof using F AC l_eqb_spec.
  induction rest as [|s rest IH]; intros ss m A.
  - cbn [gather fst snd]. rewrite app_nil_r. split; [exact A|]. split; [|cbn; lia]. intros s r. split; [intros []|]. intros ([|x be] & aft & Q & _); discriminate.
  - cbn [gather]. pose proof (add_ok d ss m s A) as H. destruct (add_ d m s) as [m'|r0].
    + destruct H as (A' & Hl & Hn). destruct (IH (ss ++ [s]) m' A') as (B1 & B2 & B3). rewrite <- app_assoc in B1. split; [exact B1|]. split; [|cbn [List.length]; lia]. intros x r. rewrite B2. split.
      * intros (be & aft & -> & R). exists (s :: be), aft. split; [reflexivity|]. rewrite <- app_assoc in R. exact R.
      * intros ([|y be] & aft & Q & R); cbn [app] in Q; injection Q as Qy Q; subst; [rewrite app_nil_r in R; destruct (Hn r R)|]. exists be, aft. split; [reflexivity|]. rewrite <- app_assoc. exact R.
    + destruct H as (A' & Hr). destruct (IH (ss ++ [s]) m A') as (B1 & B2 & B3). destruct (gather_ d m rest) as [m' out]. cbn [fst snd] in *. rewrite <- app_assoc in B1. split; [exact B1|]. split; [|cbn [List.length]; lia]. intros x r. cbn [In]. rewrite B2. split.
      * intros [Q|(be & aft & -> & R)].
        -- assert (x = s) by congruence. assert (r = r0) by congruence. subst. exists [], rest. split; [reflexivity|]. rewrite app_nil_r. apply Hr. reflexivity.
        -- exists (s :: be), aft. split; [reflexivity|]. rewrite <- app_assoc in R. exact R.
      * intros ([|y be] & aft & Q & R); cbn [app] in Q; injection Q as Qy Q; subst.
        -- left. rewrite app_nil_r in R. apply Hr in R. congruence.
        -- right. exists be, aft. split; [reflexivity|]. rewrite <- app_assoc. exact R.
Qed.

(** *** copying *)
Section COPY.
Variable d : rules.
Variable m : entries L.
Hypothesis N : one_each m.
Definition allowed (p : procref) : bool := negb (pr_ty p =? 0) || can_be_global d.
Definition expected (ps : list procref) (p : procref) : option (bool * L) :=
  match pr_get p m with
  | Some v => Some v
  | None => if pr_in p ps && allowed p then match first_entry m (tree_parents t p) with Some (_, true, l) => Some (true, l) | _ => None end else None
  end.
Lemma same_value m1 ps : (forall p, pr_get p m1 = expected ps p) -> forall l, (forall a x rest, l = a ++ x :: rest -> tree_parents t x = rest) ->
  option_map (fun r => (snd (fst r), snd r)) (first_entry m1 l) = option_map (fun r => (snd (fst r), snd r)) (first_entry m l).
Proof using Type.
  intros H. induction l as [|p l IH]; intro T; [reflexivity|]. cbn [first_entry]. rewrite (H p). unfold expected. assert (T' : forall a x rest, l = a ++ x :: rest -> tree_parents t x = rest) by (intros a x rest ->; apply (T (p :: a)); reflexivity). specialize (IH T').
  destruct (pr_get p m) as [[b at_]|]; [reflexivity|]. rewrite (T [] p l eq_refl). destruct (pr_in p ps && allowed p); [|exact IH]. destruct (first_entry m l) as [[[q [|]] at_]|]; [reflexivity| |]; exact IH.
Qed.
Lemma parents_suffixes p : defined_ p -> forall a x rest, tree_parents t p = a ++ x :: rest -> tree_parents t x = rest.
Proof using F AC. intros Hd a x rest E. exact (proj1 (parents_defined p x rest a Hd E)). Qed.
Lemma copied_ok : forall ps, (forall p, In p ps -> defined_ p) -> one_each (copied t d m ps) /\ forall p, pr_get p (copied t d m ps) = expected ps p.
Proof using F AC N.
  induction ps as [|p0 ps IH] using rev_ind; intro Hd.
  - split; [exact N|]. intro p. unfold copied, expected. cbn. destruct (pr_get p m) as [v|]; reflexivity.
  - destruct IH as [N1 H1]; [intros p Hp; apply Hd, in_or_app; left; exact Hp|]. unfold copied in *. rewrite fold_left_app. cbn [fold_left]. set (m1 := fold_left (try_copy t d) ps m) in *. clearbody m1.
    assert (Hd0 : defined_ p0) by (apply Hd, in_or_app; right; left; reflexivity).
    assert (Oth : forall p, p <> p0 -> expected (ps ++ [p0]) p = expected ps p).
    { intros p Np. unfold expected, pr_in. rewrite existsb_app. cbn [existsb]. destruct (pr_eqb_spec p p0); [congruence|]. rewrite !orb_false_r. reflexivity. }
    assert (Own : expected (ps ++ [p0]) p0 = match pr_get p0 m with Some v => Some v | None => if allowed p0 then match first_entry m (tree_parents t p0) with Some (_, true, l) => Some (true, l) | _ => None end else None end).
    { unfold expected. replace (pr_in p0 (ps ++ [p0])) with true by (symmetry; apply pr_in_iff, in_or_app; right; left; reflexivity). reflexivity. }
    assert (Stay : pr_get p0 m1 = expected (ps ++ [p0]) p0 -> one_each m1 /\ forall p, pr_get p m1 = expected (ps ++ [p0]) p).
    { intro E. split; [exact N1|]. intro p. destruct (pr_eqb_spec p p0) as [->|Np]; [exact E|]. rewrite (Oth p Np). apply H1. }
    unfold try_copy. destruct (pr_get p0 m1) as [v|] eqn:E0.
    + apply Stay. rewrite Own. rewrite H1 in E0. unfold expected in E0. destruct (pr_get p0 m); [congruence|]. destruct (pr_in p0 ps); [|discriminate]. cbn [andb] in E0. symmetry. exact E0.
    + pose proof E0 as E0'. rewrite H1 in E0'. unfold expected in E0'. destruct (pr_get p0 m) as [v|] eqn:Em; [discriminate|]. pose proof (parents_suffixes p0 Hd0) as Sx. pose proof (same_value m1 ps H1 (tree_parents t p0) Sx) as Sv. destruct (tree_parents t p0) as [|parent rest] eqn:Tp.
      * apply Stay. rewrite Own. cbn [first_entry]. destruct (allowed p0); reflexivity.
      * assert (Eg : get_self_or_parent t m1 parent = first_entry m1 (parent :: rest)) by (unfold get_self_or_parent; rewrite (Sx [] parent rest eq_refl); reflexivity). rewrite Eg.
        destruct (first_entry m1 (parent :: rest)) as [[[q b] at_]|] eqn:E1.
        -- destruct (first_entry m (parent :: rest)) as [[[q' b'] at']|]; [|discriminate]. cbn [option_map fst snd] in Sv. injection Sv as Sb Sl. subst b' at'. destruct b; [|apply Stay; rewrite Own; destruct (allowed p0); reflexivity].
           unfold insert. cbn [negb andb]. rewrite E0. destruct ((pr_ty p0 =? 0) && negb (can_be_global d)) eqn:Al.
           ++ apply Stay. rewrite Own. replace (allowed p0) with false; [reflexivity|]. unfold allowed. apply andb_true_iff in Al. destruct Al as [A1 A2]. rewrite A1. apply negb_true_iff in A2. rewrite A2. reflexivity.
           ++ assert (Al' : allowed p0 = true) by (unfold allowed; destruct (pr_ty p0 =? 0), (can_be_global d); auto). rewrite Al' in Own. split.
              ** unfold one_each. cbn [map fst]. constructor; [|exact N1]. rewrite pr_get_none in E0. intro Q. apply in_map_iff in Q. destruct Q as ([x v] & Ex & Q). cbn [fst] in Ex. subst x. exact (E0 v Q).
              ** intro p. unfold pr_get at 1. cbn [List.find fst snd]. destruct (pr_eqb_spec p0 p) as [<-|Np]; [rewrite Own; reflexivity|]. fold (pr_get p m1). rewrite (Oth p) by congruence. apply H1.
        -- destruct (first_entry m (parent :: rest)) as [[[q' b'] at']|] eqn:E2; [discriminate|]. apply Stay. rewrite Own. destruct (allowed p0); reflexivity.
Qed.
End COPY.

(** Which settings count and which are complained about: the first acceptable one for each procedure counts; every other one is complained
    about, for the right reason.  Acceptable: given where the procedure is declared, for directives that must be; not on a global procedure
    or to turn it off, for directives that do not allow it; with a valid value. *)
Theorem C53_gather : forall d settings,
  one_each (fst (gather_ d [] settings)) /\
  (forall p b l, In (p, (b, l)) (fst (gather_ d [] settings)) <-> first_accepted_ d settings p b l) /\
  (forall s r, In (s, r) (snd (gather_ d [] settings)) <-> exists before aft, settings = before ++ s :: aft /\ refused_ d before s r) /\
  List.length (fst (gather_ d [] settings)) + List.length (snd (gather_ d [] settings)) = List.length settings.
Proof using F AC l_eqb_spec.
  intros d settings. destruct (gather_ok d settings [] []) as ((B1 & B1') & B2 & B3).
  - split; [constructor|]. intros p b l. split; [intros []|]. intros ([|x be] & s & af & Q & _); discriminate.
  - cbn [app List.length plus] in *. auto.
Qed.
(** A directive is passed on to exactly those procedures with code whose nearest procedure upwards that has it has it turned on; in whatever
    order they are gone through. *)
Theorem C53_copied : forall d (m : entries L) procs, one_each m -> (forall p, In p procs -> exists_ t p) ->
  one_each (copied t d m procs) /\
  forall p b l, In (p, (b, l)) (copied t d m procs) <->
    In (p, (b, l)) m \/ (In p procs /\ (forall v, ~ In (p, v) m) /\ b = true /\ (exists q, governs t m p q true l) /\ (pr_ty p = 0 -> can_be_global d = true)).
Proof using F AC.
  intros d m procs N Hd. destruct (copied_ok d m N procs Hd) as [N1 H1]. split; [exact N1|]. intros p b l. rewrite <- (pr_get_iff p _ (b, l) N1), H1. unfold expected. destruct (pr_get p m) as [v|] eqn:E.
  - apply (pr_get_iff p m v N) in E. split; [intro Q; injection Q as ->; left; exact E|]. intros [Q|(_ & Q & _)]; [|destruct (Q v E)]. apply (pr_get_iff p m _ N) in E, Q. congruence.
  - rewrite pr_get_none in E. split.
    + destruct (pr_in p procs) eqn:Hp; [|discriminate]. apply pr_in_iff in Hp. destruct (allowed d p) eqn:Al; [|discriminate]. cbn [andb]. destruct (first_entry m (tree_parents t p)) as [[[q [|]] at_]|] eqn:Ef; try discriminate. intro Q. injection Q as <- <-. right. split; [exact Hp|]. split; [exact E|]. split; [reflexivity|]. split.
      * exists q. apply (governs_iff m p q true at_ (Hd p Hp) N). unfold get_self_or_parent. cbn [first_entry]. rewrite (proj2 (pr_get_none p m) E). exact Ef.
      * intro Ty. unfold allowed in Al. rewrite (proj2 (Nat.eqb_eq _ _) Ty) in Al. exact Al.
    + intros [Q|(Hp & _ & -> & (q & G) & Al)]; [destruct (E _ Q)|]. apply (governs_iff m p q true l (Hd p Hp) N) in G. unfold get_self_or_parent in G. cbn [first_entry] in G. rewrite (proj2 (pr_get_none p m) E) in G. rewrite G. rewrite (proj2 (pr_in_iff p procs) Hp).
      replace (allowed d p) with true; [reflexivity|]. symmetry. unfold allowed. destruct (Nat.eqb_spec (pr_ty p) 0) as [Ty|Ty]; [exact (Al Ty)|reflexivity].
Qed.
(** What is said about an override is what is wrong with it. *)
Theorem C53_override : forall (e : env L) builtin p calls_parent c, tidy_env e -> exists_ t p -> (In c (check_override t e builtin p calls_parent) <-> wrong t e builtin p calls_parent c).
Proof using F AC.
  intros e builtin p cp c (N1 & N2 & N3 & N4 & N5 & N6) Hd. unfold check_override. pose proof (next_iff p) as Nx. assert (Nq : forall x, next t p x <-> exists rest, tree_parents t p = x :: rest) by (intro x; apply Nx; exact Hd). clear Nx.
  destruct (tree_parents t p) as [|parent rest] eqn:Tp.
  - split; [intros []|]. intro W. assert (exists x, next t p x) as (x & Hx) by (destruct W; eauto). apply Nq in Hx. destruct Hx as (r & Q). discriminate.
  - assert (Np : next t p parent) by (apply Nq; eauto). assert (Nu : forall x, next t p x -> x = parent) by (intros x Hx; apply Nq in Hx; destruct Hx as (r & Q); congruence).
    rewrite !in_app_iff. split.
    + intros [H|[H|[H|H]]].
      * destruct (get_self_or_parent t (e_private e) p) as [[[q [|]] l]|] eqn:E; try destruct H. apply (governs_iff _ _ _ _ _ Hd N1) in E. destruct (pr_eqb_spec q p) as [Q|Q]; [destruct H|destruct H as [<-|[]]]. eapply wrong_private; eauto.
      * destruct (get_self_or_parent t (e_no_override e) p) as [[[q [|]] l]|] eqn:E; try destruct H. apply (governs_iff _ _ _ _ _ Hd N3) in E. destruct (pr_eqb_spec q p) as [Q|Q]; [destruct H|destruct H as [<-|[]]]. eapply wrong_override; eauto.
      * destruct cp.
        -- assert (A : In c (match pr_get parent (e_must_not_call e) with Some (true, l) => [CallsParent L parent l] | _ => [] end) /\ forall l', ~ In (p, (false, l')) (e_must_not_call e)).
           { destruct (pr_get p (e_must_not_call e)) as [[[|] l0]|] eqn:E.
             - split; [exact H|]. intros l' Q. apply (pr_get_iff _ _ _ N5) in Q. congruence.
             - destruct H.
             - split; [exact H|]. rewrite pr_get_none in E. intros l' Q. exact (E _ Q). }
           destruct A as [A B]. destruct (pr_get parent (e_must_not_call e)) as [[[|] l0]|] eqn:E; try destruct A as [<-|[]]; try destruct A. apply (pr_get_iff _ _ _ N5) in E. apply wrong_call; auto.
        -- destruct (get_self_or_parent t (e_must_call e) p) as [[[q [|]] l]|] eqn:E; try destruct H as [<-|[]]; try destruct H. apply (governs_iff _ _ _ _ _ Hd N4) in E. eapply wrong_no_call; eauto.
      * destruct (negb (builtin parent) && (pr_ty p =? pr_ty parent)) eqn:B; [|destruct H]. cbn [andb] in H. apply andb_true_iff in B. destruct B as [B1 B2]. apply negb_true_iff in B1. apply Nat.eqb_eq in B2.
        destruct (get_self_or_parent t (e_redefinable e) p) as [x|] eqn:E; [destruct H|]. destruct H as [<-|[]]. apply wrong_again; auto. apply (governs_none _ _ Hd N6). exact E.
    + intros [x q l Hx G Q|x q l Hx G Q|x l Hx -> G Q|x q l Hx -> G|x Hx Ty B G].
      * left. apply (governs_iff _ _ _ _ _ Hd N1) in G. rewrite G. destruct (pr_eqb_spec q p); [congruence|]. left. reflexivity.
      * right. left. apply (governs_iff _ _ _ _ _ Hd N3) in G. rewrite G. destruct (pr_eqb_spec q p); [congruence|]. left. reflexivity.
      * right. right. left. rewrite (Nu x Hx) in *. apply (pr_get_iff _ _ _ N5) in G. rewrite G. destruct (pr_get p (e_must_not_call e)) as [[[|] l0]|] eqn:E; [left; reflexivity| |left; reflexivity]. apply (pr_get_iff _ _ _ N5) in E. destruct (Q _ E).
      * right. right. left. apply (governs_iff _ _ _ _ _ Hd N4) in G. rewrite G. left. reflexivity.
      * right. right. right. rewrite (Nu x Hx) in *. rewrite B. rewrite Ty, Nat.eqb_refl. cbn [negb andb]. rewrite (proj2 (governs_none _ _ Hd N6) G). left. reflexivity.
Qed.
(** A call on something is complained about when the procedure is private to another type than that of the thing or that of the caller, or
    protected by a type that the caller does not belong to (and not complained about as private because of the type of the thing). *)
Theorem C53_access : forall (e : env L) caller ty p c, tidy_env e -> exists_ t p -> (In c (check_follow t e caller ty p) <-> trespasses t e caller ty p c).
Proof using F AC.
  intros e caller ty p c (N1 & N2 & _) Hd. unfold check_follow, check_private. destruct (get_self_or_parent t (e_private e) p) as [[[q b] l]|] eqn:E.
  - pose proof E as G. apply (governs_iff _ _ _ _ _ Hd N1) in G. assert (Gu : forall q' b' l', governs t (e_private e) p q' b' l' -> q' = q /\ b' = b /\ l' = l) by (intros q' b' l' G'; apply (governs_iff _ _ _ _ _ Hd N1) in G'; rewrite E in G'; injection G' as <- <- <-; auto). destruct b.
    + destruct (Nat.eqb_spec ty (pr_ty q)) as [Et|Et].
      * rewrite in_app_iff. split.
        -- intros [H|H].
           ++ destruct (get_self_or_parent t (e_protected e) p) as [[[q2 [|]] l2]|] eqn:E2; try destruct H. apply (governs_iff _ _ _ _ _ Hd N2) in E2. destruct (tree_sub t caller (pr_ty q2)) eqn:S; [destruct H|destruct H as [<-|[]]]. apply on_protected; [exact E2|intro Q; apply (tree_sub_iff V D t pre F AC) in Q; congruence|]. intros q' l' G'. apply Gu in G'. destruct G' as (-> & _). exact Et.
           ++ destruct (Nat.eqb_spec caller (pr_ty q)) as [Ec|Ec]; [destruct H|destruct H as [<-|[]]]. apply on_private; auto.
        -- intros [q' l' G' Q|q' l' G' S Q].
           ++ apply Gu in G'. destruct G' as (-> & _ & ->). right. destruct Q as [Q|Q]; [congruence|]. destruct (Nat.eqb_spec caller (pr_ty q)); [congruence|left; reflexivity].
           ++ left. apply (governs_iff _ _ _ _ _ Hd N2) in G'. rewrite G'. destruct (tree_sub t caller (pr_ty q')) eqn:S'; [apply (tree_sub_iff V D t pre F AC) in S'; contradiction|left; reflexivity].
      * cbn [In]. split; [intros [<-|[]]; apply on_private; auto|]. intros [q' l' G' Q|q' l' G' S Q]; [apply Gu in G'; destruct G' as (-> & _ & ->); left; reflexivity|]. specialize (Q q l G). congruence.
    + rewrite app_nil_r. split.
      * intro H. destruct (get_self_or_parent t (e_protected e) p) as [[[q2 [|]] l2]|] eqn:E2; try destruct H. apply (governs_iff _ _ _ _ _ Hd N2) in E2. destruct (tree_sub t caller (pr_ty q2)) eqn:S; [destruct H|destruct H as [<-|[]]]. apply on_protected; [exact E2|intro Q; apply (tree_sub_iff V D t pre F AC) in Q; congruence|]. intros q' l' G'. apply Gu in G'. destruct G' as (_ & Q & _). discriminate.
      * intros [q' l' G' Q|q' l' G' S Q]; [apply Gu in G'; destruct G' as (_ & Q' & _); discriminate|]. apply (governs_iff _ _ _ _ _ Hd N2) in G'. rewrite G'. destruct (tree_sub t caller (pr_ty q')) eqn:S'; [apply (tree_sub_iff V D t pre F AC) in S'; contradiction|left; reflexivity].
  - pose proof (proj1 (governs_none _ _ Hd N1) E) as G. rewrite app_nil_r. split.
    + intro H. destruct (get_self_or_parent t (e_protected e) p) as [[[q2 [|]] l2]|] eqn:E2; try destruct H. apply (governs_iff _ _ _ _ _ Hd N2) in E2. destruct (tree_sub t caller (pr_ty q2)) eqn:S; [destruct H|destruct H as [<-|[]]]. apply on_protected; [exact E2|intro Q; apply (tree_sub_iff V D t pre F AC) in Q; congruence|]. intros q' l' G'. destruct (G _ _ _ G').
    + intros [q' l' G' Q|q' l' G' S Q]; [destruct (G _ _ _ G')|]. apply (governs_iff _ _ _ _ _ Hd N2) in G'. rewrite G'. destruct (tree_sub t caller (pr_ty q')) eqn:S'; [apply (tree_sub_iff V D t pre F AC) in S'; contradiction|left; reflexivity].
Qed.
End C53.
