(** Proofs about the analysis of the control flow (C54). *)
From Coq Require Import List NArith ZArith Bool String Lia.
From Verif Require Import Common.Text Parse.Ast Flow.Model Flow.Spec.
Import ListNotations.
Open Scope nat_scope.

Scheme expr_mut := Induction for expr Sort Prop with term_mut := Induction for term Sort Prop.
Combined Scheme expr_term_mut from expr_mut, term_mut.
Scheme stmt_mut := Induction for stmt Sort Prop with block_mut := Induction for block Sort Prop with arms_mut := Induction for arms Sort Prop
  with cases_mut := Induction for cases Sort Prop with option_block_mut := Induction for option_block Sort Prop.
Combined Scheme all_mut from stmt_mut, block_mut, arms_mut, cases_mut, option_block_mut.

Section PROOFS.
Variables F L : Type.
Variable f_zero : F -> bool.
Notation expr := (expr F). Notation term := (term F).
Notation stmt := (stmt F L). Notation block := (block F L). Notation arms := (arms F L). Notation cases := (cases F L).
Notation option_block := (option_block F L).
Notation run := (run f_zero). Notation run_block := (run_block f_zero). Notation run_arms := (run_arms f_zero). Notation run_cases := (run_cases f_zero).
Notation run_loop := (run_loop f_zero). Notation run_do_while := (run_do_while f_zero).
Notation truth := (truth f_zero). Notation term_truth := (term_truth f_zero).
Notation is_truthy := (is_truthy f_zero). Notation term_truthy := (term_truthy f_zero).
Notation visit := (visit f_zero). Notation visit_block := (visit_block f_zero). Notation visit_arms := (visit_arms f_zero). Notation visit_cases := (visit_cases f_zero).
Notation orderly := (orderly f_zero). Notation orderly_block := (orderly_block f_zero). Notation orderly_arms := (orderly_arms f_zero).
Notation orderly_cases := (orderly_cases f_zero). Notation orderly_else := (orderly_else f_zero).
Notation tame := (tame f_zero). Notation tame_block := (tame_block f_zero). Notation tame_arms := (tame_arms f_zero). Notation tame_cases := (tame_cases f_zero).

(** ** Conditions *)
Lemma negations_app : forall (fs : list (follow F)) f b, negations (fs ++ [f]) b = match negations fs b with Some c => negations [f] c | None => None end.
Proof using Type.
  induction fs as [|g fs IH]; intros f b; cbn [app negations]; [reflexivity|].
  destruct g as [? ?|? ?|? ? ?|op|?|?]; try reflexivity. destruct op; try reflexivity. rewrite IH. reflexivity.
Qed.
Lemma empty_nonempty : forall s : text, negb (is_empty s) = true <-> s <> [].
Proof using Type. intros [|c s]; cbn; split; intro H; congruence. Qed.
Lemma truthy_base : forall t fs, is_truthy (Base t fs) = match term_truthy t with Some b => negations fs b | None => None end.
Proof using Type. reflexivity. Qed.
Lemma truthy_bin : forall op l r, is_truthy (Bin op l r) = match is_truthy l, is_truthy r with
  Some a, Some b => match op with BAnd => Some (a && b) | BOr => Some (a || b) | _ => None end | _, _ => None end.
Proof using Type. reflexivity. Qed.
Lemma truthy_tern : forall c a b, is_truthy (Tern c a b) = match is_truthy c with Some true => is_truthy a | Some false => is_truthy b | None => None end.
Proof using Type. reflexivity. Qed.
Lemma follow_truth : forall t, (forall b b', term_truthy t = Some b -> term_truth t b' -> b' = b) ->
  forall fs b b', is_truthy (Base t fs) = Some b -> truth (Base t fs) b' -> b' = b.
Proof using Type.
  intros t IHt fs. induction fs as [|f fs IH] using rev_ind; intros b b' H T.
  - rewrite truthy_base in H. destruct (term_truthy t) as [c|] eqn:E; [|discriminate]. cbn [negations] in H. injection H as <-.
    remember (Base t []) as e eqn:Ee. destruct T; try discriminate.
    + injection Ee as ->. apply IHt; auto.
    + injection Ee as -> Ee. apply app_eq_nil in Ee. destruct Ee; discriminate.
    + injection Ee as -> Ee. apply app_eq_nil in Ee. destruct Ee; discriminate.
  - rewrite truthy_base in H. setoid_rewrite truthy_base in IH. destruct (term_truthy t) as [c|] eqn:E; [|discriminate]. rewrite negations_app in H.
    destruct (negations fs c) as [d|] eqn:En; [|discriminate]. cbn [negations] in H.
    destruct f as [? ?|? ?|? ? ?|op|?|?]; try discriminate. destruct op; try discriminate. injection H as <-.
    remember (Base t (fs ++ [FUnary Not])) as e eqn:Ee. destruct T; try discriminate; injection Ee as -> Ee.
    + destruct fs; discriminate Ee.
    + apply app_inj_tail in Ee. destruct Ee as [-> _]. f_equal. apply IH; auto.
    + apply app_inj_tail in Ee. destruct Ee as [_ Ee]. congruence.
Qed.
Lemma truthy_correct : (forall e b b', is_truthy e = Some b -> truth e b' -> b' = b) /\ (forall t b b', term_truthy t = Some b -> term_truth t b' -> b' = b).
Proof using Type.
  apply expr_term_mut; try (intros; discriminate).
  - intros t IHt fs b b' H T. apply (follow_truth t IHt fs b b' H T).
  - intros op l IHl r IHr b b' H T. rewrite truthy_bin in H.
    destruct (is_truthy l) as [bl|] eqn:El; [|discriminate]. destruct (is_truthy r) as [br|] eqn:Er; [|discriminate].
    inversion T; subst; try (destruct op; congruence); injection H as <-;
      repeat match goal with K : Spec.truth _ l ?x |- _ => pose proof (IHl _ _ eq_refl K); clear K | K : Spec.truth _ r ?x |- _ => pose proof (IHr _ _ eq_refl K); clear K end;
      subst; try reflexivity; destruct br; reflexivity.
  - intros op l IHl r IHr b b' H T. cbn [Model.is_truthy] in H. destruct op; try discriminate.
    destruct r as [t fs| | |]; try discriminate. destruct fs; try discriminate.
    inversion T; subst; [|congruence]. apply (IHr b b'); [|assumption]. rewrite truthy_base. change (term_truthy t = Some b) in H. rewrite H. reflexivity.
  - intros c IHc x IHx y IHy b b' H T. rewrite truthy_tern in H.
    destruct (is_truthy c) as [bc|] eqn:Ec; [|discriminate].
    inversion T; subst; match goal with K : Spec.truth _ c ?x |- _ => pose proof (IHc _ _ eq_refl K); clear K end; subst; eauto.
  - intros b b' H T. injection H as <-. inversion T; subst; [reflexivity|contradiction].
  - intros z b b' H T. cbn in H. injection H as <-. inversion T; subst; try contradiction; [reflexivity|].
    destruct (Z.eqb_spec z 0); [contradiction|reflexivity].
  - intros f b b' H T. cbn in H. injection H as <-. inversion T; subst; [reflexivity|contradiction].
  - intros s b b' H T. cbn in H. injection H as <-. inversion T; subst; try contradiction; [reflexivity|]. symmetry. apply empty_nonempty. assumption.
  - intros e IHe b b' H T. inversion T; subst; [|contradiction]. eauto.
  - intros p v b b' H T. injection H as <-. inversion T; subst; [reflexivity|contradiction].
  - intros s parts b b' H T. cbn [Model.term_truthy] in H. inversion T as [| | | | | | | | | | |s0 p0 K|s0 p0 b0 K1 K2| |]; subst.
    + destruct (_ || _); congruence.
    + exfalso. destruct (negb (is_empty []) || existsb (fun p => negb (is_empty (snd p))) parts) eqn:E; [|discriminate].
      change (existsb (fun p => negb (is_empty (snd p))) parts = true) in E. apply existsb_exists in E. destruct E as [p [I E]]. specialize (K2 p I). destruct p as [q w]. cbn [snd] in K2, E. subst w. discriminate.
    + contradiction.
  - intros a b b' H T. injection H as <-. inversion T; subst; [reflexivity|contradiction].
  - intros p v a b b' H T. injection H as <-. inversion T; subst; [reflexivity|contradiction].
  - intros i f a b b' H T. injection H as <-. inversion T; subst; [reflexivity|contradiction].
  - intros a b b' H T. injection H as <-. inversion T; subst; [reflexivity|contradiction].
Qed.
Definition truthy := proj1 truthy_correct.
Lemma as_term_number : forall (e : expr) z, as_term e = Some (MInt z) <-> number e = Some z.
Proof using Type.
  intros [t fs| | |] z; cbn; try (split; discriminate). destruct fs as [|f fs]; [|destruct t; split; discriminate].
  destruct t; split; intro H; try discriminate; try congruence.
Qed.

(** ** Loops *)
Definition ends (b : block) (o : outcome) : Prop := exists tr, run_block b tr o.
Definition happens (b : block) (e : event L) : Prop := exists tr o, run_block b tr o /\ In e tr.
Lemma loop_outcome : forall l t inc b tr o, run_loop l t inc b tr o ->
  o = Cut \/ o = Threw \/ o = Done \/ (ends b o /\ leaves o) \/ run_part inc o.
Proof using Type.
  intros l t inc b tr o H. induction H; auto; try tauto. right. right. right. left. split; [exists tr; assumption|assumption].
Qed.
Lemma loop_events : forall l t inc b tr o, run_loop l t inc b tr o -> forall e, In e tr ->
  (exists c, e = Looped l c /\ passes f_zero t c) \/ e = Entered l \/ happens b e.
Proof using Type.
  intros l t inc b tr o H. induction H; intros e I; cbn [In] in I; try contradiction.
  - destruct I as [<- | []]. eauto.
  - destruct I as [<- | [<- | I]]; eauto. right. right. exists tr, o. auto.
  - destruct I as [<- | [<- | I]]; eauto. right. right. exists tr, (Broke None). auto.
  - destruct I as [<- | [<- | I]]; eauto. right. right. exists tr, o. auto.
  - destruct I as [<- | [<- | I]]; eauto. apply in_app_or in I. destruct I as [I|I]; [|auto]. right. right. exists tr, o. auto.
Qed.
Lemma do_outcome : forall l b c tr o, run_do_while l b c tr o ->
  o = Threw \/ (ends b o /\ leaves o) \/ (o = Done /\ exists o', ends b o' /\ (o' = Broke None \/ goes_on o')).
Proof using Type.
  intros l b c tr o H. induction H; auto.
  - right. left. split; [exists tr; assumption|assumption].
  - right. right. split; [reflexivity|]. exists (Broke None). split; [exists tr; assumption|auto].
  - right. right. split; [reflexivity|]. exists o. split; [exists tr; assumption|auto].
Qed.
Lemma do_events : forall l b c tr o, run_do_while l b c tr o -> forall e, In e tr ->
  happens b e \/ (exists v, e = Until l v /\ exists o', ends b o' /\ goes_on o').
Proof using Type.
  intros l b c tr o H. induction H; intros e I.
  - left. exists tr, o. auto.
  - left. exists tr, (Broke None). auto.
  - left. exists tr, o. auto.
  - apply in_app_or in I. destruct I as [I|[<- | []]]; [left; exists tr, o; auto|]. right. exists false. split; [reflexivity|]. exists o. split; [exists tr; assumption|assumption].
  - apply in_app_or in I. destruct I as [I|[<- | I]]; [left; exists tr, o; auto| |auto]. right. exists true. split; [reflexivity|]. exists o. split; [exists tr; assumption|assumption].
Qed.
Lemma range_outcome : forall l x y step b tr o, run l (ForRange x y step b) tr o ->
  o = Cut \/ o = Threw \/ (o = Done /\ (enters x y step false \/ exists o', ends b o' /\ (o' = Broke None \/ goes_on o'))) \/ (ends b o /\ leaves o).
Proof using Type.
  intros l x y step b tr o H. inversion H; subst; auto.
  - right. right. left. auto.
  - right. right. right. split; [eexists; eassumption|assumption].
  - right. right. left. split; [reflexivity|]. right. exists (Broke None). split; [eexists; eassumption|auto].
  - match goal with K : Spec.run_loop _ _ _ _ _ _ _ |- _ => rename K into KK end. apply loop_outcome in KK. destruct KK as [-> | [-> | [-> | [KK|KK]]]]; auto.
    + right. right. left. split; [reflexivity|]. right. eexists. split; [eexists; eassumption|auto].
    + inversion KK; subst. right. right. left. split; [reflexivity|]. right. eexists. split; [eexists; eassumption|auto].
Qed.
Lemma range_events : forall l x y step b tr o, run l (ForRange x y step b) tr o -> forall e, In e tr ->
  (enters x y step true) /\ (e = Entered l \/ (exists c, e = Looped l c) \/ happens b e).
Proof using Type.
  intros l x y step b tr o H e I. inversion H; subst; cbn [In] in I; try contradiction; split; try assumption.
  - destruct I as [<- | I]; auto. right. right. eexists _, _. eauto.
  - destruct I as [<- | I]; auto. right. right. eexists _, _. eauto.
  - destruct I as [<- | I]; auto. apply in_app_or in I. destruct I as [I|I]; [right; right; eexists _, _; eauto|].
    match goal with K : Spec.run_loop _ _ _ _ _ _ _ |- _ => apply (loop_events _ _ _ _ _ _ K) in I; destruct I as [[c [-> _]] | [-> | I]] end; eauto.
Qed.

(** ** Branches *)
Fixpoint arm_list (a : arms) : list (L * expr * block) := match a with NoArm => [] | Arm l c b rest => (l, c, b) :: arm_list rest end.
Fixpoint case_list (cs : cases) : list block := match cs with NoCase => [] | Case b rest => b :: case_list rest end.
Lemma prog_ind (P : stmt -> Prop) (Q : block -> Prop) :
  P Plain -> P Return -> P Crash -> P Throw ->
  (forall c b, Q b -> P (While c b)) -> (forall b c, Q b -> P (DoWhile b c)) ->
  (forall a els, (forall l c b, In (l, c, b) (arm_list a) -> Q b) -> (forall b, els = SomeBlock b -> Q b) -> P (If a els)) ->
  (forall b, Q b -> P (ForInfinite b)) -> (forall i t n b, Q b -> P (ForLoop i t n b)) -> (forall b, Q b -> P (ForEach b)) ->
  (forall x y z b, Q b -> P (ForRange x y z b)) -> (forall b, Q b -> P (Spawn b)) ->
  (forall cs d, (forall b, In b (case_list cs) -> Q b) -> (forall b, d = SomeBlock b -> Q b) -> P (Switch cs d)) ->
  (forall b1 b2, Q b1 -> Q b2 -> P (TryCatch b1 b2)) ->
  (forall x, P (Continue x)) -> (forall x, P (Break x)) -> (forall x, P (Goto x)) -> (forall x b, Q b -> P (Label x b)) ->
  Q End -> (forall l s rest, P s -> Q rest -> Q (Then l s rest)) ->
  (forall s, P s) /\ (forall b, Q b).
Proof using Type.
  intros.
  assert (K : (forall s, P s) /\ (forall b, Q b) /\ (forall a l c b, In (l, c, b) (arm_list a) -> Q b) /\ (forall cs b, In b (case_list cs) -> Q b) /\ (forall o b, o = SomeBlock b -> Q b)).
  { apply all_mut; intros; auto; try contradiction; try congruence; try (cbn [arm_list case_list In] in *;
      match goal with K : _ \/ _ |- _ => destruct K as [E|E]; [|eauto] end; congruence). }
  destruct K as [K1 [K2 _]]. split; assumption.
Qed.
Lemma orderly_arm : forall a l c b, orderly_arms a -> In (l, c, b) (arm_list a) -> orderly_block b.
Proof using Type. induction a as [|l0 c0 b0 rest IH]; intros l c b O I; [contradiction I|]. destruct O as [O1 O2]. destruct I as [E|I]; [injection E as <- <- <-; exact O1|exact (IH l c b O2 I)]. Qed.
Lemma orderly_case : forall cs b, orderly_cases cs -> In b (case_list cs) -> orderly_block b.
Proof using Type. induction cs as [|b0 rest IH]; intros b O I; [contradiction I|]. destruct O as [O1 O2]. destruct I as [E|I]; [subst b0; exact O1|exact (IH b O2 I)]. Qed.
Lemma tame_arm : forall a l c b, tame_arms a -> In (l, c, b) (arm_list a) -> tame_block b.
Proof using Type. induction a as [|l0 c0 b0 rest IH]; intros l c b O I; [contradiction I|]. destruct O as [O1 O2]. destruct I as [E|I]; [injection E as <- <- <-; exact O1|exact (IH l c b O2 I)]. Qed.
Lemma tame_case : forall cs b, tame_cases cs -> In b (case_list cs) -> tame_block b.
Proof using Type. induction cs as [|b0 rest IH]; intros b O I; [contradiction I|]. destruct O as [O1 O2]. destruct I as [E|I]; [subst b0; exact O1|exact (IH b O2 I)]. Qed.
Lemma has_arm : forall k a l c b, In (l, c, b) (arm_list a) -> has_block k b -> has_arms k a.
Proof using Type. induction a as [|l0 c0 b0 rest IH]; intros l c b I H; [contradiction I|]. cbn [has_arms]. destruct I as [E|I]; [injection E as -> -> ->; left; exact H|right; exact (IH l c b I H)]. Qed.
Lemma has_case : forall k cs b, In b (case_list cs) -> has_block k b -> has_cases k cs.
Proof using Type. induction cs as [|b0 rest IH]; intros b I H; [contradiction I|]. cbn [has_cases]. destruct I as [E|I]; [subst b0; left; exact H|right; exact (IH b I H)]. Qed.
Lemma labelled_arm : forall a l c b, In (l, c, b) (arm_list a) -> labelled_block b -> labelled_arms a.
Proof using Type. induction a as [|l0 c0 b0 rest IH]; intros l c b I H; [contradiction I|]. cbn [labelled_arms]. destruct I as [E|I]; [injection E as -> -> ->; left; exact H|right; exact (IH l c b I H)]. Qed.
Lemma labelled_case : forall cs b, In b (case_list cs) -> labelled_block b -> labelled_cases cs.
Proof using Type. induction cs as [|b0 rest IH]; intros b I H; [contradiction I|]. cbn [labelled_cases]. destruct I as [E|I]; [subst b0; left; exact H|right; exact (IH b I H)]. Qed.
Lemma spares_arm : forall k a, spares f_zero k a -> exists l c b, In (l, c, b) (arm_list a) /\ truth c true /\ ~ has_block k b.
Proof using Type. induction a as [|l0 c0 b0 rest IH]; cbn [spares]; [contradiction|]. intros [[T N]|H]; [exists l0, c0, b0; cbn; auto|]. destruct (IH H) as [l [c [b [I K]]]]. exists l, c, b. cbn. auto. Qed.
Lemma spares_case_in : forall k cs, spares_case k cs -> exists b, In b (case_list cs) /\ ~ has_block k b.
Proof using Type. induction cs as [|b0 rest IH]; cbn [spares_case]; [contradiction|]. intros [H|H]; [exists b0; cbn; auto|]. destruct (IH H) as [b [I K]]. exists b. cbn. auto. Qed.
Lemma arms_outcome : forall a els tr o, run_arms a els tr o ->
  o = Threw \/ o = Cut \/ (els = NoBlock /\ o = Done) \/ (exists b, els = SomeBlock b /\ ends b o) \/ (exists l c b, In (l, c, b) (arm_list a) /\ truth c true /\ ends b o).
Proof using Type.
  induction a as [|l0 c0 b0 rest IH]; intros els tr o H.
  - inversion H; subst; auto. right. right. right. left. exists b. split; [reflexivity|]. exists tr. assumption.
  - inversion H; subst; auto.
    + right. right. right. right. exists l0, c0, b0. split; [left; reflexivity|]. split; [assumption|]. eexists. eassumption.
    + match goal with K0 : Spec.run_arms _ rest _ _ _ |- _ => rename K0 into K end; apply IH in K; destruct K as [K|[K|[K|[K|[l [c [b [I K]]]]]]]]; auto.
      right. right. right. right. exists l, c, b. split; [right; exact I|exact K].
Qed.
Lemma cases_outcome : forall cs d tr o, run_cases cs d tr o ->
  (d = NoBlock /\ o = Done /\ tr = []) \/ (exists b, d = SomeBlock b /\ run_block b tr o) \/ (exists b, In b (case_list cs) /\ run_block b tr o).
Proof using Type.
  induction cs as [|b0 rest IH]; intros d tr o H.
  - inversion H; subst; eauto.
  - inversion H; subst.
    + right. right. exists b0. split; [left; reflexivity|assumption].
    + match goal with K0 : Spec.run_cases _ rest _ _ _ |- _ => rename K0 into K end; apply IH in K; destruct K as [K|[K|[b [I K]]]]; auto.
      right. right. exists b. split; [right; exact I|exact K].
Qed.
(** ** Without goto there are no jumps *)
Lemma part_jump : forall p x, run_part p (Jumped x) -> p = Some (Going x).
Proof using Type. intros p x H. inversion H; subst; auto. Qed.
Lemma no_jump : (forall s : stmt, orderly s -> forall l tr x, ~ run l s tr (Jumped x)) /\ (forall b : block, orderly_block b -> forall x, ~ ends b (Jumped x)).
Proof using Type.
  apply prog_ind.
  1-4: intros _ l tr x H; inversion H.
  - intros c b IH O l tr x H. inversion H; subst. match goal with K0 : Spec.run_loop _ _ _ _ _ _ _ |- _ => rename K0 into K end; apply loop_outcome in K; destruct K as [K|[K|[K|[[K _]|K]]]]; try discriminate.
    + apply (IH O x K).
    + apply part_jump in K. discriminate.
  - intros b c IH [_ O] l tr x H. inversion H; subst. match goal with K0 : Spec.run_do_while _ _ _ _ _ _ |- _ => rename K0 into K end; apply do_outcome in K; destruct K as [K|[[K _]|[K _]]]; try discriminate. apply (IH O x K).
  - intros a els IHa IHe [Oa Oe] l tr x H. inversion H; subst. match goal with K0 : Spec.run_arms _ _ _ _ _ |- _ => rename K0 into K end; apply arms_outcome in K; destruct K as [K|[K|[[_ K]|[[b [E K]]|[l1 [c [b [I [_ K]]]]]]]]]; try discriminate.
    + subst els. exact (IHe b eq_refl Oe x K).
    + exact (IHa _ _ _ I (orderly_arm _ _ _ _ Oa I) x K).
  - intros b IH O l tr x H. inversion H; subst. match goal with K0 : Spec.run_loop _ _ _ _ _ _ _ |- _ => rename K0 into K end; apply loop_outcome in K; destruct K as [K|[K|[K|[[K _]|K]]]]; try discriminate.
    + apply (IH O x K).
    + apply part_jump in K. discriminate.
  - intros i t n b IH [G O] l tr x H. inversion H; subst.
    + match goal with K0 : Spec.run_loop _ _ _ _ _ _ _ |- _ => rename K0 into K end; apply loop_outcome in K; destruct K as [K|[K|[K|[[K _]|K]]]]; try discriminate.
      * apply (IH O x K).
      * apply part_jump in K. exact (proj2 (G x) K).
    + match goal with K : run_part _ _ |- _ => apply part_jump in K; exact (proj1 (G x) K) end.
  - intros b IH O l tr x H. inversion H; subst. match goal with K0 : Spec.run_loop _ _ _ _ _ _ _ |- _ => rename K0 into K end; apply loop_outcome in K; destruct K as [K|[K|[K|[[K _]|K]]]]; try discriminate.
    + apply (IH O x K).
    + apply part_jump in K. discriminate.
  - intros a e z b IH [_ O] l tr x H. apply range_outcome in H. destruct H as [H|[H|[[H _]|[H _]]]]; try discriminate. apply (IH O x H).
  - intros b IH O l tr x H. inversion H.
  - intros cs d IHc IHd [Oc Od] l tr x H. inversion H; subst. match goal with K0 : Spec.run_cases _ _ _ _ _ |- _ => rename K0 into K end; apply cases_outcome in K; destruct K as [[_ [K _]]|[[b [E K]]|[b [I K]]]]; try discriminate.
    + subst d. exact (IHd b eq_refl Od x (ex_intro _ _ K)).
    + exact (IHc _ I (orderly_case _ _ Oc I) x (ex_intro _ _ K)).
  - intros b1 b2 IH1 IH2 [O1 O2] l tr x H. inversion H; subst.
    + apply (IH1 O1 x). eexists. eassumption.
    + apply (IH2 O2 x). eexists. eassumption.
  - intros y _ l tr x H. inversion H.
  - intros y _ l tr x H. inversion H.
  - intros y [].
  - intros y b IH O l tr x H. inversion H; subst. apply (IH O x). eexists. eassumption.
  - intros _ x [tr H]. inversion H; subst; match goal with K : from_label _ _ = _ |- _ => discriminate K end.
  - intros l s rest IHs IHr [Os Or] x [tr H]. remember (Then l s rest) as b eqn:Eb. remember (Jumped x) as o eqn:Eo. revert x Eo.
    induction H as [b|  |l0 s0 rest0 tr o R N|l0 s0 rest0 tr o tr2 R H _|b tr y b' tr2 o H1 IH1 E H2 IH2]; intros x Eo; try discriminate; subst.
    + injection Eb as -> -> ->. exact (IHs Os _ _ _ R).
    + injection Eb as -> -> ->. apply (IHr Or x). exists tr2. exact H.
    + exact (IH1 eq_refl y eq_refl).
Qed.
Lemma end_inv : forall (tr : list (event L)) o, run_block End tr o -> tr = [] /\ (o = Cut \/ o = Done).
Proof using Type. intros tr o H. inversion H; subst; auto. match goal with K : from_label _ _ = _ |- _ => discriminate K end. Qed.
Lemma block_inv : forall (l : L) s rest tr o, orderly_block (Then l s rest) -> run_block (Then l s rest) tr o ->
  (tr = [] /\ o = Cut) \/ (exists tr1, run l s tr1 o /\ o <> Done /\ tr = At l :: tr1) \/ (exists tr1 tr2, run l s tr1 Done /\ run_block rest tr2 o /\ tr = At l :: tr1 ++ tr2).
Proof using Type.
  intros l s rest tr o O H. inversion H; subst; auto.
  - right. left. eauto.
  - right. right. eauto.
  - exfalso. eapply (proj2 no_jump _ O). eexists. eassumption.
Qed.

(** ** Where break and continue come from *)
Definition lab (o : outcome) : Prop := match o with Broke (Some _) | Continued (Some _) => True | _ => False end.
Definition stop (k : bool) : outcome := if k then Broke None else Continued None.
Lemma part_lab : forall p o, run_part p o -> ~ lab o /\ forall k, o <> stop k.
Proof using Type. intros p o H. inversion H; subst; split; cbn; try tauto; intros []; discriminate. Qed.
Lemma stop_leaves : forall k, ~ leaves (stop k).
Proof using Type. intros [] H; exact H. Qed.
Lemma labelled_source : (forall s : stmt, orderly s -> forall l tr o, run l s tr o -> lab o -> labelled s) /\ (forall b : block, orderly_block b -> forall o, ends b o -> lab o -> labelled_block b).
Proof using Type.
  apply prog_ind.
  1-4: intros _ l tr o H B; inversion H; subst; contradiction B.
  - intros c b IH O l tr o H B. inversion H; subst; try contradiction B. match goal with K0 : Spec.run_loop _ _ _ _ _ _ _ |- _ => rename K0 into K end. apply loop_outcome in K. destruct K as [-> | [-> | [-> | [[K _]|K]]]]; try contradiction B.
    + exact (IH O o K B).
    + apply part_lab in K. tauto.
  - intros b c IH [_ O] l tr o H B. inversion H; subst; try contradiction B. match goal with K0 : Spec.run_do_while _ _ _ _ _ _ |- _ => rename K0 into K end. apply do_outcome in K. destruct K as [-> | [[K _]|[-> _]]]; try contradiction B. exact (IH O o K B).
  - intros a els IHa IHe [Oa Oe] l tr o H B. inversion H; subst; try contradiction B. match goal with K0 : Spec.run_arms _ _ _ _ _ |- _ => rename K0 into K end. apply arms_outcome in K. destruct K as [-> | [-> | [[_ ->]|[[b [E K]]|[l1 [c [b [I [_ K]]]]]]]]]; try contradiction B.
    + subst els. right. exact (IHe b eq_refl Oe o K B).
    + left. apply (labelled_arm _ _ _ _ I). exact (IHa _ _ _ I (orderly_arm _ _ _ _ Oa I) o K B).
  - intros b IH O l tr o H B. inversion H; subst; try contradiction B. match goal with K0 : Spec.run_loop _ _ _ _ _ _ _ |- _ => rename K0 into K end. apply loop_outcome in K. destruct K as [-> | [-> | [-> | [[K _]|K]]]]; try contradiction B.
    + exact (IH O o K B).
    + apply part_lab in K. tauto.
  - intros i t n b IH [G O] l tr o H B. inversion H; subst; try contradiction B.
    + match goal with K0 : Spec.run_loop _ _ _ _ _ _ _ |- _ => rename K0 into K end. apply loop_outcome in K. destruct K as [-> | [-> | [-> | [[K _]|K]]]]; try contradiction B.
      * exact (IH O o K B).
      * apply part_lab in K. tauto.
    + match goal with K0 : run_part _ o |- _ => apply part_lab in K0 end. tauto.
  - intros b IH O l tr o H B. inversion H; subst; try contradiction B. match goal with K0 : Spec.run_loop _ _ _ _ _ _ _ |- _ => rename K0 into K end. apply loop_outcome in K. destruct K as [-> | [-> | [-> | [[K _]|K]]]]; try contradiction B.
    + exact (IH O o K B).
    + apply part_lab in K. tauto.
  - intros a e z b IH [_ O] l tr o H B. apply range_outcome in H. destruct H as [-> | [-> | [[-> _]|[H _]]]]; try contradiction B. exact (IH O o H B).
  - intros b IH O l tr o H B. inversion H; subst; contradiction B.
  - intros cs d IHc IHd [Oc Od] l tr o H B. inversion H; subst; try contradiction B. match goal with K0 : Spec.run_cases _ _ _ _ _ |- _ => rename K0 into K end. apply cases_outcome in K. destruct K as [[_ [-> _]]|[[b [E K]]|[b [I K]]]]; try contradiction B.
    + subst d. right. exact (IHd b eq_refl Od o (ex_intro _ _ K) B).
    + left. apply (labelled_case _ _ I). exact (IHc _ I (orderly_case _ _ Oc I) o (ex_intro _ _ K) B).
  - intros b1 b2 IH1 IH2 [O1 O2] l tr o H B. inversion H; subst; try contradiction B.
    + left. apply (IH1 O1 o); [eexists; eassumption|exact B].
    + right. apply (IH2 O2 o); [eexists; eassumption|exact B].
  - intros y _ l tr o H B. inversion H; subst; try contradiction B. destruct y; [exact I|contradiction B].
  - intros y _ l tr o H B. inversion H; subst; try contradiction B. destruct y; [exact I|contradiction B].
  - intros y [].
  - intros y b IH O l tr o H B. inversion H; subst; try contradiction B. apply (IH O o); [eexists; eassumption|exact B].
  - intros _ o [tr H] B. apply end_inv in H. destruct H as [_ [-> | ->]]; contradiction B.
  - intros l s rest IHs IHr O o [tr H] B. pose proof O as [Os Or]. apply (block_inv _ _ _ _ _ O) in H. destruct H as [[_ ->]|[[tr1 [H _]]|[tr1 [tr2 [_ [H _]]]]]].
    + contradiction B.
    + left. exact (IHs Os _ _ _ H B).
    + right. exact (IHr Or o (ex_intro _ _ H) B).
Qed.
Lemma stop_source : forall k, (forall s : stmt, orderly s -> forall l tr, run l s tr (stop k) -> has k s) /\ (forall b : block, orderly_block b -> ends b (stop k) -> has_block k b).
Proof using Type.
  intro k. assert (NC : stop k <> Cut) by (destruct k; discriminate). assert (NT : stop k <> Threw) by (destruct k; discriminate). assert (ND : stop k <> Done) by (destruct k; discriminate).
  assert (NR : stop k <> Returned) by (destruct k; discriminate). assert (NS : forall x, stop k <> Broke (Some x)) by (destruct k; discriminate).
  assert (LL : forall l t inc (b : block) tr, ~ run_loop l t inc b tr (stop k)).
  { intros l t inc b tr H. apply loop_outcome in H. destruct H as [H|[H|[H|[[_ H]|H]]]]; try congruence.
    - exact (stop_leaves k H). - apply part_lab in H. destruct H as [_ H]. exact (H k eq_refl). }
  apply prog_ind.
  1-4: intros _ l tr H; inversion H; congruence.
  - intros c b IH O l tr H. inversion H; subst; try congruence. exfalso. eapply LL; eassumption.
  - intros b c IH [_ O] l tr H. inversion H; subst; try congruence. match goal with K0 : Spec.run_do_while _ _ _ _ _ _ |- _ => rename K0 into K end. apply do_outcome in K. destruct K as [K|[[_ K]|[K _]]]; try congruence. contradiction (stop_leaves k K).
  - intros a els IHa IHe [Oa Oe] l tr H. inversion H; subst; try congruence. match goal with K0 : Spec.run_arms _ _ _ _ _ |- _ => rename K0 into K end. apply arms_outcome in K. destruct K as [K|[K|[[_ K]|[[b [E K]]|[l1 [c [b [I [_ K]]]]]]]]]; try congruence.
    + subst els. right. exact (IHe b eq_refl Oe K).
    + left. apply (has_arm _ _ _ _ _ I). exact (IHa _ _ _ I (orderly_arm _ _ _ _ Oa I) K).
  - intros b IH O l tr H. inversion H; subst; try congruence. exfalso. eapply LL; eassumption.
  - intros i t n b IH [G O] l tr H. inversion H; subst; try congruence.
    + exfalso. eapply LL; eassumption.
    + match goal with K0 : run_part _ (stop k) |- _ => apply part_lab in K0; destruct K0 as [_ K0]; contradiction (K0 k eq_refl) end.
  - intros b IH O l tr H. inversion H; subst; try congruence. exfalso. eapply LL; eassumption.
  - intros a e z b IH [_ O] l tr H. apply range_outcome in H. destruct H as [H|[H|[[H _]|[_ H]]]]; try congruence. contradiction (stop_leaves k H).
  - intros b IH O l tr H. inversion H; congruence.
  - intros cs d IHc IHd [Oc Od] l tr H. inversion H; subst; try congruence. match goal with K0 : Spec.run_cases _ _ _ _ _ |- _ => rename K0 into K end. apply cases_outcome in K. destruct K as [[_ [K _]]|[[b [E K]]|[b [I K]]]]; try congruence.
    + subst d. right. exact (IHd b eq_refl Od (ex_intro _ _ K)).
    + left. apply (has_case _ _ _ I). exact (IHc _ I (orderly_case _ _ Oc I) (ex_intro _ _ K)).
  - intros b1 b2 IH1 IH2 [O1 O2] l tr H. inversion H; subst; try congruence.
    + left. apply (IH1 O1). eexists; eassumption.
    + right. apply (IH2 O2). eexists; eassumption.
  - intros y _ l tr H. inversion H; subst; try congruence. destruct k; [discriminate|reflexivity].
  - intros y _ l tr H. inversion H; subst; try congruence. destruct k; [reflexivity|discriminate].
  - intros y [].
  - intros y b IH O l tr H. inversion H; subst; try congruence. apply (IH O). eexists; eassumption.
  - intros _ [tr H]. apply end_inv in H. destruct H as [_ [H|H]]; congruence.
  - intros l s rest IHs IHr O [tr H]. pose proof O as [Os Or]. apply (block_inv _ _ _ _ _ O) in H. destruct H as [[_ H]|[[tr1 [H _]]|[tr1 [tr2 [_ [H _]]]]]].
    + congruence.
    + left. exact (IHs Os _ _ H).
    + right. exact (IHr Or (ex_intro _ _ H)).
Qed.
(** a block, or a statement, never breaks or continues *)
Definition stops (o : outcome) : Prop := match o with Broke _ | Continued _ => True | _ => False end.
Lemma stops_cases : forall o, stops o -> lab o \/ exists k, o = stop k.
Proof using Type. intros [|[x|]|[x|]| | | |] H; try contradiction H; cbn; auto; right; [exists true|exists false]; reflexivity. Qed.
Lemma quiet_stops : forall b : block, orderly_block b -> quiet b -> forall o, ends b o -> ~ stops o.
Proof using Type.
  intros b O [Q1 [Q2 Q3]] o H S. destruct (stops_cases o S) as [K|[k ->]].
  - apply Q3. exact (proj2 labelled_source b O o H K).
  - pose proof (proj2 (stop_source k) b O H) as K. destruct k; auto.
Qed.

(** ** The analysis, step by step *)
Definition flagged (t : flow) : bool := returns t || continues t || breaks t.
Definition fl (l : L) (s : stmt) : flow := fst (visit l s).
Definition fb (t : flow) (b : block) : flow := fst (visit_block t b).
Definition fa (t : flow) (al : bool) (a : arms) : flow := fst (fst (visit_arms t al a)).
Definition fc (t : flow) (cs : cases) : flow := fst (visit_cases t cs).
Ltac un := unfold fl, fb, fa, fc.
Lemma fl_while : forall (l : L) c b, fl l (While c b) = allfalse.
Proof using Type. intros. unfold fl. change (visit l (While c b)) with (let '(st, rs) := visit_block allfalse b in (end_loop st, rs)). destruct (visit_block allfalse b). reflexivity. Qed.
Lemma fl_do : forall (l : L) b c, fl l (DoWhile b c) = if terminates_loop (fb allfalse b) then fb allfalse b else allfalse.
Proof using Type. intros. un. change (visit l (DoWhile b c)) with (let '(st, rs) := visit_block allfalse b in if terminates_loop st then (st, rs ++ [NeverTested l]) else (end_loop st, rs)).
  destruct (visit_block allfalse b) as [st rs]. cbn [fst]. destruct (terminates_loop st); reflexivity. Qed.
Lemma fl_if : forall (l : L) a els, fl l (If a els) = match els with SomeBlock b => finalize (merge_false (fa alltrue false a) (fb allfalse b)) | NoBlock => no_else (fa alltrue false a) end.
Proof using Type. intros. un. change (visit l (If a els)) with (let '(st, always, rs) := visit_arms alltrue false a in
      match els with
      | SomeBlock b =>
          let r := match b with Then l _ _ => if always then [UnreachableElse l] else [] | End => [] end in
          let '(st2, rs2) := visit_block allfalse b in
          (finalize (merge_false st st2), rs ++ r ++ rs2)
      | NoBlock => (no_else st, rs)
      end). destruct (visit_arms alltrue false a) as [[st al] rs]. destruct els as [|b]; [reflexivity|]. destruct (visit_block allfalse b). reflexivity. Qed.
Lemma fl_infinite : forall (l : L) b, fl l (ForInfinite b) = allfalse.
Proof using Type. intros. un. change (visit l (ForInfinite b)) with (let '(st, rs) := visit_block allfalse b in (end_loop st, rs)). destruct (visit_block allfalse b). reflexivity. Qed.
Lemma fl_each : forall (l : L) b, fl l (ForEach b) = allfalse.
Proof using Type. intros. un. change (visit l (ForEach b)) with (let '(st, rs) := visit_block allfalse b in (end_loop st, rs)). destruct (visit_block allfalse b). reflexivity. Qed.
Lemma fl_for : forall (l : L) i t n b, fl l (ForLoop i t n b) = allfalse.
Proof using Type. intros. un. change (visit l (ForLoop i t n b)) with (let '(st, rs) := visit_block allfalse b in (end_loop st, loop_check f_zero l t ++ rs)). destruct (visit_block allfalse b). reflexivity. Qed.
Lemma visit_range : forall (l : L) x y step b, visit l (ForRange x y step b) = let '(st, rs) := visit_block allfalse b in
      match as_term x, as_term y with
      | Some x, Some y =>
          match valid_for_range x y step with
          | Some false => (end_loop st, rs ++ [NeverEntered l])
          | Some true => (st, rs)
          | None => (end_loop st, rs)
          end
      | _, _ => (end_loop st, rs)
      end.
Proof using Type. reflexivity. Qed.
Lemma valid_numbers : forall x y tx ty step v, as_term x = Some tx -> as_term y = Some ty -> valid_for_range tx ty step = Some v ->
  exists i j, number x = Some i /\ number y = Some j /\ valid_for_range (F := F) (MInt i) (MInt j) step = Some v.
Proof using Type.
  intros x y tx ty step v Ex Ey H. destruct tx; try discriminate H. destruct ty; try discriminate H.
  exists z, z0. split; [apply as_term_number; exact Ex|]. split; [apply as_term_number; exact Ey|exact H].
Qed.
Lemma fl_range : forall (l : L) x y step b, fl l (ForRange x y step b) = allfalse \/
  (fl l (ForRange x y step b) = fb allfalse b /\ exists i j, number x = Some i /\ number y = Some j /\ valid_for_range (F := F) (MInt i) (MInt j) step = Some true).
Proof using Type.
  intros. un. rewrite visit_range. destruct (visit_block allfalse b) as [st rs].
  destruct (as_term x) as [tx|] eqn:Ex; [|auto]. destruct (as_term y) as [ty|] eqn:Ey; [|auto].
  destruct (valid_for_range tx ty step) as [[]|] eqn:V; auto. right. split; [reflexivity|]. exact (valid_numbers _ _ _ _ _ _ Ex Ey V).
Qed.
Lemma fl_spawn : forall (l : L) b, fl l (Spawn b) = allfalse.
Proof using Type. intros. un. change (visit l (Spawn b)) with (let '(_, rs) := visit_block allfalse b in (allfalse, rs)). destruct (visit_block allfalse b). reflexivity. Qed.
Lemma fl_switch : forall (l : L) cs d, fl l (Switch cs d) = match d with SomeBlock b => finalize (merge_false (fc alltrue cs) (fb allfalse b)) | NoBlock => no_else (fc alltrue cs) end.
Proof using Type. intros. un. change (visit l (Switch cs d)) with (let '(st, rs) := visit_cases alltrue cs in
      match d with
      | SomeBlock b => let '(st2, rs2) := visit_block allfalse b in (finalize (merge_false st st2), rs ++ rs2)
      | NoBlock => (no_else st, rs)
      end). destruct (visit_cases alltrue cs) as [st rs]. destruct d as [|b]; [reflexivity|]. destruct (visit_block allfalse b). reflexivity. Qed.
Lemma fl_try : forall (l : L) b1 b2, fl l (TryCatch b1 b2) = allfalse.
Proof using Type. intros. un. change (visit l (TryCatch b1 b2)) with (let '(_, rs1) := visit_block allfalse b1 in let '(_, rs2) := visit_block allfalse b2 in (allfalse, rs1 ++ rs2)). destruct (visit_block allfalse b1), (visit_block allfalse b2). reflexivity. Qed.
Lemma fl_label : forall (l : L) x b, fl l (Label x b) = allfalse.
Proof using Type. intros. un. change (visit l (Label x b)) with (let '(_, rs) := visit_block allfalse b in (allfalse, rs)). destruct (visit_block allfalse b). reflexivity. Qed.
Lemma visit_then : forall t (l : L) s rest, visit_block t (Then l s rest) = if terminates t then (t, [Unreachable l])
      else let '(st, rs) := visit l s in let '(t2, rs2) := visit_block (merge t st) rest in (t2, rs ++ rs2).
Proof using Type. reflexivity. Qed.
Lemma fb_then : forall t (l : L) s rest, fb t (Then l s rest) = if terminates t then t else fb (merge t (fl l s)) rest.
Proof using Type. intros. un. rewrite visit_then. destruct (terminates t); [reflexivity|]. destruct (visit l s) as [st rs]. cbn [fst]. destruct (visit_block (merge t st) rest). reflexivity. Qed.
Lemma visit_arm : forall t al (l : L) c b rest, visit_arms t al (Arm l c b rest) =
      let r1 := if al then [UnreachableIf l] else [] in
      let '(st, rs) := visit_block allfalse b in
      let '(t2, always2, r2) := match is_truthy c with
                                | Some true => (merge_false t st, true, [AlwaysTrue l])
                                | Some false => (t, al, [AlwaysFalse l])
                                | None => (merge_false t st, al, [])
                                end in
      let '(t3, always3, rs3) := visit_arms t2 always2 rest in (t3, always3, r1 ++ rs ++ r2 ++ rs3).
Proof using Type. reflexivity. Qed.
Definition known (c : expr) (v : bool) : bool := match is_truthy c with Some w => Bool.eqb v w | None => false end.
Lemma fa_arm : forall t al l c b rest, fa t al (Arm l c b rest) = fa (if known c false then t else merge_false t (fb allfalse b)) (al || known c true) rest.
Proof using Type.
  intros. un. rewrite visit_arm. cbv zeta. destruct (visit_block allfalse b) as [st rs]. unfold known. cbn [fst].
  destruct (is_truthy c) as [[]|]; cbn [Bool.eqb]; rewrite ?orb_true_r, ?orb_false_r; match goal with |- context [visit_arms ?x ?y rest] => destruct (visit_arms x y rest) as [[? ?] ?] end; reflexivity.
Qed.
Lemma fc_case : forall t b rest, fc t (Case b rest) = fc (merge_false t (fb allfalse b)) rest.
Proof using Type.
  intros. un. change (visit_cases t (Case b rest)) with (let '(st, rs) := visit_block allfalse b in let '(t2, rs2) := visit_cases (merge_false t st) rest in (t2, rs ++ rs2)).
  destruct (visit_block allfalse b) as [st rs]. cbn [fst]. destruct (visit_cases (merge_false t st) rest). reflexivity.
Qed.
Lemma known_truth : forall c v, known c v = true -> truth c (negb v) -> False.
Proof using Type. intros c v H T. unfold known in H. destruct (is_truthy c) as [w|] eqn:E; [|discriminate]. apply eqb_prop in H. subst w. pose proof (truthy _ _ _ E T). destruct v; discriminate. Qed.
(** the flags of all branches *)
Definition pick (i : nat) (t : flow) : bool := match i with 0 => returns t | 1 => continues t | _ => breaks t end.
Lemma pick_false : forall i t o, pick i (merge_false t o) = pick i t && pick i o.
Proof using Type. intros [|[|i]] t o; reflexivity. Qed.
Lemma arms_pick : forall i a t al, pick i (fa t al a) = true -> pick i t = true /\ forall l c b, In (l, c, b) (arm_list a) -> truth c true -> pick i (fb allfalse b) = true.
Proof using Type.
  intro i. induction a as [|l0 c0 b0 rest IH]; intros t al H.
  - split; [exact H|]. intros l c b [].
  - rewrite fa_arm in H. apply IH in H. destruct H as [H1 H2]. destruct (known c0 false) eqn:K.
    + split; [exact H1|]. intros l c b [E|I] T; [|eauto]. injection E as <- <- <-. contradiction (known_truth _ _ K T).
    + rewrite pick_false in H1. apply andb_true_iff in H1. destruct H1 as [H1 H3]. split; [exact H1|].
      intros l c b [E|I] T; [|eauto]. injection E as <- <- <-. exact H3.
Qed.
Lemma arms_fuzzy : forall a t al, fuzzy (fa t al a) = false -> fuzzy t = false /\ forall l c b, In (l, c, b) (arm_list a) -> truth c true -> fuzzy (fb allfalse b) = false.
Proof using Type.
  induction a as [|l0 c0 b0 rest IH]; intros t al H.
  - split; [exact H|]. intros l c b [].
  - rewrite fa_arm in H. apply IH in H. destruct H as [H1 H2]. destruct (known c0 false) eqn:K.
    + split; [exact H1|]. intros l c b [E|I] T; [|eauto]. injection E as <- <- <-. contradiction (known_truth _ _ K T).
    + cbn [merge_false fuzzy] in H1. apply orb_false_iff in H1. destruct H1 as [H1 H3]. split; [exact H1|].
      intros l c b [E|I] T; [|eauto]. injection E as <- <- <-. exact H3.
Qed.
Lemma cases_pick : forall i cs t, pick i (fc t cs) = true -> pick i t = true /\ forall b, In b (case_list cs) -> pick i (fb allfalse b) = true.
Proof using Type.
  intro i. induction cs as [|b0 rest IH]; intros t H.
  - split; [exact H|]. intros b [].
  - rewrite fc_case in H. apply IH in H. destruct H as [H1 H2]. rewrite pick_false in H1. apply andb_true_iff in H1. destruct H1 as [H1 H3]. split; [exact H1|].
    intros b [<- | I]; [exact H3|eauto].
Qed.
Lemma cases_fuzzy : forall cs t, fuzzy (fc t cs) = false -> fuzzy t = false /\ forall b, In b (case_list cs) -> fuzzy (fb allfalse b) = false.
Proof using Type.
  induction cs as [|b0 rest IH]; intros t H.
  - split; [exact H|]. intros b [].
  - rewrite fc_case in H. apply IH in H. destruct H as [H1 H2]. cbn [merge_false fuzzy] in H1. apply orb_false_iff in H1. destruct H1 as [H1 H3]. split; [exact H1|].
    intros b [<- | I]; [exact H3|eauto].
Qed.
Lemma flagged_pick : forall t, flagged t = true <-> exists i, pick i t = true.
Proof using Type.
  intro t. unfold flagged. split.
  - intro H. apply orb_true_iff in H. destruct H as [H|H]; [apply orb_true_iff in H; destruct H as [H|H]; [exists 0|exists 1]|exists 2]; exact H.
  - intros [[|[|i]] H]; cbn in H; rewrite H; rewrite ?orb_true_r; reflexivity.
Qed.

(** ** What the flags mean *)
Definition pk (k : bool) : nat := if k then 2 else 1.
Lemma pick_merge : forall i t o, pick i (merge t o) = true -> pick i t = true \/ pick i o = true.
Proof using Type.
  intros [|[|i]] t o H; cbn in H.
  - destruct (fuzzy o); [discriminate|]. apply orb_true_iff in H. destruct H as [H|H]; [auto|]. apply andb_true_iff in H. tauto.
  - apply orb_true_iff in H. exact H.
  - apply orb_true_iff in H. exact H.
Qed.
Lemma flagged_merge : forall t o, flagged (merge t o) = true -> flagged t = true \/ flagged o = true.
Proof using Type.
  intros t o H. apply flagged_pick in H. destruct H as [i H]. apply pick_merge in H. destruct H as [H|H]; [left|right]; apply flagged_pick; eauto.
Qed.
Lemma terminates_flagged : forall t, terminates t = true -> flagged t = true.
Proof using Type. intros t H. unfold terminates in H. apply andb_true_iff in H. unfold flagged. tauto. Qed.
Lemma fuzzy_mono : forall b t, fuzzy (fb t b) = false -> fuzzy t = false.
Proof using Type.
  apply (proj2 (prog_ind (fun _ => True) (fun b => forall t, fuzzy (fb t b) = false -> fuzzy t = false) I I I I
    (fun _ _ _ => I) (fun _ _ _ => I) (fun _ _ _ _ => I) (fun _ _ => I) (fun _ _ _ _ _ => I) (fun _ _ => I) (fun _ _ _ _ _ => I) (fun _ _ => I)
    (fun _ _ _ _ => I) (fun _ _ _ _ => I) (fun _ => I) (fun _ => I) (fun _ => I) (fun _ _ _ => I) (fun t H => H)
    (fun l s rest _ IH t => ltac:(rewrite fb_then; intro H; destruct (terminates t); [exact H|]; apply IH in H; cbn [merge fuzzy] in H; apply orb_false_iff in H; tauto)))).
Qed.
Lemma returns_sure : (forall (s : stmt) l, returns (fl l s) = true -> fuzzy (fl l s) = false) /\
  (forall (b : block) t, (returns t = true -> fuzzy t = false) -> returns (fb t b) = true -> fuzzy (fb t b) = false).
Proof using Type.
  apply prog_ind.
  1-4: intros l H; reflexivity.
  - intros c b _ l. rewrite fl_while. reflexivity.
  - intros b c _ l. rewrite fl_do. destruct (terminates_loop (fb allfalse b)) eqn:T; [|reflexivity]. intros _. unfold terminates_loop in T. apply andb_true_iff in T. destruct T as [T _]. apply negb_true_iff in T. exact T.
  - intros a els _ _ l. rewrite fl_if. destruct els as [|b]; [discriminate|]. intro H. cbn [finalize returns] in H. unfold finalize. cbn [fuzzy]. rewrite H. reflexivity.
  - intros b _ l. rewrite fl_infinite. reflexivity.
  - intros i t n b _ l. rewrite fl_for. reflexivity.
  - intros b _ l. rewrite fl_each. reflexivity.
  - intros x y z b IH l. destruct (fl_range l x y z b) as [-> | [-> _]]; [reflexivity|]. apply IH. reflexivity.
  - intros b _ l. rewrite fl_spawn. reflexivity.
  - intros cs d _ _ l. rewrite fl_switch. destruct d as [|b]; [discriminate|]. intro H. cbn [finalize returns] in H. unfold finalize. cbn [fuzzy]. rewrite H. reflexivity.
  - intros b1 b2 _ _ l. rewrite fl_try. reflexivity.
  - intros x l. discriminate.
  - intros x l. discriminate.
  - intros x l. reflexivity.
  - intros x b _ l. rewrite fl_label. reflexivity.
  - intros t H. exact H.
  - intros l s rest IHs IHr t Ht. rewrite fb_then. destruct (terminates t); [exact Ht|]. apply IHr.
    cbn [merge returns fuzzy]. intro H. specialize (IHs l). destruct (fuzzy (fl l s)); [discriminate|]. rewrite orb_false_r. apply orb_true_iff in H.
    destruct H as [H|H]; [auto|]. apply andb_true_iff in H. destruct H as [H _]. apply negb_true_iff in H. exact H.
Qed.
Definition S_ok (s : stmt) : Prop := orderly s -> forall l,
  (flagged (fl l s) = true -> forall tr, ~ run l s tr Done) /\
  (forall k, ~ has k s -> pick (pk k) (fl l s) = false) /\
  (tame s -> (forall k, pick (pk k) (fl l s) = true -> fuzzy (fl l s) = true) /\ (fuzzy (fl l s) = false -> forall tr o, run l s tr o -> ~ stops o)).
Definition B_ok (b : block) : Prop := orderly_block b -> forall t,
  (flagged (fb t b) = true -> flagged t = true \/ ~ ends b Done) /\
  (forall k, ~ has_block k b -> pick (pk k) t = false -> pick (pk k) (fb t b) = false) /\
  (tame_block b -> ((forall k, pick (pk k) t = true -> fuzzy t = true) -> forall k, pick (pk k) (fb t b) = true -> fuzzy (fb t b) = true) /\
     (fuzzy (fb t b) = false -> flagged t = true \/ forall o, ends b o -> ~ stops o)).
Lemma pick_allfalse : forall i, pick i allfalse = false.
Proof using Type. intros [|[|i]]; reflexivity. Qed.
(** a loop whose control flow is not looked at *)
Lemma harmless : forall (s : stmt) l, fl l s = allfalse -> (tame s -> forall tr o, run l s tr o -> ~ stops o) ->
  (flagged (fl l s) = true -> forall tr, ~ run l s tr Done) /\
  (forall k, ~ has k s -> pick (pk k) (fl l s) = false) /\
  (tame s -> (forall k, pick (pk k) (fl l s) = true -> fuzzy (fl l s) = true) /\ (fuzzy (fl l s) = false -> forall tr o, run l s tr o -> ~ stops o)).
Proof using Type.
  intros s l E H. rewrite E. split; [discriminate|]. split; [intros; apply pick_allfalse|]. intro T. split; [intros k K; rewrite pick_allfalse in K; discriminate|]. intros _. exact (H T).
Qed.
Lemma loop_stops : forall l t inc (b : block), orderly_block b -> ~ labelled_block b -> forall tr o, run_loop l t inc b tr o -> ~ stops o.
Proof using Type.
  intros l t inc b O N tr o H S. apply loop_outcome in H. destruct H as [-> | [-> | [-> | [[H K]|H]]]]; try contradiction S.
  - apply N. apply (proj2 labelled_source b O o H). destruct o as [|[]|[]| | | |]; try contradiction S; try contradiction K; exact I.
  - inversion H; subst; contradiction S.
Qed.
Lemma allfalse_ends : forall (b : block) (P : Prop), flagged allfalse = true \/ P -> P.
Proof using Type. intros b P [H|H]; [discriminate|exact H]. Qed.
Lemma body_done : forall b, B_ok b -> orderly_block b -> flagged (fb allfalse b) = true -> ~ ends b Done.
Proof using Type. intros b H O K. destruct (H O allfalse) as [H1 _]. exact (allfalse_ends b _ (H1 K)). Qed.
Lemma body_stops : forall b, B_ok b -> orderly_block b -> tame_block b -> fuzzy (fb allfalse b) = false -> forall o, ends b o -> ~ stops o.
Proof using Type. intros b H O T K. destruct (H O allfalse) as [_ [_ H3]]. destruct (H3 T) as [_ H4]. exact (allfalse_ends b _ (H4 K)). Qed.
Lemma body_pick : forall b k, B_ok b -> orderly_block b -> ~ has_block k b -> pick (pk k) (fb allfalse b) = false.
Proof using Type. intros b k H O N. destruct (H O allfalse) as [_ [H2 _]]. apply H2; [exact N|apply pick_allfalse]. Qed.
Lemma body_fuzzy : forall b k, B_ok b -> orderly_block b -> tame_block b -> pick (pk k) (fb allfalse b) = true -> fuzzy (fb allfalse b) = true.
Proof using Type. intros b k H O T. destruct (H O allfalse) as [_ [_ H3]]. destruct (H3 T) as [H4 _]. apply H4. intros j K. rewrite pick_allfalse in K. discriminate. Qed.
Lemma finalize_pick : forall i t, pick i (finalize t) = pick i t.
Proof using Type. intros [|[|i]] t; reflexivity. Qed.
Lemma finalize_fuzzy : forall t, (forall k, pick (pk k) t = false) -> fuzzy (finalize t) = false -> returns t = true \/ fuzzy t = false.
Proof using Type.
  intros t H K. unfold finalize in K. cbn [fuzzy] in K. pose proof (H true) as H1. pose proof (H false) as H2. cbn in H1, H2. rewrite H1, H2, !orb_false_r in K. destruct (returns t); auto.
Qed.
Lemma do_facts : forall b, B_ok b -> tame_block b -> orderly_block b -> terminates_loop (fb allfalse b) = true ->
  ~ ends b Done /\ (forall o, ends b o -> ~ stops o) /\ fuzzy (fb allfalse b) = false /\ forall k, pick (pk k) (fb allfalse b) = false.
Proof using Type.
  intros b H T O K. unfold terminates_loop in K. apply andb_true_iff in K. destruct K as [K1 K2]. apply negb_true_iff in K1.
  split; [|split; [|split; [exact K1|]]].
  - apply (body_done b H O). unfold flagged. apply orb_true_iff in K2. destruct K2 as [-> | ->]; [reflexivity|apply orb_true_r].
  - exact (body_stops b H O T K1).
  - intro k. destruct (pick (pk k) (fb allfalse b)) eqn:E; [|reflexivity]. apply (body_fuzzy b k H O T) in E. congruence.
Qed.
Lemma not_on : forall b : block, ~ ends b Done -> (forall o, ends b o -> ~ stops o) -> forall o', ends b o' -> ~ (o' = Broke None \/ goes_on o').
Proof using Type.
  intros b N S o' E [-> | G]; [exact (S _ E I)|]. destruct o'; try contradiction G; [exact (N E)|exact (S _ E I)].
Qed.
Lemma flow_ok : (forall s, S_ok s) /\ (forall b, B_ok b).
Proof using Type.
  apply prog_ind.
  - intros _ l. apply harmless; [reflexivity|]. intros _ tr o H. inversion H; subst; exact (fun S => S).
  - intros _ l. split; [intros _ tr H; inversion H|]. split; [intros [] _; reflexivity|]. intros _. split; [intros [] H; discriminate H|]. intros _ tr o H. inversion H; subst; exact (fun S => S).
  - intros _ l. split; [intros _ tr H; inversion H|]. split; [intros [] _; reflexivity|]. intros _. split; [intros [] H; discriminate H|]. intros _ tr o H. inversion H; subst; exact (fun S => S).
  - intros _ l. apply harmless; [reflexivity|]. intros _ tr o H. inversion H; subst; exact (fun S => S).
  - intros c b IH O l. apply harmless; [apply fl_while|]. intros T tr o H. inversion H; subst; try exact (fun S => S). eapply loop_stops; eassumption.
  - (* do-while *)
    intros b c IH [T O] l. rewrite fl_do. destruct (terminates_loop (fb allfalse b)) eqn:K.
    + destruct (do_facts b IH T O K) as [N [S [Fz Pk]]]. split; [|split; [|intros _; split]].
      * intros _ tr H. inversion H; subst. match goal with K0 : Spec.run_do_while _ _ _ _ _ _ |- _ => rename K0 into R end. apply do_outcome in R. destruct R as [R|[[R _]|[_ [o' [R G]]]]]; [discriminate|exact (N R)|exact (not_on b N S o' R G)].
      * intros k _. apply Pk.
      * intros k E. rewrite Pk in E. discriminate.
      * intros _ tr o H. inversion H; subst; try exact (fun S => S). match goal with K0 : Spec.run_do_while _ _ _ _ _ _ |- _ => rename K0 into R end. apply do_outcome in R. destruct R as [-> | [[R _]|[-> _]]]; [exact (fun S => S)|exact (S o R)|exact (fun S => S)].
    + split; [discriminate|]. split; [intros; apply pick_allfalse|]. intro NL. split; [intros k E; rewrite pick_allfalse in E; discriminate|].
      intros _ tr o H. inversion H; subst; try exact (fun S => S). match goal with K0 : Spec.run_do_while _ _ _ _ _ _ |- _ => rename K0 into R end. apply do_outcome in R. destruct R as [-> | [[R Lv]|[-> _]]]; try exact (fun S => S).
      intro S. apply NL. apply (proj2 labelled_source b O o R). destruct o as [|[]|[]| | | |]; try contradiction S; try contradiction Lv; exact I.
  - (* if *)
    intros a els IHa IHe [Oa Oe] l.
    assert (RA : forall tr o, run l (If a els) tr o -> o = Threw \/ o = Cut \/ (els = NoBlock /\ o = Done) \/ (exists b, els = SomeBlock b /\ ends b o) \/ (exists l c b, In (l, c, b) (arm_list a) /\ truth c true /\ ends b o)).
    { intros tr o H. inversion H; subst; auto. eapply arms_outcome. eassumption. }
    rewrite fl_if. destruct els as [|b].
    + split; [discriminate|]. split; [intros []; reflexivity|]. intros [Ta _]. split; [intros [] E; discriminate E|].
      intros Fz tr o H. cbn [no_else fuzzy] in Fz. apply arms_fuzzy in Fz. destruct Fz as [_ Fz].
      destruct (RA tr o H) as [-> | [-> | [[_ ->]|[[b [E _]]|[l1 [c [b [I [Tc R]]]]]]]]]; try exact (fun S => S); [discriminate|].
      exact (body_stops b (IHa _ _ _ I) (orderly_arm _ _ _ _ Oa I) (tame_arm _ _ _ _ Ta I) (Fz _ _ _ I Tc) o R).
    + specialize (IHe b eq_refl). change (orderly_block b) in Oe. set (m := merge_false (fa alltrue false a) (fb allfalse b)).
      split; [|split].
      * intros H tr R. apply flagged_pick in H. destruct H as [i H]. rewrite finalize_pick in H. unfold m in H. rewrite pick_false in H. apply andb_true_iff in H. destruct H as [H1 H2].
        apply arms_pick in H1. destruct H1 as [_ H1].
        destruct (RA tr Done R) as [E|[E|[[E _]|[[b' [E K]]|[l1 [c [b' [I [Tc K]]]]]]]]]; try discriminate.
        -- injection E as <-. apply (body_done b IHe Oe); [apply flagged_pick; eauto|exact K].
        -- apply (body_done b' (IHa _ _ _ I) (orderly_arm _ _ _ _ Oa I)); [apply flagged_pick; exists i; exact (H1 _ _ _ I Tc)|exact K].
      * intros k N. rewrite finalize_pick. unfold m. rewrite pick_false. rewrite (body_pick b k IHe Oe); [apply andb_false_r|]. intro H. apply N. right. exact H.
      * intros [Ta [Tb Sp]]. assert (Pk : forall k, pick (pk k) m = false).
        { intro k. unfold m. rewrite pick_false. destruct (Sp k) as [S|S].
          - apply spares_arm in S. destruct S as [l1 [c [b' [I [Tc N]]]]]. destruct (pick (pk k) (fa alltrue false a)) eqn:E; [|reflexivity]. exfalso.
            apply arms_pick in E. destruct E as [_ E]. specialize (E _ _ _ I Tc). rewrite (body_pick b' k (IHa _ _ _ I) (orderly_arm _ _ _ _ Oa I) N) in E. discriminate.
          - rewrite (body_pick b k IHe Oe S). apply andb_false_r. }
        split; [intros k E; rewrite finalize_pick, Pk in E; discriminate|].
        intros Fz tr o R. assert (Q : fuzzy (fb allfalse b) = false /\ forall l c b', In (l, c, b') (arm_list a) -> truth c true -> fuzzy (fb allfalse b') = false).
        { destruct (finalize_fuzzy m Pk Fz) as [K|K].
          - change (pick 0 m = true) in K. unfold m in K. rewrite pick_false in K. apply andb_true_iff in K. destruct K as [K1 K2]. apply arms_pick in K1. destruct K1 as [_ K1].
            split; [apply (proj2 returns_sure b allfalse); [discriminate|exact K2]|]. intros l1 c b' I Tc. apply (proj2 returns_sure b' allfalse); [discriminate|exact (K1 _ _ _ I Tc)].
          - unfold m in K. cbn [merge_false fuzzy] in K. apply orb_false_iff in K. destruct K as [K1 K2]. apply arms_fuzzy in K1. tauto. }
        destruct Q as [Q1 Q2]. destruct (RA tr o R) as [-> | [-> | [[_ ->]|[[b' [E K]]|[l1 [c [b' [I [Tc K]]]]]]]]]; try exact (fun S => S).
        -- injection E as <-. exact (body_stops b IHe Oe Tb Q1 o K).
        -- exact (body_stops b' (IHa _ _ _ I) (orderly_arm _ _ _ _ Oa I) (tame_arm _ _ _ _ Ta I) (Q2 _ _ _ I Tc) o K).
  - intros b IH O l. apply harmless; [apply fl_infinite|]. intros T tr o H. inversion H; subst; try exact (fun S => S). eapply loop_stops; eassumption.
  - intros i t n b IH [G O] l. apply harmless; [apply fl_for|]. intros T tr o H. inversion H; subst; try exact (fun S => S).
    + eapply loop_stops; eassumption.
    + match goal with K0 : run_part _ _ |- _ => inversion K0; subst; exact (fun S => S) end.
  - intros b IH O l. apply harmless; [apply fl_each|]. intros T tr o H. inversion H; subst; try exact (fun S => S). eapply loop_stops; eassumption.
  - (* range *)
    intros x y z b IH [G O] l.
    assert (ST : ~ labelled_block b -> forall tr o, run l (ForRange x y z b) tr o -> ~ stops o).
    { intros NL tr o H S. apply range_outcome in H. destruct H as [-> | [-> | [[-> _]|[R Lv]]]]; try contradiction S. apply NL. apply (proj2 labelled_source b O o R). destruct o as [|[]|[]| | | |]; try contradiction S; try contradiction Lv; exact I. }
    destruct (fl_range l x y z b) as [E|[E [i [j [Ei [Ej V]]]]]].
    + apply harmless; [exact E|exact ST].
    + rewrite E. destruct (G i j Ei Ej) as [-> [NZ Q]]. assert (Pk : forall k, pick (pk k) (fb allfalse b) = false) by (intro k; apply (body_pick b k IH O); destruct k; apply Q).
      assert (LE : (i <=? j)%Z = true).
      { cbn [valid_for_range] in V. destruct ((i =? 0)%Z && (j =? 0)%Z); congruence. }
      split; [|split].
      * intros Fg tr H. pose proof (body_done b IH O Fg) as N. apply range_outcome in H. destruct H as [H|[H|[[_ [H|[o' [R K]]]]|[H _]]]]; try discriminate.
        -- destruct (H i j Ei Ej) as [H1 _]. specialize (H1 eq_refl). congruence.
        -- exact (not_on b N (quiet_stops b O Q) o' R K).
        -- exact (N H).
      * intros k _. apply Pk.
      * intros T. split; [intros k K; rewrite Pk in K; discriminate|]. intros _. apply ST. apply Q.
  - intros b IH O l. apply harmless; [apply fl_spawn|]. intros T tr o H. inversion H; subst; exact (fun S => S).
  - (* switch *)
    intros cs d IHa IHe [Oa Oe] l.
    assert (RA : forall tr o, run l (Switch cs d) tr o -> o = Threw \/ o = Cut \/ (d = NoBlock /\ o = Done) \/ (exists b, d = SomeBlock b /\ ends b o) \/ (exists b, In b (case_list cs) /\ ends b o)).
    { intros tr o H. inversion H; subst; auto. match goal with K0 : Spec.run_cases _ _ _ _ _ |- _ => rename K0 into K end. apply cases_outcome in K. destruct K as [[K1 [K2 _]]|[[b [E K]]|[b [E K]]]]; auto.
      - right. right. right. left. exists b. split; [exact E|]. exists tr. exact K.
      - right. right. right. right. exists b. split; [exact E|]. exists tr. exact K. }
    rewrite fl_switch. destruct d as [|b].
    + split; [discriminate|]. split; [intros []; reflexivity|]. intros [Ta _]. split; [intros [] E; discriminate E|].
      intros Fz tr o H. cbn [no_else fuzzy] in Fz. apply cases_fuzzy in Fz. destruct Fz as [_ Fz].
      destruct (RA tr o H) as [-> | [-> | [[_ ->]|[[b [E _]]|[b [I R]]]]]]; try exact (fun S => S); [discriminate|].
      exact (body_stops b (IHa _ I) (orderly_case _ _ Oa I) (tame_case _ _ Ta I) (Fz _ I) o R).
    + specialize (IHe b eq_refl). change (orderly_block b) in Oe. set (m := merge_false (fc alltrue cs) (fb allfalse b)).
      split; [|split].
      * intros H tr R. apply flagged_pick in H. destruct H as [i H]. rewrite finalize_pick in H. unfold m in H. rewrite pick_false in H. apply andb_true_iff in H. destruct H as [H1 H2].
        apply cases_pick in H1. destruct H1 as [_ H1].
        destruct (RA tr Done R) as [E|[E|[[E _]|[[b' [E K]]|[b' [I K]]]]]]; try discriminate.
        -- injection E as <-. apply (body_done b IHe Oe); [apply flagged_pick; eauto|exact K].
        -- apply (body_done b' (IHa _ I) (orderly_case _ _ Oa I)); [apply flagged_pick; exists i; exact (H1 _ I)|exact K].
      * intros k N. rewrite finalize_pick. unfold m. rewrite pick_false. rewrite (body_pick b k IHe Oe); [apply andb_false_r|]. intro H. apply N. right. exact H.
      * intros [Ta [Tb Sp]]. assert (Pk : forall k, pick (pk k) m = false).
        { intro k. unfold m. rewrite pick_false. destruct (Sp k) as [S|S].
          - apply spares_case_in in S. destruct S as [b' [I N]]. destruct (pick (pk k) (fc alltrue cs)) eqn:E; [|reflexivity]. exfalso.
            apply cases_pick in E. destruct E as [_ E]. specialize (E _ I). rewrite (body_pick b' k (IHa _ I) (orderly_case _ _ Oa I) N) in E. discriminate.
          - rewrite (body_pick b k IHe Oe S). apply andb_false_r. }
        split; [intros k E; rewrite finalize_pick, Pk in E; discriminate|].
        intros Fz tr o R. assert (Q : fuzzy (fb allfalse b) = false /\ forall b', In b' (case_list cs) -> fuzzy (fb allfalse b') = false).
        { destruct (finalize_fuzzy m Pk Fz) as [K|K].
          - change (pick 0 m = true) in K. unfold m in K. rewrite pick_false in K. apply andb_true_iff in K. destruct K as [K1 K2]. apply cases_pick in K1. destruct K1 as [_ K1].
            split; [apply (proj2 returns_sure b allfalse); [discriminate|exact K2]|]. intros b' I. apply (proj2 returns_sure b' allfalse); [discriminate|exact (K1 _ I)].
          - unfold m in K. cbn [merge_false fuzzy] in K. apply orb_false_iff in K. destruct K as [K1 K2]. apply cases_fuzzy in K1. tauto. }
        destruct Q as [Q1 Q2]. destruct (RA tr o R) as [-> | [-> | [[_ ->]|[[b' [E K]]|[b' [I K]]]]]]; try exact (fun S => S).
        -- injection E as <-. exact (body_stops b IHe Oe Tb Q1 o K).
        -- exact (body_stops b' (IHa _ I) (orderly_case _ _ Oa I) (tame_case _ _ Ta I) (Q2 _ I) o K).
  - intros b1 b2 IH1 IH2 [O1 O2] l. apply harmless; [apply fl_try|]. intros [Q1 Q2] tr o H. inversion H; subst; try exact (fun S => S).
    + apply (quiet_stops b1 O1 Q1). eexists; eassumption.
    + apply (quiet_stops b2 O2 Q2). eexists; eassumption.
  - intros x _ l. split; [intros _ tr H; inversion H|]. split; [intros [] N; [reflexivity|contradiction (N eq_refl)]|]. intros _. split; [reflexivity|discriminate].
  - intros x _ l. split; [intros _ tr H; inversion H|]. split; [intros [] N; [contradiction (N eq_refl)|reflexivity]|]. intros _. split; [reflexivity|discriminate].
  - intros x [].
  - intros x b IH O l. apply harmless; [apply fl_label|]. intros Q tr o H. inversion H; subst; try exact (fun S => S). apply (quiet_stops b O Q). eexists; eassumption.
  - intros _ t. split; [intro H; left; exact H|]. split; [intros k _ H; exact H|]. intros _. split; [intros H; exact H|]. intros _. right. intros o [tr H]. apply end_inv in H. destruct H as [_ [-> | ->]]; exact (fun S => S).
  - intros l s rest IHs IHr O t. pose proof O as [Os Or]. destruct (IHs Os l) as [A1 [A2 A3]]. rewrite fb_then. destruct (terminates t) eqn:K.
    + apply terminates_flagged in K. split; [auto|]. split; [intros k _ H; exact H|]. intros _. split; [intro H; exact H|auto].
    + destruct (IHr Or (merge t (fl l s))) as [B1 [B2 B3]]. split; [|split].
      * intro H. destruct (B1 H) as [H1|H1].
        -- apply flagged_merge in H1. destruct H1 as [H1|H1]; [auto|]. right. intros [tr R]. apply (block_inv _ _ _ _ _ O) in R.
           destruct R as [[_ R]|[[tr1 [_ [R _]]]|[tr1 [tr2 [R _]]]]]; [discriminate|congruence|exact (A1 H1 _ R)].
        -- right. intros [tr R]. apply (block_inv _ _ _ _ _ O) in R. destruct R as [[_ R]|[[tr1 [_ [R _]]]|[tr1 [tr2 [_ [R _]]]]]]; [discriminate|congruence|]. apply H1. exists tr2. exact R.
      * intros k N H. apply B2; [intro Hk; apply N; right; exact Hk|]. destruct (pick (pk k) (merge t (fl l s))) eqn:E; [|reflexivity]. apply pick_merge in E. destruct E as [E|E]; [congruence|].
        rewrite A2 in E; [discriminate|]. intro Hk. apply N. left. exact Hk.
      * intros [Ts Tr]. destruct (A3 Ts) as [A4 A5]. destruct (B3 Tr) as [B4 B5]. split.
        -- intros Ht. apply B4. intros k E. cbn [merge fuzzy]. apply pick_merge in E. destruct E as [E|E]; [rewrite (Ht k E); reflexivity|rewrite (A4 k E); apply orb_true_r].
        -- intro Fz. pose proof (fuzzy_mono _ _ Fz) as Fm. cbn [merge fuzzy] in Fm. apply orb_false_iff in Fm. destruct Fm as [_ Fm]. specialize (A5 Fm).
           assert (Q : flagged t = true \/ (forall tr, ~ run l s tr Done) \/ forall o, ends rest o -> ~ stops o).
           { destruct (B5 Fz) as [H|H]; [|auto]. apply flagged_merge in H. destruct H as [H|H]; auto. }
           destruct Q as [Q|Q]; [auto|]. right. intros o [tr R]. apply (block_inv _ _ _ _ _ O) in R.
           destruct R as [[_ ->]|[[tr1 [R _]]|[tr1 [tr2 [R1 [R2 _]]]]]]; [exact (fun S => S)|exact (A5 _ _ R)|].
           destruct Q as [Q|Q]; [contradiction (Q _ R1)|]. apply Q. exists tr2. exact R2.
Qed.

(** ** Reports and events belong to a place *)
Definition ev_place (e : event L) : bool * L := match e with At l | Looped l _ | Until l _ | Entered l => (true, l) | Tested l _ => (false, l) end.
Definition rp_place (r : report L) : bool * L :=
  match r with Unreachable l | UnreachableElse l | LoopTrue l | LoopFalse l | NeverTested l | NeverEntered l => (true, l) | UnreachableIf l | AlwaysTrue l | AlwaysFalse l => (false, l) end.
Definition starts (e : event L) : bool := match e with At _ => true | _ => false end.
Definition about_start (r : report L) : bool := match r with Unreachable _ | UnreachableElse _ => true | _ => false end.
Lemma excludes_place : forall r e, excludes r e -> rp_place r = ev_place e /\ about_start r = starts e.
Proof using Type. intros [l|l|l|l|l|l|l|l|l] e H; cbn in H; first [subst e; split; reflexivity | destruct H as [b ->]; split; reflexivity]. Qed.
Lemma nodup_app : forall (A : Type) (x y : list A), NoDup (x ++ y) -> NoDup x /\ NoDup y /\ forall a, In a x -> ~ In a y.
Proof using Type.
  intros A. induction x as [|b x IH]; intros y H; cbn in H.
  - split; [constructor|]. split; [exact H|]. intros a [].
  - apply NoDup_cons_iff in H. destruct H as [N H]. apply IH in H. destruct H as [H1 [H2 H3]]. split; [|split; [exact H2|]].
    + constructor; [|exact H1]. intro K. apply N. apply in_or_app. auto.
    + intros a [<- | I] K; [|exact (H3 a I K)]. apply N. apply in_or_app. auto.
Qed.
Lemma arm_places : forall a l c b, In (l, c, b) (arm_list a) -> incl ((false, l) :: places_block b) (places_arms a).
Proof using Type.
  induction a as [|l0 c0 b0 rest IH]; intros l c b I; [contradiction I|]. destruct I as [E|I].
  - injection E as <- <- <-. intros p [<- | K]; [left; reflexivity|]. right. apply in_or_app. left. exact K.
  - intros p K. right. apply in_or_app. right. exact (IH l c b I p K).
Qed.
Lemma case_places : forall cs b, In b (case_list cs) -> incl (places_block b) (places_cases cs).
Proof using Type.
  induction cs as [|b0 rest IH]; intros b I; [contradiction I|]. destruct I as [E|I].
  - subst b0. intros p K. apply in_or_app. left. exact K.
  - intros p K. apply in_or_app. right. exact (IH b I p K).
Qed.
Lemma arms_events : forall a els t al tr o e, run_arms a els tr o -> In e tr ->
  (exists l c b, In (l, c, b) (arm_list a) /\ ((exists v, e = Tested l v) \/ happens b e)) \/ (exists b, els = SomeBlock b /\ happens b e /\ snd (fst (visit_arms t al a)) = al).
Proof using Type.
  induction a as [|l0 c0 b0 rest IH]; intros els t al tr o e H I.
  - inversion H; subst; try contradiction I. right. exists b. split; [reflexivity|]. split; [|reflexivity]. exists tr, o. auto.
  - inversion H as [| | | |l1 c1 b1 r1 e1 tr1 o1 T R|l1 c1 b1 r1 e1 tr1 o1 T R]; subst; try contradiction I.
    + left. exists l0, c0, b0. split; [left; reflexivity|]. destruct I as [<- | I]; [left; exists true; reflexivity|]. right. exists tr1, o. auto.
    + destruct I as [<- | I]; [left; exists l0, c0, b0; split; [left; reflexivity|]; left; exists false; reflexivity|].
      rewrite visit_arm. cbv zeta. destruct (visit_block allfalse b0) as [st rs]. destruct (is_truthy c0) as [[]|] eqn:E.
      * pose proof (truthy _ _ _ E T). discriminate.
      * destruct (visit_arms t al rest) as [[t3 al3] rs3] eqn:V. destruct (IH els t al tr1 o e R I) as [[l [c [b [K1 K2]]]]|K].
        -- left. exists l, c, b. split; [right; exact K1|exact K2].
        -- right. rewrite V in K. exact K.
      * destruct (visit_arms (merge_false t st) al rest) as [[t3 al3] rs3] eqn:V. destruct (IH els (merge_false t st) al tr1 o e R I) as [[l [c [b [K1 K2]]]]|K].
        -- left. exists l, c, b. split; [right; exact K1|exact K2].
        -- right. rewrite V in K. exact K.
Qed.
Definition own (l : L) (e : event L) : Prop := ev_place e = (true, l) /\ starts e = false.
Lemma loop_own : forall l t inc b tr o e, run_loop l t inc b tr o -> In e tr -> own l e \/ happens b e.
Proof using Type. intros l t inc b tr o e H I. apply (loop_events _ _ _ _ _ _ H) in I. destruct I as [[c [-> _]]|[-> |I]]; auto; left; split; reflexivity. Qed.
Lemma events_places : (forall s : stmt, orderly s -> forall l tr o e, run l s tr o -> In e tr -> own l e \/ In (ev_place e) (places s)) /\
  (forall b : block, orderly_block b -> forall e, happens b e -> In (ev_place e) (places_block b)).
Proof using Type.
  apply prog_ind.
  1-4: intros _ l tr o e H I; inversion H; subst; contradiction I.
  - intros c b IH O l tr o e H I. inversion H; subst; try contradiction I. match goal with K0 : Spec.run_loop _ _ _ _ _ _ _ |- _ => apply (loop_own _ _ _ _ _ _ _ K0) in I end. destruct I as [I|I]; [left; exact I|right; exact (IH O e I)].
  - intros b c IH [_ O] l tr o e H I. inversion H; subst; try contradiction I. match goal with K0 : Spec.run_do_while _ _ _ _ _ _ |- _ => apply (do_events _ _ _ _ _ K0) in I end.
    destruct I as [I|[v [-> _]]]; [right; exact (IH O e I)|left; split; reflexivity].
  - intros a els IHa IHe [Oa Oe] l tr o e H I. inversion H; subst; try contradiction I. right. apply in_or_app.
    match goal with K0 : Spec.run_arms _ _ _ _ _ |- _ => apply (arms_events _ _ alltrue false _ _ _ K0) in I end. destruct I as [[l1 [c [b [Ib K]]]]|[b [-> [K _]]]].
    + left. apply (arm_places _ _ _ _ Ib). destruct K as [[v ->]|K]; [left; reflexivity|right]. exact (IHa _ _ _ Ib (orderly_arm _ _ _ _ Oa Ib) e K).
    + right. exact (IHe b eq_refl Oe e K).
  - intros b IH O l tr o e H I. inversion H; subst; try contradiction I. match goal with K0 : Spec.run_loop _ _ _ _ _ _ _ |- _ => apply (loop_own _ _ _ _ _ _ _ K0) in I end. destruct I as [I|I]; [left; exact I|right; exact (IH O e I)].
  - intros i t n b IH [_ O] l tr o e H I. inversion H; subst; try contradiction I. match goal with K0 : Spec.run_loop _ _ _ _ _ _ _ |- _ => apply (loop_own _ _ _ _ _ _ _ K0) in I end. destruct I as [I|I]; [left; exact I|right; exact (IH O e I)].
  - intros b IH O l tr o e H I. inversion H; subst; try contradiction I. match goal with K0 : Spec.run_loop _ _ _ _ _ _ _ |- _ => apply (loop_own _ _ _ _ _ _ _ K0) in I end. destruct I as [I|I]; [left; exact I|right; exact (IH O e I)].
  - intros x y z b IH [_ O] l tr o e H I. apply (range_events _ _ _ _ _ _ _ H) in I. destruct I as [_ [-> | [[v ->]|I]]]; [left; split; reflexivity|left; split; reflexivity|right; exact (IH O e I)].
  - intros b IH O l tr o e H I. inversion H; subst; try contradiction I. right. apply (IH O e). eexists _, _. eauto.
  - intros cs d IHc IHd [Oc Od] l tr o e H I. inversion H; subst; try contradiction I. right. apply in_or_app.
    match goal with K0 : Spec.run_cases _ _ _ _ _ |- _ => rename K0 into R end. apply cases_outcome in R. destruct R as [[_ [_ ->]]|[[b [-> R]]|[b [Ib R]]]].
    + contradiction I.
    + right. apply (IHd b eq_refl Od e). exists tr, o. auto.
    + left. apply (case_places _ _ Ib). apply (IHc b Ib (orderly_case _ _ Oc Ib) e). exists tr, o. auto.
  - intros b1 b2 IH1 IH2 [O1 O2] l tr o e H I. right. apply in_or_app. inversion H; subst; try contradiction I.
    + left. apply (IH1 O1 e). exists tr, o. auto.
    + apply in_app_or in I. destruct I as [I|I]; [left; apply (IH1 O1 e); eexists _, _; eauto|right; apply (IH2 O2 e); eexists _, _; eauto].
  - intros y _ l tr o e H I. inversion H; subst; contradiction I.
  - intros y _ l tr o e H I. inversion H; subst; contradiction I.
  - intros y [].
  - intros y b IH O l tr o e H I. inversion H; subst; try contradiction I; right; apply (IH O e); eexists _, _; eauto.
  - intros _ e [tr [o [H I]]]. apply end_inv in H. destruct H as [-> _]. contradiction I.
  - intros l s rest IHs IHr O e [tr [o [H I]]]. pose proof O as [Os Or]. apply (block_inv _ _ _ _ _ O) in H. destruct H as [[-> _]|[[tr1 [H [_ ->]]]|[tr1 [tr2 [H1 [H2 ->]]]]]].
    + contradiction I.
    + destruct I as [<- | I]; [left; reflexivity|]. destruct (IHs Os l tr1 o e H I) as [[K _]|K]; [left; symmetry; exact K|right; apply in_or_app; left; exact K].
    + destruct I as [<- | I]; [left; reflexivity|]. apply in_app_or in I. destruct I as [I|I].
      * destruct (IHs Os l tr1 Done e H1 I) as [[K _]|K]; [left; symmetry; exact K|right; apply in_or_app; left; exact K].
      * right. apply in_or_app. right. apply (IHr Or e). exists tr2, o. auto.
Qed.
(** the reports *)
Definition rs (l : L) (s : stmt) : list (report L) := snd (visit l s).
Definition rb (t : flow) (b : block) : list (report L) := snd (visit_block t b).
Lemma rs_while : forall l c b, rs l (While c b) = rb allfalse b.
Proof using Type. intros. unfold rs, rb. change (visit l (While c b)) with (let '(st, rs) := visit_block allfalse b in (end_loop st, rs)). destruct (visit_block allfalse b). reflexivity. Qed.
Lemma rs_do : forall l b c, rs l (DoWhile b c) = rb allfalse b ++ if terminates_loop (fb allfalse b) then [NeverTested l] else [].
Proof using Type. intros. unfold rs, rb, fb. change (visit l (DoWhile b c)) with (let '(st, rs) := visit_block allfalse b in if terminates_loop st then (st, rs ++ [NeverTested l]) else (end_loop st, rs)).
  destruct (visit_block allfalse b) as [st rs]. cbn [fst snd]. destruct (terminates_loop st); [reflexivity|]. cbn [snd]. rewrite app_nil_r. reflexivity. Qed.
Lemma rs_if : forall l a els, rs l (If a els) = snd (visit_arms alltrue false a) ++ match els with
   SomeBlock b => (match b with Then l _ _ => if snd (fst (visit_arms alltrue false a)) then [UnreachableElse l] else [] | End => [] end) ++ rb allfalse b | NoBlock => [] end.
Proof using Type. intros. unfold rs, rb. change (visit l (If a els)) with (let '(st, always, rs) := visit_arms alltrue false a in
      match els with
      | SomeBlock b =>
          let r := match b with Then l _ _ => if always then [UnreachableElse l] else [] | End => [] end in
          let '(st2, rs2) := visit_block allfalse b in
          (finalize (merge_false st st2), rs ++ r ++ rs2)
      | NoBlock => (no_else st, rs)
      end). destruct (visit_arms alltrue false a) as [[st al] rs]. destruct els as [|b]; cbn [fst snd]; [rewrite app_nil_r; reflexivity|]. destruct (visit_block allfalse b). reflexivity. Qed.
Lemma rs_infinite : forall l b, rs l (ForInfinite b) = rb allfalse b.
Proof using Type. intros. unfold rs, rb. change (visit l (ForInfinite b)) with (let '(st, rs) := visit_block allfalse b in (end_loop st, rs)). destruct (visit_block allfalse b). reflexivity. Qed.
Lemma rs_each : forall l b, rs l (ForEach b) = rb allfalse b.
Proof using Type. intros. unfold rs, rb. change (visit l (ForEach b)) with (let '(st, rs) := visit_block allfalse b in (end_loop st, rs)). destruct (visit_block allfalse b). reflexivity. Qed.
Lemma rs_for : forall l i t n b, rs l (ForLoop i t n b) = loop_check f_zero l t ++ rb allfalse b.
Proof using Type. intros. unfold rs, rb. change (visit l (ForLoop i t n b)) with (let '(st, rs) := visit_block allfalse b in (end_loop st, loop_check f_zero l t ++ rs)). destruct (visit_block allfalse b). reflexivity. Qed.
Lemma rs_range : forall l x y step b r, In r (rs l (ForRange x y step b)) -> In r (rb allfalse b) \/
  (r = NeverEntered l /\ exists i j, number x = Some i /\ number y = Some j /\ valid_for_range (F := F) (MInt i) (MInt j) step = Some false).
Proof using Type.
  intros l x y step b r H. unfold rs, rb in *. rewrite visit_range in H. destruct (visit_block allfalse b) as [st rs].
  destruct (as_term x) as [tx|] eqn:Ex; [|auto]. destruct (as_term y) as [ty|] eqn:Ey; [|auto].
  destruct (valid_for_range tx ty step) as [[]|] eqn:V; auto. apply in_app_or in H. destruct H as [H|[<- | []]]; [auto|]. right. split; [reflexivity|]. exact (valid_numbers _ _ _ _ _ _ Ex Ey V).
Qed.
Lemma rs_spawn : forall l b, rs l (Spawn b) = rb allfalse b.
Proof using Type. intros. unfold rs, rb. change (visit l (Spawn b)) with (let '(_, rs) := visit_block allfalse b in (allfalse, rs)). destruct (visit_block allfalse b). reflexivity. Qed.
Lemma rs_switch : forall l cs d, rs l (Switch cs d) = snd (visit_cases alltrue cs) ++ match d with SomeBlock b => rb allfalse b | NoBlock => [] end.
Proof using Type. intros. unfold rs, rb. change (visit l (Switch cs d)) with (let '(st, rs) := visit_cases alltrue cs in
      match d with
      | SomeBlock b => let '(st2, rs2) := visit_block allfalse b in (finalize (merge_false st st2), rs ++ rs2)
      | NoBlock => (no_else st, rs)
      end). destruct (visit_cases alltrue cs) as [st rs]. destruct d as [|b]; cbn [snd]; [rewrite app_nil_r; reflexivity|]. destruct (visit_block allfalse b). reflexivity. Qed.
Lemma rs_try : forall l b1 b2, rs l (TryCatch b1 b2) = rb allfalse b1 ++ rb allfalse b2.
Proof using Type. intros. unfold rs, rb. change (visit l (TryCatch b1 b2)) with (let '(_, rs1) := visit_block allfalse b1 in let '(_, rs2) := visit_block allfalse b2 in (allfalse, rs1 ++ rs2)). destruct (visit_block allfalse b1), (visit_block allfalse b2). reflexivity. Qed.
Lemma rs_label : forall l x b, rs l (Label x b) = rb allfalse b.
Proof using Type. intros. unfold rs, rb. change (visit l (Label x b)) with (let '(_, rs) := visit_block allfalse b in (allfalse, rs)). destruct (visit_block allfalse b). reflexivity. Qed.
Lemma rb_then : forall t l s rest, rb t (Then l s rest) = if terminates t then [Unreachable l] else rs l s ++ rb (merge t (fl l s)) rest.
Proof using Type. intros. unfold rs, rb, fl. rewrite visit_then. destruct (terminates t); [reflexivity|]. destruct (visit l s) as [st rs]. cbn [fst snd]. destruct (visit_block (merge t st) rest). reflexivity. Qed.
Definition ra (t : flow) (al : bool) (a : arms) : list (report L) := snd (visit_arms t al a).
Lemma ra_arm : forall t al l c b rest, exists t', ra t al (Arm l c b rest) =
  (if al then [UnreachableIf l] else []) ++ rb allfalse b ++ (if known c true then [AlwaysTrue l] else if known c false then [AlwaysFalse l] else []) ++ ra t' (al || known c true) rest.
Proof using Type.
  intros. unfold ra, rb. rewrite visit_arm. cbv zeta. destruct (visit_block allfalse b) as [st rs0]. unfold known. cbn [snd].
  destruct (is_truthy c) as [[]|]; cbn [Bool.eqb]; rewrite ?orb_true_r, ?orb_false_r; match goal with |- context [visit_arms ?x ?y rest] => exists x; destruct (visit_arms x y rest) as [[? ?] ?] end; reflexivity.
Qed.
Definition rc (t : flow) (cs : cases) : list (report L) := snd (visit_cases t cs).
Lemma rc_case : forall t b rest, rc t (Case b rest) = rb allfalse b ++ rc (merge_false t (fb allfalse b)) rest.
Proof using Type.
  intros. unfold rc, rb, fb. change (visit_cases t (Case b rest)) with (let '(st, rs) := visit_block allfalse b in let '(t2, rs2) := visit_cases (merge_false t st) rest in (t2, rs ++ rs2)).
  destruct (visit_block allfalse b) as [st rs0]. cbn [fst snd]. destruct (visit_cases (merge_false t st) rest). reflexivity.
Qed.
Definition own_report (l : L) (r : report L) : Prop := rp_place r = (true, l) /\ about_start r = false.
Lemma ra_places : forall a t al r, (forall l c b, In (l, c, b) (arm_list a) -> forall t r, In r (rb t b) -> In (rp_place r) (places_block b)) ->
  In r (ra t al a) -> In (rp_place r) (places_arms a).
Proof using Type.
  induction a as [|l c b rest IH]; intros t al r H I; [contradiction I|]. destruct (ra_arm t al l c b rest) as [t' E]. rewrite E in I. clear E.
  apply in_app_or in I. destruct I as [I|I]; [destruct al; [|contradiction I]; destruct I as [<- | []]; left; reflexivity|].
  apply in_app_or in I. destruct I as [I|I]; [right; apply in_or_app; left; apply (H l c b (or_introl eq_refl) allfalse r I)|].
  apply in_app_or in I. destruct I as [I|I].
  - left. destruct (known c true); [destruct I as [<- | []]; reflexivity|]. destruct (known c false); [destruct I as [<- | []]; reflexivity|contradiction I].
  - right. apply in_or_app. right. refine (IH t' _ r _ I). intros l1 c1 b1 K. apply (H l1 c1 b1). right. exact K.
Qed.
Lemma rc_places : forall cs t r, (forall b, In b (case_list cs) -> forall t r, In r (rb t b) -> In (rp_place r) (places_block b)) ->
  In r (rc t cs) -> In (rp_place r) (places_cases cs).
Proof using Type.
  induction cs as [|b rest IH]; intros t r H I; [contradiction I|]. rewrite rc_case in I. apply in_or_app. apply in_app_or in I. destruct I as [I|I].
  - left. exact (H b (or_introl eq_refl) allfalse r I).
  - right. refine (IH _ r _ I). intros b1 K. apply (H b1). right. exact K.
Qed.
Lemma reports_places : (forall (s : stmt) l r, In r (rs l s) -> own_report l r \/ In (rp_place r) (places s)) /\
  (forall (b : block) t r, In r (rb t b) -> In (rp_place r) (places_block b)).
Proof using Type.
  apply prog_ind.
  1-4: intros l r I; contradiction I.
  - intros c b IH l r I. rewrite rs_while in I. right. exact (IH _ _ I).
  - intros b c IH l r I. rewrite rs_do in I. apply in_app_or in I. destruct I as [I|I]; [right; exact (IH _ _ I)|]. destruct (terminates_loop (fb allfalse b)); [|contradiction I]. destruct I as [<- | []]. left. split; reflexivity.
  - intros a els IHa IHe l r I. right. rewrite rs_if in I. apply in_or_app. apply in_app_or in I. destruct I as [I|I]; [left; exact (ra_places _ _ _ _ IHa I)|]. right. destruct els as [|b]; [contradiction I|].
    apply in_app_or in I. destruct I as [I|I]; [|exact (IHe b eq_refl _ _ I)]. destruct b as [|l1 s1 rest1]; [contradiction I|]. destruct (snd (fst (visit_arms alltrue false a))); [|contradiction I]. destruct I as [<- | []]. left. reflexivity.
  - intros b IH l r I. rewrite rs_infinite in I. right. exact (IH _ _ I).
  - intros i t n b IH l r I. rewrite rs_for in I. apply in_app_or in I. destruct I as [I|I]; [|right; exact (IH _ _ I)]. left. unfold loop_check in I. destruct t as [e|]; [|contradiction I]. destruct (is_truthy e) as [[]|]; try contradiction I; destruct I as [<- | []]; split; reflexivity.
  - intros b IH l r I. rewrite rs_each in I. right. exact (IH _ _ I).
  - intros x y z b IH l r I. apply rs_range in I. destruct I as [I|[-> _]]; [right; exact (IH _ _ I)|left; split; reflexivity].
  - intros b IH l r I. rewrite rs_spawn in I. right. exact (IH _ _ I).
  - intros cs d IHc IHd l r I. right. rewrite rs_switch in I. apply in_or_app. apply in_app_or in I. destruct I as [I|I]; [left; exact (rc_places _ _ _ IHc I)|]. right. destruct d as [|b]; [contradiction I|exact (IHd b eq_refl _ _ I)].
  - intros b1 b2 IH1 IH2 l r I. right. rewrite rs_try in I. apply in_or_app. apply in_app_or in I. destruct I as [I|I]; [left; exact (IH1 _ _ I)|right; exact (IH2 _ _ I)].
  - intros x l r I. contradiction I.
  - intros x l r I. contradiction I.
  - intros x l r I. contradiction I.
  - intros x b IH l r I. rewrite rs_label in I. right. exact (IH _ _ I).
  - intros t r I. contradiction I.
  - intros l s rest IHs IHr t r I. rewrite rb_then in I. destruct (terminates t); [destruct I as [<- | []]; left; reflexivity|]. apply in_app_or in I. destruct I as [I|I].
    + destruct (IHs l r I) as [[K _]|K]; [left; symmetry; exact K|right; apply in_or_app; left; exact K].
    + right. apply in_or_app. right. exact (IHr _ _ I).
Qed.

(** ** The reports are right *)
Definition S_right (s : stmt) : Prop := orderly s -> forall l, NoDup ((true, l) :: places s) -> forall r, In r (rs l s) -> forall tr o e, run l s tr o -> In e tr -> ~ excludes r e.
Definition B_right (b : block) : Prop := orderly_block b -> NoDup (places_block b) -> forall t r, In r (rb t b) -> flagged t = true \/ forall e, happens b e -> ~ excludes r e.
Lemma body_right : forall b, B_right b -> orderly_block b -> NoDup (places_block b) -> forall r, In r (rb allfalse b) -> forall e, happens b e -> ~ excludes r e.
Proof using Type. intros b H O N r I. destruct (H O N allfalse r I) as [K|K]; [discriminate|exact K]. Qed.
(** what holds for a statement with one block *)
Lemma one_body : forall l b, B_right b -> orderly_block b -> NoDup ((true, l) :: places_block b) -> forall r e, In r (rb allfalse b) -> own l e \/ happens b e -> ~ excludes r e.
Proof using Type.
  intros l b H O N r e I [[K _]|K] X; apply NoDup_cons_iff in N; destruct N as [N1 N2].
  - apply excludes_place in X. destruct X as [X _]. apply N1. rewrite <- K, <- X. exact (proj2 reports_places b allfalse r I).
  - exact (body_right b H O N2 r I e K X).
Qed.
Lemma own_body : forall l b, orderly_block b -> NoDup ((true, l) :: places_block b) -> forall r e, own_report l r -> happens b e -> ~ excludes r e.
Proof using Type.
  intros l b O N r e [K _] Hp X. apply NoDup_cons_iff in N. destruct N as [N1 _]. apply excludes_place in X. destruct X as [X _]. apply N1. rewrite <- K, X. exact (proj2 events_places b O e Hp).
Qed.
Lemma arms_right : forall a t al els r, (forall l c b, In (l, c, b) (arm_list a) -> B_right b) -> orderly_arms a -> orderly_else els -> NoDup (places_arms a ++ places_else els) -> In r (ra t al a) ->
  al = true \/ forall tr o e, run_arms a els tr o -> In e tr -> ~ excludes r e.
Proof using Type.
  induction a as [|l c b rest IH]; intros t al els r HB O Oe N I; [contradiction I|]. pose proof O as [Ob Or].
  assert (HBr : forall l c b, In (l, c, b) (arm_list rest) -> B_right b) by (intros l1 c1 b1 K; apply (HB l1 c1 b1); right; exact K).
  change ((false, l) :: places_block b ++ places_arms rest) with ([(false, l)] ++ places_block b ++ places_arms rest) in N. change (places_arms (Arm l c b rest)) with ([(false, l)] ++ places_block b ++ places_arms rest) in N. rewrite <- !app_assoc in N.
  pose proof N as N0. apply nodup_app in N. destruct N as [_ [N N1]]. specialize (N1 (false, l) (or_introl eq_refl)). pose proof N as Nb. apply nodup_app in N. destruct N as [N2 [N3 N4]].
  assert (RestEv : forall tr o e, run_arms rest els tr o -> In e tr -> In (ev_place e) (places_arms rest ++ places_else els)).
  { intros tr o e R K. apply (arms_events _ _ alltrue false _ _ _ R) in K. apply in_or_app. destruct K as [[l1 [c1 [b1 [Ib K]]]]|[b1 [-> [K _]]]].
    - left. apply (arm_places _ _ _ _ Ib). destruct K as [[v ->]|K]; [left; reflexivity|right]. exact (proj2 events_places b1 (orderly_arm _ _ _ _ Or Ib) e K).
    - right. exact (proj2 events_places b1 Oe e K). }
  destruct (ra_arm t al l c b rest) as [t' E]. rewrite E in I. clear E.
  apply in_app_or in I. destruct I as [I|I]; [destruct al; [left; reflexivity|contradiction I]|].
  apply in_app_or in I. destruct I as [I|I].
  - right. intros tr o e R K X. pose proof (proj2 reports_places b allfalse r I) as P. pose proof (excludes_place _ _ X) as [XP _].
    inversion R as [| | | |l1 c1 b1 r1 e1 tr1 o1 T R1|l1 c1 b1 r1 e1 tr1 o1 T R1]; subst; try contradiction K.
    + destruct K as [<- | K]; [apply N1; apply in_or_app; left; cbn in XP; rewrite <- XP; exact P|].
      refine (body_right b (HB l c b (or_introl eq_refl)) Ob N2 r I e _ X). exists tr1, o. auto.
    + destruct K as [<- | K]; [apply N1; apply in_or_app; left; cbn in XP; rewrite <- XP; exact P|].
      apply (N4 (rp_place r) P). rewrite XP. exact (RestEv _ _ _ R1 K).
  - apply in_app_or in I. destruct I as [I|I].
    + right. intros tr o e R K X. pose proof (excludes_place _ _ X) as [XP _].
      assert (P : rp_place r = (false, l)) by (destruct (known c true); [destruct I as [<- | []]; reflexivity|]; destruct (known c false); [destruct I as [<- | []]; reflexivity|contradiction I]).
      inversion R as [| | | |l1 c1 b1 r1 e1 tr1 o1 T R1|l1 c1 b1 r1 e1 tr1 o1 T R1]; subst; try contradiction K.
      * destruct K as [<- | K].
        -- destruct (known c true); [destruct I as [<- | []]; discriminate X|]. destruct (known c false) eqn:Ek; [exact (known_truth _ _ Ek T)|contradiction I].
        -- apply N1. apply in_or_app. left. rewrite <- P, XP. apply (proj2 events_places b Ob e). exists tr1, o. auto.
      * destruct K as [<- | K].
        -- destruct (known c true) eqn:Ek; [exact (known_truth _ _ Ek T)|]. destruct (known c false); [destruct I as [<- | []]; discriminate X|contradiction I].
        -- apply N1. apply in_or_app. right. rewrite <- P, XP. exact (RestEv _ _ _ R1 K).
    + assert (P : In (rp_place r) (places_arms rest)) by (refine (ra_places rest t' _ r _ I); intros l1 c1 b1 Ib t1 r1; exact (proj2 reports_places b1 t1 r1)).
      destruct (IH t' (al || known c true) els r HBr Or Oe N3 I) as [Hal|Hr].
      * apply orb_true_iff in Hal. destruct Hal as [Hal|Hk]; [left; exact Hal|]. right. intros tr o e R K X. pose proof (excludes_place _ _ X) as [XP _].
        inversion R as [| | | |l1 c1 b1 r1 e1 tr1 o1 T R1|l1 c1 b1 r1 e1 tr1 o1 T R1]; subst; try contradiction K.
        -- destruct K as [<- | K].
           ++ apply N1. apply in_or_app. right. apply in_or_app. left. cbn in XP. rewrite <- XP. exact P.
           ++ assert (Pb : In (ev_place e) (places_block b)) by (apply (proj2 events_places b Ob e); exists tr1, o; auto). apply (N4 _ Pb). rewrite <- XP. apply in_or_app. left. exact P.
        -- exact (known_truth _ _ Hk T).
      * right. intros tr o e R K X. pose proof (excludes_place _ _ X) as [XP _].
        inversion R as [| | | |l1 c1 b1 r1 e1 tr1 o1 T R1|l1 c1 b1 r1 e1 tr1 o1 T R1]; subst; try contradiction K.
        -- destruct K as [<- | K].
           ++ apply N1. apply in_or_app. right. apply in_or_app. left. cbn in XP. rewrite <- XP. exact P.
           ++ assert (Pb : In (ev_place e) (places_block b)) by (apply (proj2 events_places b Ob e); exists tr1, o; auto). apply (N4 _ Pb). rewrite <- XP. apply in_or_app. left. exact P.
        -- destruct K as [<- | K].
           ++ apply N1. apply in_or_app. right. apply in_or_app. left. cbn in XP. rewrite <- XP. exact P.
           ++ exact (Hr _ _ _ R1 K X).
Qed.
Lemma cases_right : forall cs t d r, (forall b, In b (case_list cs) -> B_right b) -> orderly_cases cs -> orderly_else d -> NoDup (places_cases cs ++ places_else d) -> In r (rc t cs) ->
  forall tr o e, run_cases cs d tr o -> In e tr -> ~ excludes r e.
Proof using Type.
  induction cs as [|b rest IH]; intros t d r HB O Oe N I tr o e R K X; [contradiction I|]. pose proof O as [Ob Or]. pose proof (excludes_place _ _ X) as [XP _].
  change (places_cases (Case b rest)) with (places_block b ++ places_cases rest) in N. rewrite <- app_assoc in N. apply nodup_app in N. destruct N as [N2 [N3 N4]].
  rewrite rc_case in I. apply in_app_or in I. inversion R as [| |b1 r1 d1 tr1 o1 R1|b1 r1 d1 tr1 o1 R1]; subst.
  - assert (Pb : In (ev_place e) (places_block b)) by (apply (proj2 events_places b Ob e); exists tr, o; auto).
    destruct I as [I|I]; [refine (body_right b (HB b (or_introl eq_refl)) Ob N2 r I e _ X); exists tr, o; auto|].
    apply (N4 _ Pb). rewrite <- XP. apply in_or_app. left. refine (rc_places rest _ r _ I). intros b1 Ib t1 r1. exact (proj2 reports_places b1 t1 r1).
  - destruct I as [I|I].
    + apply (N4 _ (proj2 reports_places b allfalse r I)). rewrite XP. apply in_or_app. apply cases_outcome in R1. destruct R1 as [[_ [_ ->]]|[[b1 [-> R1]]|[b1 [Ib R1]]]]; [contradiction K| |].
      * right. apply (proj2 events_places b1 Oe e). exists tr, o. auto.
      * left. apply (case_places _ _ Ib). apply (proj2 events_places b1 (orderly_case _ _ Or Ib) e). exists tr, o. auto.
    + refine (IH _ d r _ Or Oe N3 I tr o e R1 K X). intros b1 Ib. apply HB. right. exact Ib.
Qed.
Lemma all_right : (forall s, S_right s) /\ (forall b, B_right b).
Proof using Type.
  apply prog_ind.
  1-4: intros _ l _ r I; contradiction I.
  - intros c b IH O l N r I tr o e H K. rewrite rs_while in I. inversion H; subst; try contradiction K. apply (one_body l b IH O N r e I). eapply loop_own; eassumption.
  - intros b c IH [T O] l N r I tr o e H K. rewrite rs_do in I. inversion H; subst; try contradiction K. match goal with K0 : Spec.run_do_while _ _ _ _ _ _ |- _ => apply (do_events _ _ _ _ _ K0) in K end.
    apply in_app_or in I. destruct I as [I|I].
    + apply (one_body l b IH O N r e I). destruct K as [K|[v [-> _]]]; [right; exact K|left; split; reflexivity].
    + destruct (terminates_loop (fb allfalse b)) eqn:Tl; [|contradiction I]. destruct I as [<- | []]. destruct (do_facts b (proj2 flow_ok b) T O Tl) as [Nd [S _]].
      destruct K as [K|[v [-> [o' [R G]]]]].
      * apply (own_body l b O N (NeverTested l) e); [split; reflexivity|exact K].
      * contradiction (not_on b Nd S o' R (or_intror G)).
  - intros a els IHa IHe [Oa Oe] l N r I tr o e H K X. rewrite rs_if in I. inversion H as [| | | | | |l1 a1 e1 tr1 o1 R| | | | | | | | | | | | | | | | |]; subst; try contradiction K.
    apply NoDup_cons_iff in N. destruct N as [_ N]. change (places (If a els)) with (places_arms a ++ places_else els) in N. pose proof (nodup_app _ _ _ N) as [_ [Ne Nd]]. pose proof (excludes_place _ _ X) as [XP _].
    apply in_app_or in I. destruct I as [I|I].
    + destruct (arms_right a alltrue false els r IHa Oa Oe N I) as [F0|F0]; [discriminate|]. exact (F0 tr o e R K X).
    + destruct els as [|b]; [contradiction I|]. apply (arms_events _ _ alltrue false _ _ _ R) in K.
      assert (P : In (rp_place r) (places_block b)).
      { apply in_app_or in I. destruct I as [I|I]; [|exact (proj2 reports_places b _ _ I)]. destruct b as [|l1 s1 rest1]; [contradiction I|]. destruct (snd (fst (visit_arms alltrue false a))); [|contradiction I]. destruct I as [<- | []]. left. reflexivity. }
      destruct K as [[l1 [c [b1 [Ib K]]]]|[b1 [E [K Al]]]].
      * apply (Nd (ev_place e)); [|rewrite <- XP; exact P]. apply (arm_places _ _ _ _ Ib). destruct K as [[v ->]|K]; [left; reflexivity|right]. exact (proj2 events_places b1 (orderly_arm _ _ _ _ Oa Ib) e K).
      * injection E as <-. rewrite Al in I. apply in_app_or in I. destruct I as [I|I]; [destruct b; contradiction I|]. exact (body_right b (IHe b eq_refl) Oe Ne r I e K X).
  - intros b IH O l N r I tr o e H K. rewrite rs_infinite in I. inversion H; subst; try contradiction K. apply (one_body l b IH O N r e I). eapply loop_own; eassumption.
  - intros i t n b IH [_ O] l N r I tr o e H K. rewrite rs_for in I. inversion H; subst; try contradiction K. match goal with K0 : Spec.run_loop _ _ _ _ _ _ _ |- _ => rename K0 into R end.
    apply in_app_or in I. destruct I as [I|I]; [|apply (one_body l b IH O N r e I); eapply loop_own; eassumption].
    intro X. apply (loop_events _ _ _ _ _ _ R) in K. unfold loop_check in I. destruct t as [c|]; [|contradiction I].
    assert (OR : own_report l r) by (destruct (is_truthy c) as [[]|]; try contradiction I; destruct I as [<- | []]; split; reflexivity).
    destruct K as [[v [-> K]]|[-> | K]].
    + change (truth c v) in K. destruct (is_truthy c) as [[]|] eqn:E; try contradiction I; destruct I as [<- | []]; pose proof (truthy _ _ _ E K); subst v; discriminate X.
    + destruct (is_truthy c) as [[]|]; try contradiction I; destruct I as [<- | []]; discriminate X.
    + exact (own_body l b O N r e OR K X).
  - intros b IH O l N r I tr o e H K. rewrite rs_each in I. inversion H; subst; try contradiction K. apply (one_body l b IH O N r e I). eapply loop_own; eassumption.
  - intros x y z b IH [G O] l N r I tr o e H K. apply rs_range in I. apply (range_events _ _ _ _ _ _ _ H) in K. destruct K as [En K]. destruct I as [I|[-> [i [j [Ei [Ej V]]]]]].
    + apply (one_body l b IH O N r e I). destruct K as [-> | [[v ->]|K]]; [left; split; reflexivity|left; split; reflexivity|right; exact K].
    + exfalso. destruct (G i j Ei Ej) as [-> [NZ _]]. destruct (En i j Ei Ej) as [En' _]. specialize (En' eq_refl). cbn [valid_for_range] in V.
      destruct ((i =? 0)%Z && (j =? 0)%Z) eqn:Z0; [|congruence]. apply NZ. apply andb_true_iff in Z0. destruct Z0 as [Z1 Z2]. apply Z.eqb_eq in Z1. apply Z.eqb_eq in Z2. auto.
  - intros b IH O l N r I tr o e H K. rewrite rs_spawn in I. inversion H; subst; try contradiction K. apply (one_body l b IH O N r e I). right. eexists _, _. eauto.
  - intros cs d IHc IHd [Oc Od] l N r I tr o e H K X. rewrite rs_switch in I. inversion H; subst; try contradiction K. match goal with K0 : Spec.run_cases _ _ _ _ _ |- _ => rename K0 into R end.
    apply NoDup_cons_iff in N. destruct N as [_ N]. change (places (Switch cs d)) with (places_cases cs ++ places_else d) in N. pose proof (nodup_app _ _ _ N) as [_ [Ne Nd]]. pose proof (excludes_place _ _ X) as [XP _].
    apply in_app_or in I. destruct I as [I|I]; [exact (cases_right cs alltrue d r IHc Oc Od N I tr o e R K X)|]. destruct d as [|b]; [contradiction I|].
    apply cases_outcome in R. destruct R as [[E _]|[[b1 [E R]]|[b1 [Ib R]]]]; [discriminate| |].
    + injection E as <-. refine (body_right b (IHd b eq_refl) Od Ne r I e _ X). exists tr, o. auto.
    + apply (Nd (ev_place e)); [|rewrite <- XP; exact (proj2 reports_places b _ _ I)]. apply (case_places _ _ Ib). apply (proj2 events_places b1 (orderly_case _ _ Oc Ib) e). exists tr, o. auto.
  - intros b1 b2 IH1 IH2 [O1 O2] l N r I tr o e H K X. rewrite rs_try in I. apply NoDup_cons_iff in N. destruct N as [_ N]. change (places (TryCatch b1 b2)) with (places_block b1 ++ places_block b2) in N. apply nodup_app in N. destruct N as [N1 [N2 Nd]].
    pose proof (excludes_place _ _ X) as [XP _].
    assert (Ev : happens b1 e \/ happens b2 e).
    { inversion H; subst; try contradiction K; [left; exists tr, o; auto|]. apply in_app_or in K. destruct K as [K|K]; [left|right]; eexists _, _; eauto. }
    apply in_app_or in I. destruct I as [I|I]; destruct Ev as [Ev|Ev].
    + exact (body_right b1 IH1 O1 N1 r I e Ev X).
    + apply (Nd _ (proj2 reports_places b1 _ _ I)). rewrite XP. exact (proj2 events_places b2 O2 e Ev).
    + apply (Nd _ (proj2 events_places b1 O1 e Ev)). rewrite <- XP. exact (proj2 reports_places b2 _ _ I).
    + exact (body_right b2 IH2 O2 N2 r I e Ev X).
  - intros x _ l _ r I. contradiction I.
  - intros x _ l _ r I. contradiction I.
  - intros x _ l _ r I. contradiction I.
  - intros x b IH O l N r I tr o e H K. rewrite rs_label in I. apply (one_body l b IH O N r e I). right. inversion H; subst; try contradiction K; eexists _, _; eauto.
  - intros _ _ t r I. contradiction I.
  - intros l s rest IHs IHr O N t r I. pose proof O as [Os Or]. rewrite rb_then in I. destruct (terminates t) eqn:Tt; [left; exact (terminates_flagged t Tt)|].
    change (places_block (Then l s rest)) with (((true, l) :: places s) ++ places_block rest) in N. apply nodup_app in N. destruct N as [N1 [N2 Nd]].
    apply in_app_or in I. destruct I as [I|I].
    + right. intros e [tr [o [H K]]] X. pose proof (excludes_place _ _ X) as [XP XS].
      assert (P : In (rp_place r) ((true, l) :: places s)) by (destruct (proj1 reports_places s l r I) as [[P _]|P]; [left; symmetry; exact P|right; exact P]).
      assert (NA : e <> At l).
      { intros ->. destruct (proj1 reports_places s l r I) as [[_ Q]|Q]; [cbn in XS; congruence|]. apply NoDup_cons_iff in N1. destruct N1 as [N1 _]. apply N1. cbn in XP. rewrite <- XP. exact Q. }
      apply (block_inv _ _ _ _ _ O) in H. destruct H as [[-> _]|[[tr1 [H [_ ->]]]|[tr1 [tr2 [H1 [H2 ->]]]]]]; [contradiction K| |].
      * destruct K as [K|K]; [congruence|]. exact (IHs Os l N1 r I tr1 o e H K X).
      * destruct K as [K|K]; [congruence|]. apply in_app_or in K. destruct K as [K|K]; [exact (IHs Os l N1 r I tr1 Done e H1 K X)|].
        apply (Nd _ P). rewrite XP. apply (proj2 events_places rest Or e). exists tr2, o. auto.
    + pose proof (proj2 reports_places rest _ _ I) as P.
      assert (Q : flagged t = true \/ (forall tr, ~ run l s tr Done) \/ forall e, happens rest e -> ~ excludes r e).
      { destruct (IHr Or N2 _ r I) as [Q|Q]; [|auto]. apply flagged_merge in Q. destruct Q as [Q|Q]; [auto|]. right. left. exact (proj1 (proj1 flow_ok s Os l) Q). }
      destruct Q as [Q|Q]; [left; exact Q|]. right. intros e [tr [o [H K]]] X. pose proof (excludes_place _ _ X) as [XP XS].
      assert (Out : forall tr1 o1, run l s tr1 o1 -> In e (At l :: tr1) -> False).
      { intros tr1 o1 R [E|E]; [apply (Nd (true, l)); [left; reflexivity|]; subst e; cbn in XP; rewrite <- XP; exact P|].
        apply (Nd (ev_place e)); [|rewrite <- XP; exact P]. destruct (proj1 events_places s Os l tr1 o1 e R E) as [[Q1 _]|Q1]; [left; symmetry; exact Q1|right; exact Q1]. }
      apply (block_inv _ _ _ _ _ O) in H. destruct H as [[-> _]|[[tr1 [H [_ ->]]]|[tr1 [tr2 [H1 [H2 ->]]]]]]; [contradiction K|exact (Out tr1 o H K)|].
      assert (Q' : forall e, happens rest e -> ~ excludes r e) by (destruct Q as [Q|Q]; [contradiction (Q tr1 H1)|exact Q]).
      destruct K as [K|K]; [exact (Out tr1 Done H1 (or_introl K))|]. apply in_app_or in K. destruct K as [K|K]; [exact (Out tr1 Done H1 (or_intror K))|].
      refine (Q' e _ X). exists tr2, o. auto.
Qed.
Lemma reports_right : forall b : block, NoDup (places_block b) -> orderly_block b -> forall r, In r (reports f_zero b) -> right f_zero b r.
Proof using Type.
  intros b N O r I tr o e H K. apply (body_right b (proj2 all_right b) O N r I). exists tr, o. auto.
Qed.

(** ** What is reported in any case *)
Lemma calm_sure : (forall s : stmt, orderly s -> ~ has true s -> ~ has false s -> forall l, fuzzy (fl l s) = false) /\
  (forall b : block, orderly_block b -> ~ has_block true b -> ~ has_block false b -> forall t, fuzzy t = false -> fuzzy (fb t b) = false).
Proof using Type.
  apply prog_ind.
  1-4: intros; reflexivity.
  - intros c b _ _ _ _ l. rewrite fl_while. reflexivity.
  - intros b c _ _ _ _ l. rewrite fl_do. destruct (terminates_loop (fb allfalse b)) eqn:T; [|reflexivity]. unfold terminates_loop in T. apply andb_true_iff in T. destruct T as [T _]. apply negb_true_iff in T. exact T.
  - intros a els IHa IHe [Oa Oe] H1 H2 l. rewrite fl_if.
    assert (A : forall t al, fuzzy t = false -> fuzzy (fa t al a) = false).
    { assert (Ha1 : ~ has_arms true a) by (intro K; apply H1; left; exact K). assert (Ha2 : ~ has_arms false a) by (intro K; apply H2; left; exact K). clear H1 H2 IHe Oe.
      induction a as [|l0 c0 b0 rest IH]; intros t al Ht; [exact Ht|]. destruct Oa as [Ob Or]. rewrite fa_arm. apply IH.
      - intros l1 c1 b1 K. apply (IHa l1 c1 b1). right. exact K.
      - exact Or.
      - intro K. apply Ha1. right. exact K.
      - intro K. apply Ha2. right. exact K.
      - destruct (known c0 false); [exact Ht|]. cbn [merge_false fuzzy]. rewrite Ht. apply (IHa l0 c0 b0 (or_introl eq_refl) Ob); [intro K; apply Ha1; left; exact K|intro K; apply Ha2; left; exact K|reflexivity]. }
    destruct els as [|b]; [exact (A alltrue false eq_refl)|]. unfold finalize. cbn [fuzzy]. destruct (_ || _); [reflexivity|]. cbn [merge_false fuzzy]. rewrite (A alltrue false eq_refl).
    apply (IHe b eq_refl Oe); [intro K; apply H1; right; exact K|intro K; apply H2; right; exact K|reflexivity].
  - intros b _ _ _ _ l. rewrite fl_infinite. reflexivity.
  - intros i t n b _ _ _ _ l. rewrite fl_for. reflexivity.
  - intros b _ _ _ _ l. rewrite fl_each. reflexivity.
  - intros x y z b IH [G O] _ _ l. destruct (fl_range l x y z b) as [-> | [-> [i [j [Ei [Ej V]]]]]]; [reflexivity|]. destruct (G i j Ei Ej) as [_ [_ [Q1 [Q2 _]]]]. apply IH; auto.
  - intros b _ _ _ _ l. rewrite fl_spawn. reflexivity.
  - intros cs d IHa IHe [Oa Oe] H1 H2 l. rewrite fl_switch.
    assert (A : forall t, fuzzy t = false -> fuzzy (fc t cs) = false).
    { assert (Ha1 : ~ has_cases true cs) by (intro K; apply H1; left; exact K). assert (Ha2 : ~ has_cases false cs) by (intro K; apply H2; left; exact K). clear H1 H2 IHe Oe.
      induction cs as [|b0 rest IH]; intros t Ht; [exact Ht|]. destruct Oa as [Ob Or]. rewrite fc_case. apply IH.
      - intros b1 K. apply (IHa b1). right. exact K.
      - exact Or.
      - intro K. apply Ha1. right. exact K.
      - intro K. apply Ha2. right. exact K.
      - cbn [merge_false fuzzy]. rewrite Ht. apply (IHa b0 (or_introl eq_refl) Ob); [intro K; apply Ha1; left; exact K|intro K; apply Ha2; left; exact K|reflexivity]. }
    destruct d as [|b]; [exact (A alltrue eq_refl)|]. unfold finalize. cbn [fuzzy]. destruct (_ || _); [reflexivity|]. cbn [merge_false fuzzy]. rewrite (A alltrue eq_refl).
    apply (IHe b eq_refl Oe); [intro K; apply H1; right; exact K|intro K; apply H2; right; exact K|reflexivity].
  - intros b1 b2 _ _ _ _ _ l. rewrite fl_try. reflexivity.
  - intros x _ _ H. contradiction (H eq_refl).
  - intros x _ H. contradiction (H eq_refl).
  - intros; reflexivity.
  - intros x b _ _ _ _ l. rewrite fl_label. reflexivity.
  - intros _ _ _ t H. exact H.
  - intros l s rest IHs IHr [Os Or] H1 H2 t Ht. rewrite fb_then. destruct (terminates t); [exact Ht|]. apply (IHr Or); [intro K; apply H1; right; exact K|intro K; apply H2; right; exact K|].
    cbn [merge fuzzy]. rewrite Ht. apply (IHs Os); [intro K; apply H1; left; exact K|intro K; apply H2; left; exact K].
Qed.
(** the state behind calm statements *)
Definition plain_state (t : flow) : Prop := continues t = false /\ breaks t = false /\ fuzzy t = false.
Lemma calm_merge : forall t l s, plain_state t -> calm f_zero s -> plain_state (merge t (fl l s)).
Proof using Type.
  intros t l s [H1 [H2 H3]] [O [N1 N2]]. destruct (proj1 flow_ok s O l) as [_ [P _]]. pose proof (P true N1) as P1. pose proof (P false N2) as P2. cbn in P1, P2.
  pose proof (proj1 calm_sure s O N1 N2 l) as Fz. unfold plain_state, merge; cbn. rewrite H1, H2, H3, P1, P2, Fz. auto.
Qed.
Lemma plain_terminates : forall t, plain_state t -> terminates t = returns t.
Proof using Type. intros t [H1 [H2 H3]]. unfold terminates. rewrite H1, H2, H3, !orb_false_r. reflexivity. Qed.
Lemma plain_merge : forall t o, plain_state t -> returns o = true -> fuzzy o = false -> terminates (merge t o) = true /\ returns (merge t o) = true.
Proof using Type. intros t o [H1 [H2 H3]] R Fz. unfold terminates, merge; cbn. rewrite H3, R, Fz, orb_true_r. auto. Qed.
Lemma fb_terminated : forall t b, terminates t = true -> fb t b = t.
Proof using Type. intros t [|l s rest] H; [reflexivity|]. rewrite fb_then, H. reflexivity. Qed.
Lemma surely_returns : (forall s : stmt, surely f_zero s -> forall l, returns (fl l s) = true) /\ (forall b : block, surely_block f_zero b -> forall t, plain_state t -> returns (fb t b) = true).
Proof using Type.
  apply prog_ind; try (intros; match goal with K : surely _ _ |- _ => contradiction K end).
  - intros _ l. reflexivity.
  - intros _ l. reflexivity.
  - intros a els IHa IHe [Sa Se] l. rewrite fl_if. destruct els as [|b]; [contradiction Se|]. cbn [finalize merge_false returns]. rewrite (IHe b eq_refl Se); [|repeat split]. rewrite andb_true_r.
    clear IHe Se. assert (K : returns alltrue = true) by reflexivity. revert K. generalize alltrue as t, false as al.
    induction a as [|l0 c0 b0 rest IH]; intros t al Ht; [exact Ht|]. destruct Sa as [Sb Sr]. rewrite fa_arm. apply IH; [intros l1 c1 b1 K; apply (IHa l1 c1 b1); right; exact K|exact Sr|].
    destruct (known c0 false); [exact Ht|]. cbn [merge_false returns]. rewrite Ht. apply (IHa l0 c0 b0 (or_introl eq_refl) Sb). repeat split.
  - intros cs d IHa IHe [Sa Se] l. rewrite fl_switch. destruct d as [|b]; [contradiction Se|]. cbn [finalize merge_false returns]. rewrite (IHe b eq_refl Se); [|repeat split]. rewrite andb_true_r.
    clear IHe Se. assert (K : returns alltrue = true) by reflexivity. revert K. generalize alltrue as t.
    induction cs as [|b0 rest IH]; intros t Ht; [exact Ht|]. destruct Sa as [Sb Sr]. rewrite fc_case. apply IH; [intros b1 K; apply (IHa b1); right; exact K|exact Sr|].
    cbn [merge_false returns]. rewrite Ht. apply (IHa b0 (or_introl eq_refl) Sb). repeat split.
  - intros H. contradiction H.
  - intros l s rest IHs IHr S t Ht. rewrite fb_then. destruct (terminates t) eqn:T; [rewrite plain_terminates in T; assumption|]. destruct S as [S|[C S]].
    + destruct (plain_merge t (fl l s) Ht (IHs S l) (proj1 returns_sure s l (IHs S l))) as [T2 R2]. rewrite fb_terminated; assumption.
    + apply (IHr S). apply calm_merge; assumption.
Qed.
Lemma direct : forall (pre : block) t l s l2 s2 post, plain_state t -> calm_block f_zero pre -> surely f_zero s ->
  exists l', In l' (tops pre ++ [l; l2]) /\ In (Unreachable l') (rb t (append pre (Then l s (Then l2 s2 post)))).
Proof using Type.
  fix IH 1. intros [|l0 s0 pre] t l s l2 s2 post Ht C S; cbn [append tops app]; rewrite rb_then.
  - destruct (terminates t) eqn:T; [exists l; cbn; auto|]. rewrite rb_then.
    destruct (plain_merge t (fl l s) Ht (proj1 surely_returns s S l) (proj1 returns_sure s l (proj1 surely_returns s S l))) as [T2 _]. rewrite T2. exists l2. split; [cbn; auto|apply in_or_app; right; left; reflexivity].
  - destruct C as [C1 C2]. destruct (terminates t) eqn:T; [exists l0; cbn; auto|]. destruct (IH pre (merge t (fl l0 s0)) l s l2 s2 post (calm_merge t l0 s0 Ht C1) C2 S) as [l' [I1 I2]].
    exists l'. split; [right; exact I1|apply in_or_app; right; exact I2].
Qed.
Lemma reports_direct : forall (pre : block) l s l2 s2 post, calm_block f_zero pre -> surely f_zero s ->
  exists l', In l' (tops pre ++ [l; l2]) /\ In (Unreachable l') (reports f_zero (append pre (Then l s (Then l2 s2 post)))).
Proof using Type. intros. apply (direct pre allfalse); auto. repeat split. Qed.
End PROOFS.
