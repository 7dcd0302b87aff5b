(** The walk that looks for impure procedures (C52). *)
From Coq Require Import List Arith NArith Bool String Lia Relations.
From Verif Require Import Common.Text Objtree.Model Objtree.Spec Checker.CallTree Checker.Spec Checker.SleepProofs.
Import ListNotations.
Open Scope nat_scope.

Definition getl {A : Type} (p : procref) (l : list (procref * list A)) : list A := match pr_get p l with Some v => v | None => [] end.
Lemma getl_push {A : Type} p (a : A) l q : getl q (pr_push p a l) = if pr_eqb p q then getl q l ++ [a] else getl q l.
Proof.
  unfold getl, pr_get. induction l as [|[r vs] l IH]; cbn [pr_push List.find fst snd].
  - destruct (pr_eqb p q); reflexivity.
  - destruct (pr_eqb_spec r p) as [->|N]; cbn [List.find fst snd]; [destruct (pr_eqb_spec p q) as [->|N2]; [reflexivity|reflexivity]|].
    destruct (pr_eqb_spec r q) as [->|N2]; cbn [fst snd]; [|exact IH]. destruct (pr_eqb_spec p q) as [->|N3]; [congruence|reflexivity].
Qed.
Lemma getl_pushes {A : Type} (a : A) ps : forall l q, NoDup ps -> getl q (fold_left (fun l p => pr_push p a l) ps l) = if pr_in q ps then getl q l ++ [a] else getl q l.
Proof.
  induction ps as [|p ps IH]; intros l q N; [reflexivity|]. inversion N as [|? ? N1 N2]; subst. cbn [fold_left]. rewrite (IH _ q N2), getl_push. change (pr_in q (p :: ps)) with (pr_eqb q p || pr_in q ps). destruct (pr_eqb_spec p q) as [->|Np].
  - destruct (pr_eqb_spec q q); [|congruence]. cbn [orb]. replace (pr_in q ps) with false by (symmetry; apply pr_in_false; exact N1). reflexivity.
  - destruct (pr_eqb_spec q p); [congruence|]. reflexivity.
Qed.

Section PURE.
Variables L X : Type.
Section PROPAGATE.
Variable f : facts L X.
Variable parents : procref -> list procref.
Definition blames (q c : procref) : bool := negb (text_eqb (snd (fst c)) (lit "New")) && match pr_get c (impure L X f) with Some _ => true | None => false end && pr_in q (parents c).
Lemma propagate_all : forall ps ovr q, (forall p, In p ps -> NoDup (parents p)) -> getl q (fold_left (propagate L X parents f) ps ovr) = getl q ovr ++ filter (blames q) ps.
Proof using Type.
  induction ps as [|p ps IH]; intros ovr q N; [cbn; rewrite app_nil_r; reflexivity|]. cbn [fold_left filter]. rewrite IH by (intros x Hx; apply N; right; exact Hx). unfold propagate at 1, blames at 2.
  destruct (text_eqb (snd (fst p)) (lit "New")); [reflexivity|]. destruct (pr_get p (impure L X f)); [|reflexivity]. rewrite (getl_pushes p (parents p) ovr q) by (apply N; left; reflexivity). cbn [negb andb]. destruct (pr_in q (parents p)); [rewrite <- app_assoc; reflexivity|reflexivity].
Qed.
End PROPAGATE.

Variable f : facts L X.
Variable sub : nat -> nat -> bool.
Hypothesis K : keyed f.
(** overrides on record are impure *)
Hypothesis OI : forall p c, In c (getl p (impure_overrides L X f)) -> exists what, is_impure f c what.
Lemma impure_get p what : is_impure f p what <-> pr_get p (impure L X f) = Some what.
Proof using K. unfold is_impure. symmetry. apply pr_get_iff. apply K. Qed.
Lemma impure_not p : (forall w, ~ is_impure f p w) <-> pr_get p (impure L X f) = None.
Proof using Type. unfold is_impure. rewrite pr_get_none. reflexivity. Qed.

Definition skips (root p c : procref) : bool := sub (pr_ty root) (pr_ty p) && negb (sub (pr_ty c) (pr_ty root)).
Lemma override_reports_ok root set_at p stack : forall children, (forall c, In c children -> exists what, is_impure f c what) ->
  exists l, override_reports L X f sub root set_at p stack children = Some l /\
    (forall r, In r l <-> exists c what, In c children /\ skips root p c = false /\ is_impure f c what /\ r = ImpureOverride L X root set_at p stack c what) /\
    (NoDup children -> NoDup (map about l)) /\ Forall (fun r => exists c, In c children /\ about r = (root, Some p, Some c)) l.
Proof using K.
  induction children as [|c cs IH]; intro H.
  - exists []. split; [reflexivity|]. split; [|split; [constructor|constructor]]. intro r. split; [intros []|intros (c & w & [] & _)].
  - destruct IH as (l & E & I & N & Fo); [intros x Hx; apply H; right; exact Hx|]. cbn [override_reports]. fold (skips root p c). destruct (skips root p c) eqn:Sk.
    + exists l. split; [exact E|]. split; [|split].
      * intro r. rewrite I. split; [intros (x & w & H1 & H2); exists x, w; split; [right; exact H1|exact H2]|]. intros (x & w & [<-|H1] & H2 & H3); [congruence|exists x, w; auto].
      * intro Nd. inversion Nd; subst. auto.
      * eapply Forall_impl; [|exact Fo]. intros r (x & Hx & Ex). exists x. split; [right; exact Hx|exact Ex].
    + destruct (H c (or_introl eq_refl)) as (what & Hw). pose proof Hw as Gw. apply impure_get in Gw. rewrite Gw, E. cbn [option_map]. eexists. split; [reflexivity|]. split; [|split].
      * intro r. cbn [In]. rewrite I. split.
        -- intros [<-|(x & w & H1 & H2)]; [exists c, what; split; [left; reflexivity|auto]|exists x, w; split; [right; exact H1|exact H2]].
        -- intros (x & w & [<-|H1] & H2 & H3 & ->); [left|right; exists x, w; auto]. apply impure_get in H3. congruence.
      * intro Nd. inversion Nd as [|? ? N1 N2]; subst. cbn [map about]. constructor; [|auto]. intro Q. apply in_map_iff in Q. destruct Q as (r & Er & Hr). rewrite Forall_forall in Fo. destruct (Fo r Hr) as (x & Hx & Ex). rewrite Er in Ex. injection Ex as ->. exact (N1 Hx).
      * constructor; [exists c; split; [left; reflexivity|reflexivity]|]. eapply Forall_impl; [|exact Fo]. intros r (x & Hx & Ex). exists x. split; [right; exact Hx|exact Ex].
Qed.
(** what is reported about one procedure *)
Definition mine (root : procref) (set_at : L) (p : procref) (stack : list (procref * L)) : option (list (purity L X)) :=
  match pr_get p (impure L X f) with
  | Some what => Some [ImpureCall L X root set_at p stack what]
  | None => override_reports L X f sub root set_at p stack (getl p (impure_overrides L X f))
  end.
Definition here (root : procref) (set_at : L) (p : procref) (stack : list (procref * L)) (r : purity L X) : Prop :=
  (exists what, is_impure f p what /\ r = ImpureCall L X root set_at p stack what) \/
  ((forall w, ~ is_impure f p w) /\ exists c what, In c (getl p (impure_overrides L X f)) /\ skips root p c = false /\ is_impure f c what /\ r = ImpureOverride L X root set_at p stack c what).
Lemma mine_ok root set_at p stack : exists l, mine root set_at p stack = Some l /\ (forall r, In r l <-> here root set_at p stack r) /\
  (NoDup (getl p (impure_overrides L X f)) -> NoDup (map about l)) /\ Forall (fun r => fst (about r) = (root, Some p)) l.
Proof using K OI.
  unfold mine, here. destruct (pr_get p (impure L X f)) as [what|] eqn:E.
  - apply impure_get in E. eexists. split; [reflexivity|]. split; [|split; [intros _; constructor; [intros []|constructor]|constructor; [reflexivity|constructor]]]. intro r. cbn [In]. split.
    + intros [<-|[]]. left. eauto.
    + intros [(w & Hw & ->)|[H _]]; [left; apply impure_get in E, Hw; congruence|destruct (H _ E)].
  - pose proof (proj2 (impure_not p) E) as E1. clear E. rename E1 into E. destruct (override_reports_ok root set_at p stack (getl p (impure_overrides L X f)) (OI p)) as (l & El & I & N & Fo). exists l. split; [exact El|]. split; [|split; [exact N|]].
    + intro r. rewrite I. split; [intro H; right; auto|]. intros [(w & Hw & _)|[_ H]]; [destruct (E w Hw)|exact H].
    + eapply Forall_impl; [|exact Fo]. intros r (c & _ & Er). rewrite Er. reflexivity.
Qed.
Notation pwalk := (pure_walk L X f sub).
Lemma pwalk_S fuel root set_at visited p stack queue out : pwalk (S fuel) root set_at visited ((p, stack) :: queue) out =
  if pr_in p visited then pwalk fuel root set_at visited queue out
  else match mine root set_at p stack with
       | None => Panicked _
       | Some m => pwalk fuel root set_at (p :: visited) (queue ++ queue_pure L X f (fun _ => set_at) stack p) (out ++ m)
       end.
Proof using Type.
  cbn [pure_walk]. destruct (pr_in p visited); [reflexivity|]. unfold mine, getl. destruct (pr_get p (impure L X f)); [reflexivity|]. destruct (pr_get p (impure_overrides L X f)); reflexivity.
Qed.

Section WALK.
Variable U : list procref.
Hypothesis CU : forall p e, calls f p e -> In (e_proc L e) U.
Variables (root : procref) (set_at : L).
Definition good (i : procref * list (procref * L)) : Prop := exists real, started f root real (fst i) /\ snd i = shown set_at real.
Lemma started_more real p : started f root real p -> real <> [].
Proof using Type. destruct 1; [discriminate|]. intro Q. apply app_eq_nil in Q. destruct Q; discriminate. Qed.
Lemma good_next p stack : good (p, stack) -> Forall good (queue_pure L X f (fun _ => set_at) stack p).
Proof using K.
  intros (real & R & E). cbn [fst snd] in *. apply Forall_forall. intros i Hi. unfold queue_pure in Hi. apply in_map_iff in Hi. destruct Hi as (e & <- & He). apply (calls_iff _ _ f K) in He.
  exists (real ++ [(e_proc L e, e_loc L e)]). cbn [fst snd]. split; [apply started_call with (p := p); assumption|]. pose proof (started_more real p R) as N. destruct real as [|x real]; [congruence|]. rewrite E. cbn [shown app]. rewrite map_app. reflexivity.
Qed.
Lemma good_first : Forall good (queue_pure L X f (e_loc L) [] root).
Proof using K.
  apply Forall_forall. intros i Hi. unfold queue_pure in Hi. apply in_map_iff in Hi. destruct Hi as (e & <- & He). apply (calls_iff _ _ f K) in He. exists [(e_proc L e, e_loc L e)]. cbn [fst snd app shown map]. split; [apply started_first; exact He|reflexivity].
Qed.
(** what is visited: [vs], each with the calls that lead there *)
Lemma pwalk_ends : forall n visited queue, unvisited U visited <= n -> (forall i, In i queue -> In (fst i) U) -> Forall good queue ->
  (forall p e, In p visited -> calls f p e -> In (e_proc L e) visited \/ In (e_proc L e) (map fst queue)) ->
  exists F vs, NoDup (map fst vs) /\ (forall i, In i vs -> ~ In (fst i) visited /\ good i) /\ (forall p, In p (map fst queue) -> In p (map fst vs) \/ In p visited) /\
    (forall p e, In p (map fst vs) \/ In p visited -> calls f p e -> In (e_proc L e) (map fst vs) \/ In (e_proc L e) visited) /\
    exists ms, Forall2 (fun i m => mine root set_at (fst i) (snd i) = Some m) vs ms /\ forall fuel out, F <= fuel -> pwalk fuel root set_at visited queue out = Ended _ (out ++ List.concat ms).
Proof using K OI CU.
  induction n as [n IHn] using lt_wf_ind. intros visited queue. revert visited. induction queue as [|[p stack] queue IHq]; intros visited Hn Hq Gq Cl.
  - exists 1, []. split; [constructor|]. split; [intros i []|]. split; [intros p []|]. split.
    + intros p e [[]|Hp] He. destruct (Cl p e Hp He) as [H|[]]. right. exact H.
    + exists []. split; [constructor|]. intros [|fuel] out Hf; [lia|]. cbn. rewrite app_nil_r. reflexivity.
  - assert (Hqq : forall i, In i queue -> In (fst i) U) by (intros; apply Hq; right; assumption). assert (Hp : In p U) by (apply (Hq (p, stack)); left; reflexivity). inversion Gq as [|? ? G1 G2]; subst.
    destruct (pr_in p visited) eqn:Vp.
    + pose proof Vp as Vp'. apply pr_in_iff in Vp'. destruct (IHq visited Hn Hqq G2) as (F & vs & A1 & A2 & A3 & A4 & ms & A5 & A6).
      * intros q e Hx He. destruct (Cl q e Hx He) as [H|[H|H]]; [left; exact H|left; cbn [fst] in H; congruence|right; exact H].
      * exists (S F), vs. split; [exact A1|]. split; [exact A2|]. split; [intros q [<-|Hx]; [right; exact Vp'|auto]|]. split; [exact A4|]. exists ms. split; [exact A5|]. intros [|fuel] out Hf; [lia|]. rewrite pwalk_S, Vp. apply A6. lia.
    + pose proof Vp as Vp'. apply pr_in_false in Vp'. pose proof (unvisited_less U visited p Hp Vp') as Less. destruct (mine_ok root set_at p stack) as (m & Em & _). pose proof (good_next p stack G1) as Gn.
      destruct (IHn (unvisited U (p :: visited)) ltac:(lia) (p :: visited) (queue ++ queue_pure L X f (fun _ => set_at) stack p) (le_n _)) as (F & vs & A1 & A2 & A3 & A4 & ms & A5 & A6).
      * intros i Hi. apply in_app_or in Hi. destruct Hi as [Hi|Hi]; [auto|]. unfold queue_pure in Hi. apply in_map_iff in Hi. destruct Hi as (e & <- & He). apply (calls_iff _ _ f K) in He. exact (CU p e He).
      * apply Forall_app. auto.
      * intros q e [<-|Hx] He; rewrite map_app, in_app_iff.
        -- right. right. apply in_map_iff. apply (calls_iff _ _ f K) in He. eexists. split; [|unfold queue_pure; apply in_map; exact He]. reflexivity.
        -- destruct (Cl q e Hx He) as [H|[H|H]]; [left; right; exact H|left; left; exact H|right; left; exact H].
      * exists (S F), ((p, stack) :: vs). cbn [map fst]. split; [|split; [|split; [|split]]].
        -- constructor; [|exact A1]. intro Q. apply in_map_iff in Q. destruct Q as (i & Ei & Hi). destruct (A2 i Hi) as [Q _]. apply Q. left. symmetry. exact Ei.
        -- intros i [<-|Hi]; [split; [exact Vp'|exact G1]|]. destruct (A2 i Hi) as [H1 H2]. split; [intro Q; apply H1; right; exact Q|exact H2].
        -- intros q [<-|Hx]; [left; left; reflexivity|]. destruct (A3 q) as [H|[H|H]]; [rewrite map_app; apply in_or_app; left; exact Hx|left; right; exact H|left; left; exact H|right; exact H].
        -- intros q e Hx He. destruct (A4 q e) as [H|[H|H]]; [|exact He|left; right; exact H|left; left; exact H|right; exact H]. destruct Hx as [[<-|Hx]|Hx]; [right; left; reflexivity|left; exact Hx|right; right; exact Hx].
        -- exists (m :: ms). split; [constructor; [exact Em|exact A5]|]. intros [|fuel] out Hf; [lia|]. rewrite pwalk_S, Vp, Em, A6 by lia. cbn [List.concat]. rewrite app_assoc. reflexivity.
Qed.
(** everything about one procedure with the directive *)
Lemma pwalk_root : exists F l, (forall fuel out, F <= fuel -> pwalk fuel root set_at [] (queue_pure L X f (e_loc L) [] root) out = Ended _ (out ++ l)) /\
  (forall r, In r l -> exists p real, started f root real p /\ here root set_at p (shown set_at real) r) /\
  (forall p real, started f root real p -> exists real', started f root real' p /\ forall r, here root set_at p (shown set_at real') r -> In r l) /\
  ((forall p, NoDup (getl p (impure_overrides L X f))) -> NoDup (map about l)) /\ Forall (fun r => fst (fst (about r)) = root /\ snd (fst (about r)) <> None) l.
Proof using K OI CU.
  destruct (pwalk_ends (unvisited U []) [] (queue_pure L X f (e_loc L) [] root) (le_n _)) as (F & vs & A1 & A2 & A3 & A4 & ms & A5 & A6).
  - intros i Hi. unfold queue_pure in Hi. apply in_map_iff in Hi. destruct Hi as (e & <- & He). apply (calls_iff _ _ f K) in He. exact (CU root e He).
  - exact good_first.
  - intros p e [].
  - exists F, (List.concat ms). split; [exact A6|].
    assert (B : forall r, In r (List.concat ms) <-> exists i, In i vs /\ here root set_at (fst i) (snd i) r).
    { intro r. clear - A5 K OI. induction A5 as [|i m vs ms E A5 IH]; [cbn; split; [intros []|intros (i & [] & _)]|]. cbn [List.concat]. rewrite in_app_iff, IH. destruct (mine_ok root set_at (fst i) (snd i)) as (m' & E' & I & _). rewrite E in E'. injection E' as <-. rewrite I. split.
      - intros [H|(j & Hj & H)]; [exists i; split; [left; reflexivity|exact H]|exists j; split; [right; exact Hj|exact H]].
      - intros (j & [<-|Hj] & H); [left; exact H|right; eauto]. }
    split; [|split; [|split]].
    + intros r Hr. apply B in Hr. destruct Hr as (i & Hi & H). destruct (A2 i Hi) as [_ (real & R & E)]. exists (fst i), real. rewrite <- E. auto.
    + intros p real R. assert (Hp : In p (map fst vs)).
      { induction R as [e He|stack p e R IH He].
        - destruct (A3 (e_proc L e)) as [H|[]]; [|exact H]. apply in_map_iff. apply (calls_iff _ _ f K) in He. eexists. split; [|unfold queue_pure; apply in_map; exact He]. reflexivity.
        - destruct (A4 p e (or_introl IH) He) as [H|[]]. exact H. }
      apply in_map_iff in Hp. destruct Hp as (i & <- & Hi). destruct (A2 i Hi) as [_ (real' & R' & E)]. exists real'. split; [exact R'|]. intros r H. apply B. exists i. rewrite E. auto.
    + intro ND. clear - A1 A5 ND K OI. induction A5 as [|i m vs ms E A5 IH]; [constructor|]. cbn [map] in A1. inversion A1 as [|? ? N1 N2]; subst. specialize (IH N2). cbn [List.concat]. rewrite map_app.
      destruct (mine_ok root set_at (fst i) (snd i)) as (m' & E' & _ & Nm & Fm). rewrite E in E'. injection E' as <-. specialize (Nm (ND _)).
      assert (Dj : forall x, In x (map about m) -> ~ In x (map about (List.concat ms))).
      { intros x Hx Q. apply in_map_iff in Hx. destruct Hx as (r & <- & Hr). rewrite Forall_forall in Fm. pose proof (Fm r Hr) as Er. apply in_map_iff in Q. destruct Q as (r' & Er' & Hr'). rewrite <- Er' in Er. clear - A5 Er Hr' N1 K OI.
        apply N1. induction A5 as [|j m' vs ms E A5 IH]; [destruct Hr'|]. cbn [List.concat map] in *. apply in_app_or in Hr'. destruct Hr' as [H|H]; [left|right; apply IH; [intro Q; apply N1; right; exact Q|exact H]].
        destruct (mine_ok root set_at (fst j) (snd j)) as (m2 & E2 & _ & _ & F2). rewrite E in E2. injection E2 as <-. rewrite Forall_forall in F2. rewrite (F2 r' H) in Er. congruence. }
      revert Dj Nm. generalize (map about m) as a. induction a as [|x a IHa]; [intros; exact IH|]. intros Dj S. inversion S as [|? ? S1 S2]; subst. cbn [app]. constructor; [|apply IHa; [intros y Hy; apply Dj; right; exact Hy|exact S2]].
      intro Q. apply in_app_or in Q. destruct Q as [Q|Q]; [exact (S1 Q)|]. exact (Dj x (or_introl eq_refl) Q).
    + apply Forall_forall. intros r Hr. apply B in Hr. destruct Hr as (i & _ & [(w & _ & ->)|(_ & c & w & _ & _ & _ & ->)]); cbn; split; congruence.
Qed.
End WALK.
End PURE.
