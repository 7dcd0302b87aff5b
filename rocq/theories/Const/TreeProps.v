(** C47: the constants of the object tree. *)
From Coq Require Import List NArith ZArith Bool String Lia Wf_nat.
From Verif Require Import Common.Text Parse.Ast Const.Model Const.Related Const.Tree Const.TreeSpec Const.TreeProofs.
Import ListNotations.
Open Scope nat_scope.

Section PROPS.
Variable F : Type.
Variable fl : f32 F.
Variable T : tree F.
Variable navigate : nat -> list (pathop * text) -> option (list text).
Variable proc_of : nat -> text -> option (list text).
Variable file_exists : option (text -> option bool).
Variable rgb : arguments_t F -> option text.
Notation constant := (constant F).
Notation cells := (cells F).
Notation var_of := (var_of F T).
Notation parent_of := (parent_of F T).
Notation owner := (owner F T).
Notation declared := (declared F T).
Notation get_decl := (get_decl F T).
Notation value := (value F fl T navigate proc_of file_exists rgb).
Notation given := (given F T navigate proc_of file_exists rgb).
Notation lookup := (lookup F fl T navigate proc_of file_exists rgb).
Notation climb := (climb F).
Notation store := (store F).
Notation env_at := (env_at F T navigate proc_of file_exists rgb).
Notation slots := (slots F T).
Notation wanted := (wanted F T).
Notation take_turns := (take_turns F fl T navigate proc_of file_exists rgb).
Notation evaluate_all := (evaluate_all F fl T navigate proc_of file_exists rgb).
Notation initial := (initial F T).
Notation kept := (kept F fl T navigate proc_of file_exists rgb).
Notation settled := (settled F fl T navigate proc_of file_exists rgb).
Notation ext := (ext F).
Notation known_in := (known_in F T).
Notation look f := (fun ty' i' m => climb (S (List.length T)) (fun p => lookup f p i' m) ty').

(** ** A variable whose evaluation failed stays as it is *)
Definition dead (ty : nat) (i : text) (s : cells) : Prop := fst (s ty i) = None /\ snd (s ty i) = true.
Definition stays (ty : nat) (i : text) (A : Type) (s1 : cells) (s2 : unit) (x : eres cells A) (y : eres unit A) : Prop :=
  match x with EOk _ s' | EErr _ s' => dead ty i s' | EStuck => True end.
Lemma ev_stays ty0 i0 f ty e hint s : (forall ty i m s, dead ty0 i0 s -> match lookup f ty i m s with EOk _ s' | EErr _ s' => dead ty0 i0 s' | EStuck => True end) ->
  dead ty0 i0 s -> match ev_expr F fl (env_at (look f) ty) e hint s with EOk _ s' | EErr _ s' => dead ty0 i0 s' | EStuck => True end.
Proof using Type.
  intros Hf Hs. change (stays ty0 i0 _ s tt (ev_expr F fl (env_at (look f) ty) e hint s) (ev_expr F fl (given (fun _ _ _ => None) ty) e hint tt)).
  apply (ev_related F fl _ _ false (env_at (look f) ty) (given (fun _ _ _ => None) ty) (fun s1 _ => dead ty0 i0 s1) (stays ty0 i0)); try reflexivity; try discriminate; [..|exact Hs].
  - intros B a s1 [] H. exact H.
  - intros B s1 s2 H. exact H.
  - intros B C s1 s2 x y k1 k2 _ Hx Hk. unfold stays in *. destruct x as [a t1|e1 t1|]; cbn [ebind]; [|exact Hx|exact I]. exact (Hk a t1 tt Hx).
  - unfold TreeSpec.given, Tree.env_at. cbn [e_tree]. constructor; try reflexivity. intros ty' i m s1 s2 _ H1. cbn [t_lookup]. unfold stays.
    destruct (climb (S (List.length T)) (fun p => lookup f p i m) ty' s1) as [c s'|e' s'|] eqn:E; [| |exact I].
    + destruct (climb_found _ _ _ _ _ _ _ _ _ _ _ _ _ _ _ E) as (o & Ho & Hl). pose proof (Hf o i m s1 H1) as K. rewrite Hl in K. exact K.
    + destruct (climb_err _ _ _ _ _ _ _ _ _ _ _ _ _ _ _ E) as [(o & Ho & Hl)|[-> _]]; [|exact H1]. pose proof (Hf o i m s1 H1) as K. rewrite Hl in K. exact K.
Qed.
Lemma lookup_dead ty0 i0 v0 e0 f : var_of ty0 i0 = Some v0 -> v_expr v0 = Some e0 -> forall ty i m s, dead ty0 i0 s ->
  match lookup f ty i m s with EOk _ s' | EErr _ s' => dead ty0 i0 s' | EStuck => True end.
Proof using Type.
  intros Hv0 He0. induction f as [|f IH]; intros ty i m s Hs; [exact I|]. cbn [Tree.lookup]. destruct (get_decl ty i) as [[d|]|]; [|exact Hs|exact I].
  destruct (var_of ty i) as [v|] eqn:Ev; [|exact Hs]. destruct (fst (s ty i)) as [c|] eqn:Ec; [exact Hs|].
  assert (K : forall x t, ~ (ty0 = ty /\ i0 = i) -> dead ty0 i0 t -> dead ty0 i0 (store t ty i x)) by (intros x t N Ht; unfold dead in *; rewrite store_other by exact N; exact Ht).
  destruct (v_expr v) as [e|] eqn:Ee.
  - destruct (snd (s ty i)) eqn:Eb; [exact Hs|]. destruct (negb (evaluable d)); [exact Hs|]. destruct (negb (d_const d) && m); [exact Hs|].
    assert (N : ~ (ty0 = ty /\ i0 = i)) by (intros [-> ->]; destruct Hs; congruence).
    pose proof (ev_stays ty0 i0 f ty e (hint_of d) (store s ty i (None, true)) IH (K _ _ N Hs)) as H.
    destruct (ev_expr F fl (env_at (look f) ty) e (hint_of d) (store s ty i (None, true))) as [c1 s1|x s1|]; [|exact H|exact I]. apply K; assumption.
  - apply K; [|exact Hs]. intros [-> ->]. congruence.
Qed.

(** ** Stored constants fit together *)
Definition fitting (s : cells) : Prop := forall ty i v d e c, var_of ty i = Some v -> declared ty i d -> v_const v = None -> v_expr v = Some e -> fst (s ty i) = Some c ->
  ev_expr F fl (given (known_in s) ty) e (hint_of d) tt = EOk c tt.
Definition at_least (A : Type) (s1 s2 : unit) (x y : eres unit A) : Prop := match x with EOk a _ => y = EOk a tt | _ => True end.
Lemma given_mono ff k1 k2 ty e hint c : (ff = true -> no_field F e = true) -> (forall ty' i m a, (ff = true -> m = false) -> k1 ty' i m = Some a -> k2 ty' i m = Some a) ->
  ev_expr F fl (given k1 ty) e hint tt = EOk c tt -> ev_expr F fl (given k2 ty) e hint tt = EOk c tt.
Proof using Type.
  intros Hff Hk E. assert (H : at_least _ tt tt (ev_expr F fl (given k1 ty) e hint tt) (ev_expr F fl (given k2 ty) e hint tt)).
  { apply (ev_related F fl unit unit ff (given k1 ty) (given k2 ty) (fun _ _ => True) at_least).
    - intros A a [] [] _. reflexivity.
    - intros A s1 s2 _. exact I.
    - intros A B s1 s2 x y f1 f2 _ Hxy H. unfold at_least in *. destruct x as [a t1|e1 t1|]; cbn [ebind]; [|exact I|exact I]. subst y. cbn [ebind]. exact (H a t1 tt I).
    - cbn. constructor; try reflexivity. intros ty' i m [] [] Hm _. cbn. unfold at_least, lift. destruct (k1 ty' i m) as [a|] eqn:Q1; [|exact I]. rewrite (Hk _ _ _ _ Hm Q1). reflexivity.
    - reflexivity.
    - reflexivity.
    - reflexivity.
    - exact Hff.
    - exact I. }
  rewrite E in H. exact H.
Qed.
Lemma known_ext s s' ty i m c : ext s s' -> known_in s ty i m = Some c -> known_in s' ty i m = Some c.
Proof using Type.
  intro H. unfold TreeProofs.known_in. destruct (own_walk F T (S (List.length T)) ty i) as [o|]; [|discriminate]. destruct (get_decl o i) as [[d|]|]; try discriminate. apply H.
Qed.
Definition fits_at (f : nat) : Prop := forall ty i m s, kept s -> fitting s -> match lookup f ty i m s with EOk _ s' | EErr _ s' => fitting s' | EStuck => True end.
Definition fits_on (A : Type) (s1 : cells) (s2 : unit) (x : eres cells A) (y : eres unit A) : Prop :=
  match x with EOk _ s' | EErr _ s' => kept s' /\ fitting s' | EStuck => True end.
Lemma ev_fits f ty e hint s : fits_at f -> kept s -> fitting s -> match ev_expr F fl (env_at (look f) ty) e hint s with EOk _ s' | EErr _ s' => fitting s' | EStuck => True end.
Proof using Type.
  intros Hf Hk Hs. assert (H : fits_on _ s tt (ev_expr F fl (env_at (look f) ty) e hint s) (ev_expr F fl (given (fun _ _ _ => None) ty) e hint tt)).
  { apply (ev_related F fl _ _ false (env_at (look f) ty) (given (fun _ _ _ => None) ty) (fun s1 _ => kept s1 /\ fitting s1) fits_on); try reflexivity; try discriminate; [..|split; assumption].
    - intros B a s1 [] H. exact H.
    - intros B s1 s2 H. exact H.
    - intros B C s1 s2 x y k1 k2 _ Hx Hk'. unfold fits_on in *. destruct x as [a t1|e1 t1|]; cbn [ebind]; [|exact Hx|exact I]. exact (Hk' a t1 tt Hx).
    - unfold TreeSpec.given, Tree.env_at. cbn [e_tree]. constructor; try reflexivity. intros ty' i m s1 s2 _ [H1 H2]. cbn [t_lookup]. unfold fits_on.
      destruct (climb (S (List.length T)) (fun p => lookup f p i m) ty' s1) as [c s'|e' s'|] eqn:E; [| |exact I].
      + destruct (climb_found _ _ _ _ _ _ _ _ _ _ _ _ _ _ _ E) as (o & Ho & Hl). pose proof (Hf o i m s1 H1 H2) as K. pose proof (sound F fl T navigate proc_of file_exists rgb f o i m s1 H1) as K'. rewrite Hl in K, K'. split; [apply K'|exact K].
      + destruct (climb_err _ _ _ _ _ _ _ _ _ _ _ _ _ _ _ E) as [(o & Ho & Hl)|[-> _]]; [|split; assumption].
        pose proof (Hf o i m s1 H1 H2) as K. pose proof (sound F fl T navigate proc_of file_exists rgb f o i m s1 H1) as K'. rewrite Hl in K, K'. split; [apply K'|exact K]. }
  unfold fits_on in H. destruct (ev_expr F fl (env_at (look f) ty) e hint s); [apply H|apply H|exact I].
Qed.
Lemma fits f : fits_at f.
Proof using Type.
  induction f as [|f IH]; intros ty i m s Hk Hs; [exact I|]. pose proof (sound F fl T navigate proc_of file_exists rgb (S f) ty i m s Hk) as HS. cbn [Tree.lookup] in HS |- *.
  destruct (get_decl ty i) as [[d|]|] eqn:Ed; [|exact Hs|exact I]. pose proof (walk_some _ _ _ _ _ _ Ed) as Hd.
  destruct (var_of ty i) as [v|] eqn:Ev; [|exact Hs]. destruct (fst (s ty i)) as [c|] eqn:Ec; [exact Hs|]. destruct (v_expr v) as [e|] eqn:Ee.
  - destruct (snd (s ty i)); [exact Hs|]. destruct (negb (evaluable d)); [exact Hs|]. destruct (negb (d_const d) && m); [exact Hs|].
    pose proof (kept_mark F fl T navigate proc_of file_exists rgb s ty i Ec Hk) as Hk1.
    assert (Hs1 : fitting (store s ty i (None, true))).
    { intros ty' i' v' d' e' c' Q1 Q2 Q3 Q4 Q5. destruct (same_slot ty ty' i i') as [[-> ->]|N]; [rewrite store_same in Q5; discriminate|]. rewrite store_other in Q5 by exact N.
      pose proof (Hs _ _ _ _ _ _ Q1 Q2 Q3 Q4 Q5) as R. refine (given_mono false _ _ _ _ _ _ _ _ R); [discriminate|]. intros ty2 i2 m2 a _. apply known_ext. apply ext_mark. exact Ec. }
    pose proof (ev_fits f ty e (hint_of d) _ IH Hk1 Hs1) as K.
    pose proof (fun sf => ev_tracks F fl T navigate proc_of file_exists rgb f sf ty e (hint_of d) _ (sound _ _ _ _ _ _ _ f) Hk1) as H.
    destruct (ev_expr F fl (env_at (look f) ty) e (hint_of d) (store s ty i (None, true))) as [c1 s1|x s1|] eqn:Ex; [|exact K|exact I].
    destruct (H s1) as (H1 & H2 & H3). specialize (H3 (ext_refl _ _)). destruct HS as (HS1 & _ & _).
    assert (Hst : forall c', fst (s1 ty i) = Some c' -> c1 = c').
    { intros c' Q. destruct (kept_value _ _ _ _ _ _ _ _ H1 _ _ _ Q) as [n1 V1]. destruct (kept_value _ _ _ _ _ _ _ _ HS1 ty i c1) as [n2 V2]; [rewrite store_same; reflexivity|].
      exact (value_fun _ _ _ _ _ _ _ false _ _ _ _ _ _ (V2 d Hd) (V1 d Hd)). }
    assert (Hx : ext s1 (store s1 ty i (Some c1, false))) by (apply ext_store; exact Hst).
    intros ty' i' v' d' e' c' Q1 Q2 Q3 Q4 Q5. refine (given_mono false (known_in s1) _ _ _ _ _ _ _ _); [discriminate|intros ty2 i2 m2 a _; apply known_ext; exact Hx|].
    destruct (same_slot ty ty' i i') as [[-> ->]|N].
    + rewrite store_same in Q5. injection Q5 as <-. rewrite Ev in Q1. injection Q1 as <-. rewrite Ee in Q4. injection Q4 as <-. rewrite (declared_fun _ _ _ _ _ Q2 _ Hd). exact H3.
    + rewrite store_other in Q5 by exact N. exact (K _ _ _ _ _ _ Q1 Q2 Q3 Q4 Q5).
  - assert (Hx : ext s (store s ty i (Some (CNull (Some (d_path d))), snd (s ty i)))) by (apply ext_store; congruence).
    intros ty' i' v' d' e' c' Q1 Q2 Q3 Q4 Q5. refine (given_mono false (known_in s) _ _ _ _ _ _ _ _); [discriminate|intros ty2 i2 m2 a _; apply known_ext; exact Hx|].
    destruct (same_slot ty ty' i i') as [[-> ->]|N]; [congruence|]. rewrite store_other in Q5 by exact N. exact (Hs _ _ _ _ _ _ Q1 Q2 Q3 Q4 Q5).
Qed.

(** ** Turns *)
Definition nobody : nat -> text -> Prop := fun _ _ => False.
Lemma nothing_nobody n : nothing F fl T navigate proc_of file_exists rgb nobody n. Proof using Type. intros a j []. Qed.
Lemma initial_kept : kept initial.
Proof using Type.
  constructor.
  - intros ty i c H. exists 1. intros d Hd. unfold Tree.initial in H. cbn [fst] in H. destruct (var_of ty i) as [v|] eqn:Ev; [|discriminate]. exists v, d. split; [exact Ev|]. split; [exact Hd|]. rewrite H. reflexivity.
  - intros ty i v c Hv Hc. unfold Tree.initial. cbn [fst]. rewrite Hv. exact Hc.
  - intros ty i c H. unfold Tree.initial in H. cbn [fst] in H. destruct (var_of ty i) as [v|] eqn:Ev; [eauto|discriminate].
Qed.
Lemma initial_settled : settled nobody initial.
Proof using Type. split; [exact initial_kept|]. intros ty i [Q _]. discriminate. Qed.
Lemma initial_fitting : fitting initial.
Proof using Type. intros ty i v d e c Hv _ Hc _ Q. unfold Tree.initial in Q. cbn [fst] in Q. rewrite Hv in Q. congruence. Qed.
Lemma wanted_true ty i d : declared ty i d -> wanted ty i = Some true -> evaluable d = true.
Proof using Type.
  intros Hd. unfold Tree.wanted. destruct (get_decl_declared _ _ _ _ _ Hd) as [E|E]; rewrite E; [discriminate|]. intro Q. injection Q as Q. apply andb_true_iff in Q. apply Q.
Qed.
(** what a failed turn leaves *)
Lemma own_error f ty i s e s' : kept s -> wanted ty i = Some true -> lookup f ty i false s = EErr e s' -> exists v x, var_of ty i = Some v /\ v_expr v = Some x /\ dead ty i s'.
Proof using Type.
  intros Hk Hw. destruct f as [|f]; [discriminate|]. cbn [Tree.lookup]. destruct (get_decl ty i) as [[d|]|] eqn:Ed; try discriminate. pose proof (walk_some _ _ _ _ _ _ Ed) as Hd.
  destruct (var_of ty i) as [v|] eqn:Ev; [|discriminate]. destruct (fst (s ty i)) as [c|] eqn:Ec; [discriminate|]. destruct (v_expr v) as [x|] eqn:Ee; [|discriminate].
  rewrite (wanted_true _ _ _ Hd Hw). cbn [negb]. rewrite andb_false_r. destruct (snd (s ty i)) eqn:Eb.
  - intro Q. injection Q as <- <-. exists v, x. repeat split; assumption.
  - pose proof (ev_stays ty i f ty x (hint_of d) (store s ty i (None, true)) (lookup_dead ty i v x f Ev Ee)) as K. unfold dead in K at 1. rewrite store_same in K. specialize (K (conj eq_refl eq_refl)).
    destruct (ev_expr F fl (env_at (look f) ty) x (hint_of d) (store s ty i (None, true))) as [c1 s1|y s1|]; try discriminate. intro Q. injection Q as <- <-. exists v, x. auto.
Qed.
Lemma turns f : forall order out s out' s', take_turns f order out s = Some (out', s') -> settled nobody s -> fitting s ->
  exists more, out' = out ++ more /\ settled nobody s' /\ fitting s' /\ ext s s' /\
    (forall ty i v x, var_of ty i = Some v -> v_expr v = Some x -> dead ty i s -> dead ty i s') /\
    (forall ty i e d, declared ty i d -> In (ty, i, e) more -> fst (s' ty i) = None) /\
    (forall ty i e, In (ty, i, e) more -> In (ty, i) order /\ wanted ty i = Some true) /\
    (forall ty i, In (ty, i) order -> wanted ty i = Some true -> (exists c, fst (s' ty i) = Some c) \/ exists e, In (ty, i, e) more) /\
    (forall ty i n c, In (ty, i) order -> wanted ty i = Some true -> value true n ty i c -> fst (s' ty i) = Some c).
Proof using Type.
  induction order as [|[ty i] order IH]; intros out s out' s' E Hs Hf; cbn [Tree.take_turns] in E.
  - injection E as <- <-. exists []. rewrite app_nil_r. split; [reflexivity|]. split; [exact Hs|]. split; [exact Hf|]. split; [apply ext_refl|]. split; [auto|]. split; [intros ty i e d _ []|]. split; [intros ty i e []|]. split; [intros ty i []|intros ty i n c []].
  - destruct (wanted ty i) as [[|]|] eqn:Ew; [| |discriminate].
    + pose proof (sound F fl T navigate proc_of file_exists rgb f ty i false s (proj1 Hs)) as S1.
      pose proof (proj1 (both F fl T navigate proc_of file_exists rgb f) nobody ty i false s Hs) as S2.
      pose proof (fun n c => proj2 (both F fl T navigate proc_of file_exists rgb f) nobody ty i false s n c Hs ltac:(discriminate) (nothing_nobody n)) as S3.
      pose proof (fits f ty i false s (proj1 Hs) Hf) as S4.
      pose proof (fun v x Q1 Q2 => lookup_dead ty i v x f Q1 Q2) as S5.
      pose proof (fun ty0 i0 v x Q1 Q2 => lookup_dead ty0 i0 v x f Q1 Q2 ty i false s) as S6.
      destruct (lookup f ty i false s) as [[c1|p] s1|e1 s1|] eqn:El; try discriminate.
      * destruct S1 as (K1 & K2 & K3). assert (Hs1 : settled nobody s1) by (eapply settled_ok; eauto).
        destruct (IH _ _ _ _ E Hs1 S4) as (more & -> & R1 & R2 & R3 & R4 & R5 & R6 & R7 & R8). exists more. split; [reflexivity|]. split; [exact R1|]. split; [exact R2|]. split; [eapply ext_trans; eauto|].
        split; [intros ty' i' v x Q1 Q2 Q3; eapply R4; eauto; exact (S6 ty' i' v x Q1 Q2 Q3)|]. split; [exact R5|]. split; [intros ty' i' e' Q; destruct (R6 _ _ _ Q); split; [right|]; assumption|]. split.
        -- intros ty' i' [Q|Q] W; [injection Q as <- <-; left; exists c1; apply R3; exact K3|auto].
        -- intros ty' i' n c [Q|Q] W V; [|eauto]. injection Q as <- <-. apply R3. rewrite K3. f_equal.
           destruct (value_var _ _ _ _ _ _ _ _ _ _ _ _ V) as (v & d & _ & Hd). destruct (kept_value _ _ _ _ _ _ _ _ K1 _ _ _ K3) as [n2 V2].
           exact (value_fun _ _ _ _ _ _ _ false _ _ _ _ _ _ (V2 d Hd) (value_lax _ _ _ _ _ _ _ _ _ _ _ V)).
      * subst s1. destruct (IH _ _ _ _ E Hs Hf) as (more & -> & R1 & R2 & R3 & R4 & R5 & R6 & R7 & R8). exists ((ty, i, EOther) :: more). split; [rewrite <- app_assoc; reflexivity|].
        split; [exact R1|]. split; [exact R2|]. split; [exact R3|]. split; [exact R4|]. apply lookup_continue in El. destruct El as [_ El]. split; [|split; [|split]].
        -- intros ty' i' e' d Hd [Q|Q]; [|eauto]. injection Q as <- <- _. destruct El as [[Ev _]|[_ Hn]]; [|destruct (Hn d Hd)]. destruct (fst (s' ty i)) as [c|] eqn:Q; [|reflexivity].
           destruct (kept_var _ _ _ _ _ _ _ _ (proj1 R1) _ _ _ Q) as [v Q']. congruence.
        -- intros ty' i' e' [Q|Q]; [injection Q as <- <- _; split; [left; reflexivity|exact Ew]|]. destruct (R6 _ _ _ Q). split; [right|]; assumption.
        -- intros ty' i' [Q|Q] W; [injection Q as <- <-; right; exists EOther; left; reflexivity|]. destruct (R7 _ _ Q W) as [Q'|[e' Q']]; [left; exact Q'|right; exists e'; right; exact Q'].
        -- intros ty' i' n c [Q|Q] W V; [|eauto]. injection Q as <- <-. exfalso. destruct (value_var _ _ _ _ _ _ _ _ _ _ _ _ V) as (v & d & Ev' & Hd). destruct El as [[Ev _]|[_ Hn]]; [congruence|exact (Hn d Hd)].
      * destruct (own_error _ _ _ _ _ _ (proj1 Hs) Ew El) as (v & x & Ev & Ee & Hdead).
        destruct (IH _ _ _ _ E S2 S4) as (more & -> & R1 & R2 & R3 & R4 & R5 & R6 & R7 & R8). exists ((ty, i, e1) :: more). split; [rewrite <- app_assoc; reflexivity|].
        split; [exact R1|]. split; [exact R2|]. split; [eapply ext_trans; [exact (proj2 S1)|exact R3]|]. split; [intros ty' i' v' x' Q1 Q2 Q3; eapply R4; eauto; exact (S6 ty' i' v' x' Q1 Q2 Q3)|]. split; [|split; [|split]].
        -- intros ty' i' e' d Hd [Q|Q]; [|eauto]. injection Q as <- <- _. exact (proj1 (R4 _ _ _ _ Ev Ee Hdead)).
        -- intros ty' i' e' [Q|Q]; [injection Q as <- <- _; split; [left; reflexivity|exact Ew]|]. destruct (R6 _ _ _ Q). split; [right|]; assumption.
        -- intros ty' i' [Q|Q] W; [injection Q as <- <-; right; exists e1; left; reflexivity|]. destruct (R7 _ _ Q W) as [Q'|[e' Q']]; [left; exact Q'|right; exists e'; right; exact Q'].
        -- intros ty' i' n c [Q|Q] W V; [|eauto]. injection Q as <- <-. exfalso. exact (S3 n c V _ _ eq_refl).
    + destruct (IH _ _ _ _ E Hs Hf) as (more & -> & R1 & R2 & R3 & R4 & R5 & R6 & R7 & R8). exists more. repeat (split; [assumption || reflexivity|]). split; [|split].
      * intros ty' i' e' Q. destruct (R6 _ _ _ Q). split; [right|]; assumption.
      * intros ty' i' [Q|Q] W; [injection Q as <- <-; congruence|auto].
      * intros ty' i' n c [Q|Q] W V; [injection Q as <- <-; congruence|eauto].
Qed.

(** ** The theorems *)
(** A variable that [evaluate_all] has to deal with: type [ty] has it, its declaration [d] may be evaluated, and it is not an ordinary
    global variable. *)
Definition eligible (ty : nat) (i : text) (d : decl) : Prop :=
  (exists v, var_of ty i = Some v) /\ declared ty i d /\ may_evaluate d /\ (d_const d = true \/ ty <> 0).
Lemma eligible_wanted ty i d : acyclic F T -> eligible ty i d -> In (ty, i) slots /\ wanted ty i = Some true.
Proof using Type.
  intros Ha ([v Hv] & Hd & He & Hc). split; [eapply var_slot; eauto|]. unfold Tree.wanted. destruct (get_decl_declared _ _ _ _ _ Hd) as [E|E]; rewrite E; [destruct (get_decl_ends _ _ Ha _ _ E)|].
  apply evaluable_iff in He. rewrite He. cbn [andb]. destruct Hc as [->|Hc]; [reflexivity|]. destruct (Nat.eqb_spec ty 0) as [Q|Q]; [destruct (Hc Q)|]. rewrite orb_true_r. reflexivity.
Qed.
Lemma turns_end f : acyclic F T -> List.length slots < f -> forall order out s, take_turns f order out s <> None.
Proof using Type.
  intros Ha Hf. induction order as [|[ty i] order IH]; intros out s; cbn [Tree.take_turns]; [discriminate|].
  assert (Hw : wanted ty i <> None).
  { unfold Tree.wanted. destruct (get_decl ty i) as [[d|]|] eqn:E; try discriminate. destruct (get_decl_ends _ _ Ha _ _ E). }
  destruct (wanted ty i) as [[|]|]; [|apply IH|congruence].
  assert (Ht : todo F T s < f).
  { unfold todo. eapply Nat.le_lt_trans; [|exact Hf]. clear. induction slots as [|x l IH]; [auto|]. cbn [filter]. destruct (open F s x); cbn; lia. }
  pose proof (ends F fl T navigate proc_of file_exists rgb Ha f ty i false s Ht) as K. destruct (lookup f ty i false s) as [[c|p] s1|e s1|]; [apply IH|apply IH|apply IH|destruct K].
Qed.
Theorem C47_terminates : acyclic F T -> evaluate_all <> None.
Proof using Type. intro Ha. apply turns_end; [exact Ha|]. lia. Qed.

(** Every variable: a constant that is stored is a value of the variable, every (strict) value is stored, and an error is reported for
    exactly those that get none. *)
Theorem C47_values out s : acyclic F T -> evaluate_all = Some (out, s) -> forall ty i d, eligible ty i d ->
  (forall c, fst (s ty i) = Some c -> exists n, value false n ty i c) /\
  (forall n c, value true n ty i c -> fst (s ty i) = Some c) /\
  ((exists e, In (ty, i, e) out) <-> fst (s ty i) = None).
Proof using Type.
  intros Ha E ty i d He. destruct (eligible_wanted _ _ _ Ha He) as [Hin Hw]. destruct He as (_ & Hd & _).
  destruct (turns _ _ _ _ _ _ E initial_settled initial_fitting) as (more & -> & R1 & R2 & R3 & R4 & R5 & R6 & R7 & R8). cbn [app]. split; [|split].
  - intros c Q. destruct (kept_value _ _ _ _ _ _ _ _ (proj1 R1) _ _ _ Q) as [n V]. exists n. exact (V d Hd).
  - intros n c V. exact (R8 _ _ n c Hin Hw V).
  - split; [intros [e Q]; exact (R5 _ _ _ _ Hd Q)|]. intro Q. destruct (R7 _ _ Hin Hw) as [[c Q']|Q']; [congruence|exact Q'].
Qed.
(** Nothing else is reported: errors are about variables of the tree that are not skipped. *)
Theorem C47_reports out s : evaluate_all = Some (out, s) -> forall ty i e, In (ty, i, e) out ->
  In (ty, i) slots /\ (forall d, declared ty i d -> may_evaluate d /\ (d_const d = true \/ ty <> 0)).
Proof using Type.
  intros E ty i e Q. destruct (turns _ _ _ _ _ _ E initial_settled initial_fitting) as (more & -> & R1 & R2 & R3 & R4 & R5 & R6 & R7 & R8).
  destruct (R6 _ _ _ Q) as [H1 H2]. split; [exact H1|]. intros d Hd. unfold Tree.wanted in H2. destruct (get_decl_declared _ _ _ _ _ Hd) as [E'|E']; rewrite E' in H2; [discriminate|].
  injection H2 as H2. apply andb_true_iff in H2. destruct H2 as [H2 H3]. split; [apply evaluable_iff; exact H2|]. apply orb_true_iff in H3. destruct H3 as [H3|H3]; [auto|]. right. apply negb_true_iff, Nat.eqb_neq in H3. exact H3.
Qed.
(** Stored constants fit together: each is the value of its expression when the variables in it have the stored values, each that of
    the nearest type that has it. *)
Theorem C47_consistent out s : evaluate_all = Some (out, s) -> forall ty i v d e c,
  var_of ty i = Some v -> declared ty i d -> v_const v = None -> v_expr v = Some e -> fst (s ty i) = Some c ->
  exists known, (forall ty' i' m c', known ty' i' m = Some c' -> exists o, owner ty' i' o /\ fst (s o i') = Some c') /\
    ev_expr F fl (given known ty) e (match d_path d with [] => None | p => Some p end) tt = EOk c tt.
Proof using Type.
  intros E ty i v d e c H1 H2 H3 H4 H5. destruct (turns _ _ _ _ _ _ E initial_settled initial_fitting) as (more & -> & R1 & R2 & _).
  exists (known_in s). split; [|exact (R2 _ _ _ _ _ _ H1 H2 H3 H4 H5)]. intros ty' i' m c' Q. unfold TreeProofs.known_in in Q. destruct (own_walk F T (S (List.length T)) ty' i') as [o|] eqn:Eo; [|discriminate].
  destruct (get_decl o i') as [[d'|]|]; try discriminate. exists o. split; [eapply own_walk_owner; exact Eo|exact Q].
Qed.
(** ** Without [a.b] it is all the same *)
Lemma fieldless_strict n : fieldless F T -> forall ty i c, value false n ty i c -> value true n ty i c.
Proof using Type.
  intro Hf. induction n as [|n IH]; intros ty i c H; [destruct H|]. destruct H as (v & d & Hv & Hd & H). exists v, d. split; [exact Hv|]. split; [exact Hd|].
  destruct (v_const v) as [c'|]; [exact H|]. destruct (v_expr v) as [e|] eqn:Ee; [|exact H]. destruct H as (He & known & Hk & Hc). split; [exact He|].
  exists (fun (ty' : nat) (i' : text) (m : bool) => if m then None else known ty' i' m). split.
  - intros ty' i' m c' Q. destruct m; [discriminate|]. destruct (Hk _ _ _ _ Q) as (o & Ho & V & _). exists o. split; [exact Ho|]. split; [apply IH; exact V|]. discriminate.
  - refine (given_mono true _ _ _ _ _ _ _ _ Hc); [intros _; eapply Hf; eauto|]. intros ty' i' m a Hm Q. rewrite (Hm eq_refl) in *. exact Q.
Qed.
Theorem C47_exact out s : acyclic F T -> fieldless F T -> evaluate_all = Some (out, s) -> forall ty i d c, eligible ty i d ->
  (fst (s ty i) = Some c <-> exists n, value true n ty i c).
Proof using Type.
  intros Ha Hf E ty i d c He. destruct (C47_values _ _ Ha E _ _ _ He) as (H1 & H2 & _). split; [intro Q; destruct (H1 c Q) as [n V]; exists n; apply fieldless_strict; assumption|intros [n V]; eauto].
Qed.
(** The order of types and variables makes no difference. *)
Theorem C47_order f order1 order2 out1 out2 s1 s2 : acyclic F T -> fieldless F T ->
  (forall x, In x slots -> In x order1) -> (forall x, In x slots -> In x order2) ->
  take_turns f order1 [] initial = Some (out1, s1) -> take_turns f order2 [] initial = Some (out2, s2) ->
  forall ty i d, eligible ty i d -> fst (s1 ty i) = fst (s2 ty i) /\ ((exists e, In (ty, i, e) out1) <-> exists e, In (ty, i, e) out2).
Proof using Type.
  intros Ha Hf O1 O2 E1 E2 ty i d He. destruct (eligible_wanted _ _ _ Ha He) as [Hin Hw]. destruct He as (_ & Hd & _).
  destruct (turns _ _ _ _ _ _ E1 initial_settled initial_fitting) as (more1 & -> & R1 & R2 & R3 & R4 & R5 & R6 & R7 & R8).
  destruct (turns _ _ _ _ _ _ E2 initial_settled initial_fitting) as (more2 & -> & S1 & S2 & S3 & S4 & S5 & S6 & S7 & S8). cbn [app].
  assert (Q : fst (s1 ty i) = fst (s2 ty i)).
  { destruct (fst (s1 ty i)) as [c|] eqn:Q1.
    - destruct (kept_value _ _ _ _ _ _ _ _ (proj1 R1) _ _ _ Q1) as [n V]. symmetry. apply (S8 ty i n c); [auto|exact Hw|]. apply fieldless_strict; [exact Hf|exact (V d Hd)].
    - destruct (fst (s2 ty i)) as [c|] eqn:Q2; [|reflexivity]. destruct (kept_value _ _ _ _ _ _ _ _ (proj1 S1) _ _ _ Q2) as [n V]. rewrite <- Q1. apply (R8 ty i n c); [auto|exact Hw|]. apply fieldless_strict; [exact Hf|exact (V d Hd)]. }
  split; [exact Q|]. split; intros [e Hr].
  - pose proof (R5 _ _ _ _ Hd Hr) as N. destruct (S7 ty i (O2 _ Hin) Hw) as [[c Q']|Q']; [congruence|exact Q'].
  - pose proof (S5 _ _ _ _ Hd Hr) as N. destruct (R7 ty i (O1 _ Hin) Hw) as [[c Q']|Q']; [congruence|exact Q'].
Qed.
(** ** Circles *)
(** If no variable of [S] can be evaluated without knowing one of [S], none gets a constant. *)
Theorem C47_circle out s (C : nat -> text -> Prop) : evaluate_all = Some (out, s) ->
  (forall ty i, C ty i -> exists v d e, var_of ty i = Some v /\ declared ty i d /\ v_const v = None /\ v_expr v = Some e /\
     forall known c, (forall ty' i' m o, owner ty' i' o -> C o i' -> known ty' i' m = None) -> ev_expr F fl (given known ty) e (match d_path d with [] => None | p => Some p end) tt <> EOk c tt) ->
  forall ty i, C ty i -> fst (s ty i) = None.
Proof using Type.
  intros E HC ty i Hi. destruct (turns _ _ _ _ _ _ E initial_settled initial_fitting) as (more & -> & R1 & _).
  destruct (fst (s ty i)) as [c|] eqn:Q; [|reflexivity]. exfalso. destruct (HC ty i Hi) as (v & d & e & Hv & Hd & _).
  destruct (kept_value _ _ _ _ _ _ _ _ (proj1 R1) _ _ _ Q) as [n V]. specialize (V d Hd). clear Q v e Hv Hd d E R1. revert ty i c Hi V. induction n as [|n IH]; intros ty i c Hi V; [exact V|].
  destruct (HC ty i Hi) as (v & d & e & Hv & Hd & Hg & He & Hno). destruct V as (v' & d' & Hv' & Hd' & V). rewrite Hv in Hv'. injection Hv' as <-. rewrite <- (declared_fun _ _ _ _ _ Hd _ Hd') in V.
  rewrite Hg, He in V. destruct V as (_ & known & Hk & V). refine (Hno known c _ V). intros ty' i' m o Ho Hc. destruct (known ty' i' m) as [c'|] eqn:Q; [|reflexivity].
  destruct (Hk _ _ _ _ Q) as (o' & Ho' & V' & _). rewrite <- (owner_fun _ _ _ _ _ Ho _ Ho') in V'. destruct (IH _ _ _ Hc V').
Qed.
(** ** Types by path *)
(** A path leads to the first type that has it, and to none only if there is none. *)
Theorem C47_find p : match find_type F T p with
  | Some n => (exists t, nth_error T n = Some t /\ show_path (ty_path t) = p) /\ (forall m t, m < n -> nth_error T m = Some t -> show_path (ty_path t) <> p)
  | None => forall t, In t T -> show_path (ty_path t) <> p
  end.
Proof using Type.
  unfold Tree.find_type. match goal with |- match ?go 0 T with _ => _ end => set (g := go) end.
  assert (K : forall (l : list (type_ F)) k, match g k l with
    | Some n => exists j, n = k + j /\ (exists t, nth_error l j = Some t /\ show_path (ty_path t) = p) /\ (forall m t, m < j -> nth_error l m = Some t -> show_path (ty_path t) <> p)
    | None => forall t, In t l -> show_path (ty_path t) <> p end).
  { induction l as [|t l IH]; intro k; [intros t []|]. change (g k (t :: l)) with (if text_eqb (show_path (ty_path t)) p then Some k else g (S k) l).
    destruct (text_eqb (show_path (ty_path t)) p) eqn:E.
    - exists 0. split; [lia|]. split; [exists t; split; [reflexivity|apply text_eqb_eq; exact E]|]. intros m u Hm. lia.
    - assert (N : show_path (ty_path t) <> p) by (intro Q; apply text_eqb_eq in Q; congruence). specialize (IH (S k)). destruct (g (S k) l) as [n|].
      + destruct IH as (j & -> & H1 & H2). exists (S j). split; [lia|]. split; [exact H1|]. intros [|m] u Hm Hu; [injection Hu as <-; exact N|]. apply (H2 m u); [lia|exact Hu].
      + intros u [<-|Hu]; [exact N|exact (IH u Hu)]. }
  specialize (K T 0). destruct (g 0 T) as [n|]; [|exact K]. destruct K as (j & -> & H). exact H.
Qed.
End PROPS.
