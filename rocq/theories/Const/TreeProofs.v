(** Proofs for C47. *)
From Coq Require Import List NArith ZArith Bool String Lia Wf_nat.
From Verif Require Import Common.Text Parse.Ast Const.Model Const.Related Const.Tree Const.TreeSpec.
Import ListNotations.
Open Scope nat_scope.

Lemma evaluable_iff d : evaluable d = true <-> may_evaluate d.
Proof. unfold evaluable, may_evaluate. destruct (d_const d), (d_static d), (d_protected d); cbn; intuition discriminate. Qed.
Section PROOFS.
Variable F : Type.
Variable fl : f32 F.
Variable T : tree F.
Variable navigate : nat -> list (pathop * text) -> option (list text).
Variable proc_of : nat -> text -> option (list text).
Variable file_exists : option (text -> option bool).
Variable rgb : arguments_t F -> option text.
Notation constant := (constant F).
Notation cells := (cells F).
Notation var_of := (var_of F T).
Notation parent_of := (parent_of F T).
Notation owner := (owner F T).
Notation declared := (declared F T).
Notation get_decl := (get_decl F T).
Notation value := (value F fl T navigate proc_of file_exists rgb).
Notation given := (given F T navigate proc_of file_exists rgb).
Notation lookup := (lookup F fl T navigate proc_of file_exists rgb).
Notation climb := (climb F).
Notation store := (store F).
Notation env_at := (env_at F T navigate proc_of file_exists rgb).
Notation slots := (slots F T).

(** ** Declarations and owners *)
Lemma declared_fun ty i d : declared ty i d -> forall d', declared ty i d' -> d = d'.
Proof using Type.
  induction 1 as [ty i v d H1 H2|ty i p d H1 H2 H3 IH]; intros d' H'; inversion H' as [? ? v' ? K1 K2|? ? p' ? K1 K2 K3]; subst.
  - congruence.
  - rewrite (K1 v H1) in H2. discriminate.
  - rewrite (H1 v' K1) in K2. discriminate.
  - apply IH. congruence.
Qed.
Lemma owner_fun ty i o : owner ty i o -> forall o', owner ty i o' -> o = o'.
Proof using Type.
  induction 1 as [ty i v H1|ty i p o H1 H2 H3 IH]; intros o' H'; inversion H' as [? ? v' K1|? ? p' ? K1 K2 K3]; subst; try congruence. apply IH. congruence.
Qed.
Lemma owner_var ty i o : owner ty i o -> exists v, var_of o i = Some v.
Proof using Type. induction 1 as [ty i v H1|ty i p o H1 H2 H3 IH]; eauto. Qed.
Lemma owner_declared ty i o : owner ty i o -> forall d, declared o i d -> declared ty i d.
Proof using Type. induction 1 as [ty i v H1|ty i p o H1 H2 H3 IH]; intros d Hd; [exact Hd|]. eapply declared_up; [|exact H2|auto]. intros v Q. congruence. Qed.
Lemma walk_some fuel : forall ty i d, walk_decl F T fuel ty i = Some (Some d) -> declared ty i d.
Proof using Type.
  induction fuel as [|fuel IH]; intros ty i d E; [discriminate|]. cbn [walk_decl] in E. destruct (var_of ty i) as [v|] eqn:Ev.
  - destruct (v_decl v) as [d0|] eqn:Ed; [injection E as ->; eapply declared_here; eauto|]. destruct (parent_of ty) as [p|] eqn:Ep; [|discriminate].
    eapply declared_up; [|exact Ep|auto]. intros v' Q. congruence.
  - destruct (parent_of ty) as [p|] eqn:Ep; [|discriminate]. eapply declared_up; [|exact Ep|auto]. intros v' Q. congruence.
Qed.
Lemma walk_none fuel : forall ty i, walk_decl F T fuel ty i = Some None -> forall d, ~ declared ty i d.
Proof using Type.
  induction fuel as [|fuel IH]; intros ty i E d Hd; [discriminate|]. cbn [walk_decl] in E. inversion Hd as [? ? v' ? K1 K2|? ? p' ? K1 K2 K3]; subst.
  - rewrite K1, K2 in E. discriminate.
  - destruct (var_of ty i) as [v|] eqn:Ev; [rewrite (K1 v eq_refl) in E|]; rewrite K2 in E; exact (IH _ _ E d K3).
Qed.
Lemma get_decl_declared ty i d : declared ty i d -> get_decl ty i = None \/ get_decl ty i = Some (Some d).
Proof using Type.
  intro H. unfold Tree.get_decl. destruct (walk_decl F T (S (List.length T)) ty i) as [[d'|]|] eqn:E; [|exfalso; exact (walk_none _ _ _ E d H)|auto].
  right. f_equal. f_equal. eapply declared_fun; [exact (walk_some _ _ _ _ E)|exact H].
Qed.

(** ** Cells *)
Lemma store_same s ty i x : store s ty i x ty i = x.
Proof using Type. unfold Tree.store. rewrite Nat.eqb_refl, (proj2 (text_eqb_eq i i) eq_refl). reflexivity. Qed.
Lemma store_other s ty i x ty' i' : ~ (ty' = ty /\ i' = i) -> store s ty i x ty' i' = s ty' i'.
Proof using Type.
  intro H. unfold Tree.store. destruct (Nat.eqb_spec ty' ty) as [E1|E1]; [|reflexivity]. destruct (text_eqb i' i) eqn:E2; [|reflexivity]. apply text_eqb_eq in E2. exfalso. apply H. split; assumption.
Qed.
Lemma same_slot (ty ty' : nat) (i i' : text) : {ty' = ty /\ i' = i} + {~ (ty' = ty /\ i' = i)}.
Proof using Type.
  destruct (Nat.eq_dec ty' ty) as [H|H]; [|right; intros [Q _]; exact (H Q)]. destruct (text_eqb i' i) eqn:E; [left; apply text_eqb_eq in E; split; assumption|].
  right. intros [_ Q]. apply text_eqb_eq in Q. congruence.
Qed.
Definition ext (s s' : cells) : Prop := forall ty i c, fst (s ty i) = Some c -> fst (s' ty i) = Some c.
Lemma ext_refl s : ext s s. Proof using Type. intros ty i c H. exact H. Qed.
Lemma ext_trans a b c : ext a b -> ext b c -> ext a c. Proof using Type. intros H1 H2 ty i x H. auto. Qed.

(** ** Climbing *)
Fixpoint own_walk (fuel ty : nat) (i : text) : option nat :=
  match fuel with
  | O => None
  | S fuel' => match var_of ty i with Some _ => Some ty | None => match parent_of ty with Some p => own_walk fuel' p i | None => None end end
  end.
Lemma own_walk_owner fuel : forall ty i o, own_walk fuel ty i = Some o -> owner ty i o.
Proof using Type.
  induction fuel as [|fuel IH]; intros ty i o E; [discriminate|]. cbn [own_walk] in E. destruct (var_of ty i) as [v|] eqn:Ev; [injection E as <-; eapply owner_here; eauto|].
  destruct (parent_of ty) as [p|] eqn:Ep; [|discriminate]. eapply owner_up; eauto.
Qed.
(** what a lookup that goes on or does not know the variable does *)
Lemma lookup_continue f ty i m s p s' : lookup f ty i m s = EOk (Continue p) s' ->
  s' = s /\ ((var_of ty i = None /\ p = parent_of ty) \/ (p = None /\ forall d, ~ declared ty i d)).
Proof using Type.
  destruct f as [|f]; [discriminate|]. cbn [Tree.lookup]. destruct (get_decl ty i) as [[d|]|] eqn:Ed; [| |discriminate].
  - destruct (var_of ty i) as [v|]; [|intro Q; injection Q as <- <-; auto].
    destruct (fst (s ty i)); [discriminate|]. destruct (v_expr v); [|discriminate]. destruct (snd (s ty i)); [discriminate|].
    destruct (negb (evaluable d)); [discriminate|]. destruct (negb (d_const d) && m); [discriminate|]. destruct (ev_expr _ _ _ _ _ _); discriminate.
  - intro Q. injection Q as <- <-. split; [reflexivity|]. right. split; [reflexivity|]. intros d Hd. exact (walk_none _ _ _ Ed d Hd).
Qed.
Lemma lookup_found_var f ty i m s c s' : lookup f ty i m s = EOk (Found c) s' -> exists v d, var_of ty i = Some v /\ get_decl ty i = Some (Some d).
Proof using Type.
  destruct f as [|f]; [discriminate|]. cbn [Tree.lookup]. destruct (get_decl ty i) as [[d|]|] eqn:Ed; [|discriminate|discriminate].
  destruct (var_of ty i) as [v|]; [|discriminate]. intros _. exists v, d. auto.
Qed.
Lemma climb_found fuel f i m : forall ty s c s', climb fuel (fun p => lookup f p i m) ty s = EOk c s' ->
  exists o, own_walk fuel ty i = Some o /\ lookup f o i m s = EOk (Found c) s'.
Proof using Type.
  induction fuel as [|fuel IH]; intros ty s c s' E; [discriminate|]. cbn [Tree.climb own_walk] in E |- *. destruct (lookup f ty i m s) as [[c0|p] s0|e s0|] eqn:El; try discriminate.
  - injection E as -> ->. destruct (lookup_found_var _ _ _ _ _ _ _ El) as (v & d & Ev & _). rewrite Ev. eauto.
  - apply lookup_continue in El. destruct El as [-> [[Ev ->]|[-> _]]]; [|discriminate]. rewrite Ev. destruct (parent_of ty) as [p|]; [|discriminate]. apply IH. exact E.
Qed.
Lemma climb_err fuel f i m : forall ty s e s', climb fuel (fun p => lookup f p i m) ty s = EErr e s' ->
  (exists o, owner ty i o /\ lookup f o i m s = EErr e s') \/ (s' = s /\ forall o d, owner ty i o -> ~ declared o i d).
Proof using Type.
  induction fuel as [|fuel IH]; intros ty s e s' E; [discriminate|]. cbn [Tree.climb] in E. destruct (lookup f ty i m s) as [[c0|p] s0|e0 s0|] eqn:El; try discriminate.
  - apply lookup_continue in El. destruct El as [-> [[Ev ->]|[-> Hd]]].
    + destruct (parent_of ty) as [p|] eqn:Ep.
      * destruct (IH _ _ _ _ E) as [(o & Ho & Hl)|[-> Hn]]; [left; exists o; split; [eapply owner_up; eauto|exact Hl]|].
        right. split; [reflexivity|]. intros o d Ho. inversion Ho as [? ? v' K1|? ? p' ? K1 K2 K3]; subst; [congruence|]. rewrite Ep in K2. injection K2 as <-. auto.
      * injection E as <- <-. right. split; [reflexivity|]. intros o d Ho. inversion Ho; subst; congruence.
    + injection E as <- <-. right. split; [reflexivity|]. intros o d Ho Hd'. exact (Hd d (owner_declared _ _ _ Ho d Hd')).
  - injection E as <- <-. left. destruct f as [|f]; [discriminate|]. assert (Ev : exists v, var_of ty i = Some v).
    { cbn [Tree.lookup] in El. destruct (get_decl ty i) as [[d|]|]; try discriminate. destruct (var_of ty i); [eauto|discriminate]. }
    destruct Ev as [v Ev]. exists ty. split; [eapply owner_here; eauto|exact El].
Qed.

(** ** Values *)
Lemma value_mono b n : forall m ty i c, n <= m -> value b n ty i c -> value b m ty i c.
Proof using Type.
  induction n as [|n IH]; intros m ty i c Hm H; [destruct H|]. destruct m as [|m]; [lia|]. destruct H as (v & d & Hv & Hd & H). exists v, d. split; [exact Hv|]. split; [exact Hd|].
  destruct (v_const v) as [c'|]; [exact H|]. destruct (v_expr v) as [e|]; [|exact H]. destruct H as (He & known & Hk & Hc). split; [exact He|]. exists known. split; [|exact Hc].
  intros ty' i' m' c' Q. destruct (Hk _ _ _ _ Q) as (o & Ho & Hval & Hs). exists o. split; [exact Ho|]. split; [|exact Hs]. apply IH; [lia|exact Hval].
Qed.
Lemma value_lax n : forall ty i c, value true n ty i c -> value false n ty i c.
Proof using Type.
  induction n as [|n IH]; intros ty i c H; [destruct H|]. destruct H as (v & d & Hv & Hd & H). exists v, d. split; [exact Hv|]. split; [exact Hd|].
  destruct (v_const v) as [c'|]; [exact H|]. destruct (v_expr v) as [e|]; [|exact H]. destruct H as (He & known & Hk & Hc). split; [exact He|]. exists known. split; [|exact Hc].
  intros ty' i' m' c' Q. destruct (Hk _ _ _ _ Q) as (o & Ho & Hval & Hs). exists o. split; [exact Ho|]. split; [|discriminate]. apply IH. exact Hval.
Qed.
Lemma value_var b n ty i c : value b n ty i c -> exists v d, var_of ty i = Some v /\ declared ty i d.
Proof using Type. destruct n as [|n]; [intros []|]. intros (v & d & Hv & Hd & _). eauto. Qed.
Definition agreeing (A : Type) (s1 s2 : unit) (x y : eres unit A) : Prop := match x, y with EOk a _, EOk b _ => a = b | _, _ => True end.
Lemma given_agree k1 k2 ty e hint c c' : (forall ty' i m a b, k1 ty' i m = Some a -> k2 ty' i m = Some b -> a = b) ->
  ev_expr F fl (given k1 ty) e hint tt = EOk c tt -> ev_expr F fl (given k2 ty) e hint tt = EOk c' tt -> c = c'.
Proof using Type.
  intros Hk E1 E2. assert (H : agreeing _ tt tt (ev_expr F fl (given k1 ty) e hint tt) (ev_expr F fl (given k2 ty) e hint tt)).
  { apply (ev_related F fl unit unit false (given k1 ty) (given k2 ty) (fun _ _ => True) agreeing).
    - intros A a s1 s2 _. reflexivity.
    - intros A s1 s2 _. exact I.
    - intros A B s1 s2 x y f1 f2 _ Hxy H. unfold agreeing in *. destruct x as [a t1|e1 t1|]; cbn [ebind]; [|exact I|exact I]. destruct y as [b t2|e2 t2|]; cbn [ebind].
      + subst b. apply H. exact I.
      + destruct (f1 a t1); exact I.
      + destruct (f1 a t1); exact I.
    - cbn. constructor; try reflexivity. intros ty' i m [] [] _ _. cbn. unfold agreeing, lift. destruct (k1 ty' i m) as [a|] eqn:Q1; [|exact I]. destruct (k2 ty' i m) as [b|] eqn:Q2; [|exact I]. eauto.
    - reflexivity.
    - reflexivity.
    - reflexivity.
    - discriminate.
    - exact I. }
  rewrite E1, E2 in H. exact H.
Qed.
Lemma value_fun b n : forall m ty i c c', value b n ty i c -> value b m ty i c' -> c = c'.
Proof using Type.
  induction n as [|n IH]; intros m ty i c c' H H'; [destruct H|]. destruct m as [|m]; [destruct H'|].
  destruct H as (v & d & Hv & Hd & H), H' as (v' & d' & Hv' & Hd' & H'). rewrite Hv in Hv'. injection Hv' as <-. rewrite <- (declared_fun _ _ _ Hd _ Hd') in H'. clear d' Hd'.
  destruct (v_const v) as [c0|]; [congruence|]. destruct (v_expr v) as [e|]; [|congruence]. destruct H as (_ & k1 & Hk1 & E1), H' as (_ & k2 & Hk2 & E2).
  refine (given_agree k1 k2 ty e _ c c' _ E1 E2). intros ty' i' m' x y Q1 Q2. destruct (Hk1 _ _ _ _ Q1) as (o1 & Ho1 & V1 & _), (Hk2 _ _ _ _ Q2) as (o2 & Ho2 & V2 & _).
  rewrite <- (owner_fun _ _ _ Ho1 _ Ho2) in V2. exact (IH _ _ _ _ _ V1 V2).
Qed.

(** ** What is stored is a value *)
Record kept (s : cells) : Prop := {
  kept_value : forall ty i c, fst (s ty i) = Some c -> exists n, forall d, declared ty i d -> value false n ty i c;
  kept_given : forall ty i v c, var_of ty i = Some v -> v_const v = Some c -> fst (s ty i) = Some c;
  kept_var : forall ty i c, fst (s ty i) = Some c -> exists v, var_of ty i = Some v }.
Lemma var_slot ty i v : var_of ty i = Some v -> In (ty, i) slots.
Proof using Type.
  intro H. unfold Tree.slots. apply in_concat. unfold Tree.var_of, assoc in H. destruct (find _ (vars_of F T ty)) as [e|] eqn:E; [|discriminate]. apply find_some in E. destruct E as [E1 E2].
  apply text_eqb_eq in E2. exists (map (fun e => (ty, fst e)) (vars_of F T ty)). split.
  - apply in_map_iff. exists ty. split; [reflexivity|]. apply in_seq. split; [lia|]. unfold vars_of in E1. destruct (nth_error T ty) eqn:En; [|destruct E1].
    cbn. apply nth_error_Some. congruence.
  - apply in_map_iff. exists e. subst i. auto.
Qed.
Lemma bounded s : kept s -> exists n, forall ty i c d, fst (s ty i) = Some c -> declared ty i d -> value false n ty i c.
Proof using Type.
  intro Hs. assert (H : forall l, exists n, forall ty i c d, In (ty, i) l -> fst (s ty i) = Some c -> declared ty i d -> value false n ty i c).
  { induction l as [|[ty i] l [n IH]]; [exists 0; intros ty i c d []|]. destruct (fst (s ty i)) as [c|] eqn:E.
    - destruct (kept_value s Hs _ _ _ E) as [m Hm]. exists (Nat.max n m). intros ty' i' c' d' [Q|Hin] Hc Hd.
      + injection Q as <- <-. rewrite E in Hc. injection Hc as <-. eapply value_mono; [|eauto]. lia.
      + eapply value_mono; [|eauto]. lia.
    - exists n. intros ty' i' c' d' [Q|Hin] Hc Hd; [injection Q as <- <-; congruence|eauto]. }
  destruct (H slots) as [n Hn]. exists n. intros ty i c d Hc Hd. destruct (kept_var s Hs _ _ _ Hc) as [v Hv]. eapply Hn; eauto. eapply var_slot; eauto.
Qed.
Definition known_in (s : cells) (ty : nat) (i : text) (m : bool) : option constant :=
  match own_walk (S (List.length T)) ty i with
  | Some o => match get_decl o i with Some (Some _) => fst (s o i) | _ => None end
  | None => None
  end.
Notation look f := (fun ty' i' m => climb (S (List.length T)) (fun p => lookup f p i' m) ty').
Definition sound_at (f : nat) : Prop := forall ty i m s, kept s ->
  match lookup f ty i m s with
  | EOk (Found c) s' => kept s' /\ ext s s' /\ fst (s' ty i) = Some c
  | EOk (Continue _) s' => s' = s
  | EErr _ s' => kept s' /\ ext s s'
  | EStuck => True
  end.
Definition tracks (sf : cells) (A : Type) (s1 : cells) (s2 : unit) (x : eres cells A) (y : eres unit A) : Prop :=
  match x with
  | EOk a s => kept s /\ ext s1 s /\ (ext s sf -> y = EOk a tt)
  | EErr _ s => kept s /\ ext s1 s
  | EStuck => True
  end.
Lemma ev_tracks f sf ty e hint s : sound_at f -> kept s -> tracks sf _ s tt (ev_expr F fl (env_at (look f) ty) e hint s) (ev_expr F fl (given (known_in sf) ty) e hint tt).
Proof using Type.
  intros Hf Hs. apply (ev_related F fl _ _ false (env_at (look f) ty) (given (known_in sf) ty) (fun s1 _ => kept s1) (tracks sf)); try reflexivity; try discriminate; [..|exact Hs].
  - intros A a s1 [] H. split; [exact H|]. split; [apply ext_refl|reflexivity].
  - intros A s1 s2 H. split; [exact H|apply ext_refl].
  - intros A B s1 s2 x y k1 k2 _ Hx Hk. unfold tracks in *. destruct x as [a t1|e1 t1|]; cbn [ebind]; [|exact Hx|exact I]. destruct Hx as (H1 & H2 & H3). specialize (Hk a t1 tt H1).
    destruct (k1 a t1) as [b t2|e2 t2|]; [|destruct Hk; split; [assumption|eapply ext_trans; eauto]|exact I]. destruct Hk as (K1 & K2 & K3). split; [exact K1|]. split; [eapply ext_trans; eauto|].
    intro Hx. rewrite (H3 (ext_trans _ _ _ K2 Hx)). cbn [ebind]. auto.
  - unfold TreeSpec.given, Tree.env_at. cbn [e_tree]. constructor; try reflexivity. intros ty' i m s1 s2 _ H1. cbn [t_lookup]. unfold tracks.
    destruct (climb (S (List.length T)) (fun p => lookup f p i m) ty' s1) as [c s'|e' s'|] eqn:E; [| |exact I].
    + destruct (climb_found _ _ _ _ _ _ _ _ E) as (o & Ho & Hl). pose proof (Hf o i m s1 H1) as K. rewrite Hl in K. destruct K as (K1 & K2 & K3). split; [exact K1|]. split; [exact K2|].
      intro Hx. unfold known_in. rewrite Ho. destruct (lookup_found_var _ _ _ _ _ _ _ Hl) as (v & d & _ & Ed). rewrite Ed, (Hx _ _ _ K3). destruct s2. reflexivity.
    + destruct (climb_err _ _ _ _ _ _ _ _ E) as [(o & Ho & Hl)|[-> _]].
      * pose proof (Hf o i m s1 H1) as K. rewrite Hl in K. exact K.
      * split; [exact H1|apply ext_refl].
Qed.
Lemma kept_mark s ty i : fst (s ty i) = None -> kept s -> kept (store s ty i (None, true)).
Proof using Type.
  intros Hn [K1 K2 K3]. constructor.
  - intros ty' i' c. destruct (same_slot ty ty' i i') as [[-> ->]|N]; [rewrite store_same; discriminate|rewrite store_other by exact N; apply K1].
  - intros ty' i' v c Hv Hc. specialize (K2 _ _ _ _ Hv Hc). destruct (same_slot ty ty' i i') as [[-> ->]|N]; [congruence|rewrite store_other by exact N; exact K2].
  - intros ty' i' c. destruct (same_slot ty ty' i i') as [[-> ->]|N]; [rewrite store_same; discriminate|rewrite store_other by exact N; apply K3].
Qed.
Lemma ext_mark s ty i : fst (s ty i) = None -> ext s (store s ty i (None, true)).
Proof using Type.
  intros Hn ty' i' c H. destruct (same_slot ty ty' i i') as [[-> ->]|N]; [congruence|rewrite store_other by exact N; exact H].
Qed.
Lemma kept_store s ty i v c b : var_of ty i = Some v -> (forall c', v_const v = Some c' -> c = c') -> (exists n, forall d, declared ty i d -> value false n ty i c) -> kept s -> kept (store s ty i (Some c, b)).
Proof using Type.
  intros Hv Hg Hval [K1 K2 K3]. constructor.
  - intros ty' i' c'. destruct (same_slot ty ty' i i') as [[-> ->]|N]; [rewrite store_same; cbn; intro Q; injection Q as <-; exact Hval|rewrite store_other by exact N; apply K1].
  - intros ty' i' v' c' Hv' Hc. destruct (same_slot ty ty' i i') as [[-> ->]|N]; [|rewrite store_other by exact N; eauto]. rewrite store_same. cbn. f_equal. apply Hg. congruence.
  - intros ty' i' c'. destruct (same_slot ty ty' i i') as [[-> ->]|N]; [eauto|rewrite store_other by exact N; apply K3].
Qed.
Lemma ext_store s ty i c b : (forall c', fst (s ty i) = Some c' -> c = c') -> ext s (store s ty i (Some c, b)).
Proof using Type.
  intros Hn ty' i' c' H. destruct (same_slot ty ty' i i') as [[-> ->]|N]; [rewrite store_same; cbn; f_equal; auto|rewrite store_other by exact N; exact H].
Qed.
Lemma sound f : sound_at f.
Proof using Type.
  induction f as [|f IH]; intros ty i m s Hs; [exact I|]. cbn [Tree.lookup]. destruct (get_decl ty i) as [[d|]|] eqn:Ed; [|reflexivity|exact I].
  pose proof (walk_some _ _ _ _ Ed) as Hd.
  destruct (var_of ty i) as [v|] eqn:Ev; [|reflexivity]. destruct (fst (s ty i)) as [c|] eqn:Ec; [split; [exact Hs|split; [apply ext_refl|exact Ec]]|].
  assert (Hg : v_const v = None) by (destruct (v_const v) as [c|] eqn:Q; [rewrite (kept_given s Hs _ _ _ _ Ev Q) in Ec; discriminate|reflexivity]).
  destruct (v_expr v) as [e|] eqn:Ee.
  - destruct (snd (s ty i)); [split; [exact Hs|apply ext_refl]|]. destruct (negb (evaluable d)) eqn:En; [split; [exact Hs|apply ext_refl]|].
    destruct (negb (d_const d) && m); [split; [exact Hs|apply ext_refl]|].
    pose proof (fun sf => ev_tracks f sf ty e (hint_of d) _ IH (kept_mark s ty i Ec Hs)) as H.
    destruct (ev_expr F fl (env_at (look f) ty) e (hint_of d) (store s ty i (None, true))) as [c s2|x s2|].
    + specialize (H s2). destruct H as (H1 & H2 & H3). specialize (H3 (ext_refl _)).
      assert (Hval : exists n, forall d', declared ty i d' -> value false n ty i c).
      { destruct (bounded s2 H1) as [n Hn]. exists (S n). intros d' Hd'. exists v, d. split; [exact Ev|]. split; [exact Hd|]. rewrite Hg, Ee. split; [apply evaluable_iff; destruct (evaluable d); [reflexivity|discriminate]|].
        exists (known_in s2). split; [|exact H3]. intros ty' i' m' c' Q. unfold known_in in Q. destruct (own_walk (S (List.length T)) ty' i') as [o|] eqn:Eo; [|discriminate].
        destruct (get_decl o i') as [[d2|]|] eqn:Ed2; try discriminate. exists o. split; [eapply own_walk_owner; exact Eo|]. split; [|discriminate]. eapply Hn; [exact Q|exact (walk_some _ _ _ _ Ed2)]. }
      assert (Hst : forall c', fst (s2 ty i) = Some c' -> c = c').
      { intros c' Q. destruct (kept_value s2 H1 _ _ _ Q) as [n1 V1]. destruct Hval as [n2 V2]. exact (value_fun false _ _ _ _ _ _ (V2 d Hd) (V1 d Hd)). }
      split; [eapply kept_store; eauto; congruence|]. split; [|rewrite store_same; reflexivity].
      eapply ext_trans; [exact (ext_mark s ty i Ec)|]. eapply ext_trans; [exact H2|]. apply ext_store. exact Hst.
    + specialize (H s2). destruct H as (H1 & H2). split; [exact H1|]. eapply ext_trans; [exact (ext_mark s ty i Ec)|exact H2].
    + exact I.
  - split; [|split; [apply ext_store; congruence|rewrite store_same; reflexivity]]. eapply kept_store; eauto; [congruence|].
    exists 1. intros d' Hd'. exists v, d. split; [exact Ev|]. split; [exact Hd|]. rewrite Hg, Ee. reflexivity.
Qed.

(** ** What has a value is found *)
Definition failed (s : cells) (ty : nat) (i : text) : Prop := snd (s ty i) = true /\ fst (s ty i) = None.
(** no variable of [A] has a value after [n] rounds *)
Definition nothing (A : nat -> text -> Prop) (n : nat) : Prop := forall a j, A a j -> forall m c, m <= n -> ~ value true m a j c.
(** [A] is being evaluated; what has failed has no value, unless something in [A] has one *)
Definition settled (A : nat -> text -> Prop) (s : cells) : Prop :=
  kept s /\ forall ty i, failed s ty i -> ~ A ty i -> forall n c, nothing A n -> ~ value true n ty i c.
Definition inv_at (f : nat) : Prop := forall A ty i m s, settled A s ->
  match lookup f ty i m s with
  | EOk _ s' => forall ty' i', failed s' ty' i' -> failed s ty' i'
  | EErr _ s' => settled A s'
  | EStuck => True
  end.
Definition comp_at (f : nat) : Prop := forall A ty i m s n c, settled A s -> (m = true -> forall d, declared ty i d -> d_const d = true) -> nothing A n -> value true n ty i c ->
  forall e s', lookup f ty i m s <> EErr e s'.
Lemma settled_ok A s s' : settled A s -> kept s' -> (forall ty' i', failed s' ty' i' -> failed s ty' i') -> settled A s'.
Proof using Type. intros [H1 H2] Hk Hf. split; [exact Hk|]. intros ty i Q. apply H2. apply Hf. exact Q. Qed.
Definition orderly (A : nat -> text -> Prop) (B : Type) (s1 : cells) (s2 : unit) (x : eres cells B) (y : eres unit B) : Prop :=
  match x with
  | EOk _ s' => settled A s' /\ forall ty' i', failed s' ty' i' -> failed s1 ty' i'
  | EErr _ s' => settled A s'
  | EStuck => True
  end.
Lemma climb_orderly A f fuel i m ty s : inv_at f -> settled A s ->
  match climb fuel (fun p => lookup f p i m) ty s with
  | EOk _ s' => settled A s' /\ forall ty' i', failed s' ty' i' -> failed s ty' i'
  | EErr _ s' => settled A s'
  | EStuck => True
  end.
Proof using Type.
  intros Hi Hs. destruct (climb fuel (fun p => lookup f p i m) ty s) as [c s'|e s'|] eqn:E; [| |exact I].
  - destruct (climb_found _ _ _ _ _ _ _ _ E) as (o & Ho & Hl). pose proof (Hi A o i m s Hs) as K. rewrite Hl in K. pose proof (sound f o i m s (proj1 Hs)) as S1. rewrite Hl in S1.
    split; [|exact K]. eapply settled_ok; [exact Hs|exact (proj1 S1)|exact K].
  - destruct (climb_err _ _ _ _ _ _ _ _ E) as [(o & Ho & Hl)|[-> _]]; [|exact Hs]. pose proof (Hi A o i m s Hs) as K. rewrite Hl in K. exact K.
Qed.
Lemma ev_orderly A f ty e hint s : inv_at f -> settled A s -> orderly A _ s tt (ev_expr F fl (env_at (look f) ty) e hint s) (ev_expr F fl (given (fun _ _ _ => None) ty) e hint tt).
Proof using Type.
  intros Hi Hs. apply (ev_related F fl _ _ false (env_at (look f) ty) (given (fun _ _ _ => None) ty) (fun s1 _ => settled A s1) (orderly A)); try reflexivity; try discriminate; [..|exact Hs].
  - intros B a s1 [] H. split; [exact H|auto].
  - intros B s1 s2 H. exact H.
  - intros B C s1 s2 x y k1 k2 _ Hx Hk. unfold orderly in *. destruct x as [a t1|e1 t1|]; cbn [ebind]; [|exact Hx|exact I]. destruct Hx as (H1 & H2). specialize (Hk a t1 tt H1).
    destruct (k1 a t1) as [b t2|e2 t2|]; [|exact Hk|exact I]. destruct Hk as (K1 & K2). split; [exact K1|]. auto.
  - unfold TreeSpec.given, Tree.env_at. cbn [e_tree]. constructor; try reflexivity. intros ty' i m s1 s2 _ H1. cbn [t_lookup]. unfold orderly. apply climb_orderly; assumption.
Qed.
Definition follows_up (A : nat -> text -> Prop) (B : Type) (s1 : unit) (s2 : cells) (x : eres unit B) (y : eres cells B) : Prop :=
  match x, y with
  | EOk a _, EOk b s' => a = b /\ settled A s'
  | EOk _ _, EErr _ _ => False
  | _, _ => True
  end.
Lemma ev_complete A f k known ty e hint s c : inv_at f -> comp_at f -> settled A s -> nothing A k ->
  (forall ty' i' m c', known ty' i' m = Some c' -> exists o, owner ty' i' o /\ value true k o i' c' /\ (true = true -> m = true -> forall d', declared o i' d' -> d_const d' = true)) ->
  ev_expr F fl (given known ty) e hint tt = EOk c tt -> forall x s', ev_expr F fl (env_at (look f) ty) e hint s <> EErr x s'.
Proof using Type.
  intros Hi Hc Hs Hn Hk E x s' Ex. assert (H : follows_up A _ tt s (ev_expr F fl (given known ty) e hint tt) (ev_expr F fl (env_at (look f) ty) e hint s)).
  { apply (ev_related F fl _ _ false (given known ty) (env_at (look f) ty) (fun _ s1 => settled A s1) (follows_up A)); try reflexivity; try discriminate; [..|exact Hs].
    - intros B a s1 s2 H. split; [reflexivity|exact H].
    - intros B C s1 s2 u v k1 k2 _ Hx Hk'. unfold follows_up in *. destruct u as [a t1|e1 t1|]; cbn [ebind]; [|exact I|exact I]. destruct v as [b t2|e2 t2|]; cbn [ebind].
      + destruct Hx as [<- Hx]. exact (Hk' a t1 t2 Hx).
      + contradiction.
      + destruct (k1 a t1); exact I.
    - unfold TreeSpec.given, Tree.env_at. cbn [e_tree]. constructor; try reflexivity. intros ty' i m s1 s2 _ H1. cbn [t_lookup]. unfold follows_up, lift.
      destruct (known ty' i m) as [c'|] eqn:Eq; [|exact I]. destruct (Hk _ _ _ _ Eq) as (o & Ho & Hv & Hm).
      destruct (climb (S (List.length T)) (fun p => lookup f p i m) ty' s2) as [c2 s3|e2 s3|] eqn:El; [| |exact I].
      + destruct (climb_found _ _ _ _ _ _ _ _ El) as (o' & Ho' & Hl). apply own_walk_owner in Ho'. rewrite <- (owner_fun _ _ _ Ho _ Ho') in Hl. clear o' Ho'.
        pose proof (sound f o i m s2 (proj1 H1)) as S1. rewrite Hl in S1. destruct S1 as (K1 & _ & K3). pose proof (Hi A o i m s2 H1) as K. rewrite Hl in K. split.
        * destruct (kept_value _ K1 _ _ _ K3) as [n2 V2]. destruct (value_var _ _ _ _ _ Hv) as (v0 & d0 & _ & Hd0). exact (value_fun false _ _ _ _ _ _ (value_lax _ _ _ _ Hv) (V2 d0 Hd0)).
        * eapply settled_ok; eauto.
      + destruct (climb_err _ _ _ _ _ _ _ _ El) as [(o' & Ho' & Hl)|[-> Hno]].
        * rewrite <- (owner_fun _ _ _ Ho _ Ho') in Hl. exact (Hc A o i m s2 k c' H1 (Hm eq_refl) Hn Hv _ _ Hl).
        * destruct (value_var _ _ _ _ _ Hv) as (v0 & d0 & _ & Hd0). exact (Hno o d0 Ho Hd0). }
  rewrite E, Ex in H. exact H.
Qed.
Definition plus (A : nat -> text -> Prop) (ty : nat) (i : text) : nat -> text -> Prop := fun ty' i' => A ty' i' \/ (ty' = ty /\ i' = i).
Lemma settled_mark A s ty i : fst (s ty i) = None -> settled A s -> settled (plus A ty i) (store s ty i (None, true)).
Proof using Type.
  intros Hn [H1 H2]. split; [apply kept_mark; assumption|]. intros ty' i' [F1 F2] Ha n c Hno. destruct (same_slot ty ty' i i') as [Q|N]; [exfalso; apply Ha; right; exact Q|].
  rewrite store_other in F1, F2 by exact N. apply (H2 ty' i' (conj F1 F2)); [intro Q; apply Ha; left; exact Q|]. intros a j Q. apply Hno. left. exact Q.
Qed.
Lemma complete_step f : inv_at f -> comp_at f -> comp_at (S f).
Proof using Type.
  intros Hi Hc A ty i m s n c Hs Hm Hno Hv e0 s0. destruct (value_var _ _ _ _ _ Hv) as (v & d & Ev & Hd). cbn [Tree.lookup].
  destruct (get_decl_declared _ _ _ Hd) as [Ed|Ed]; rewrite Ed; [discriminate|]. rewrite Ev. destruct (fst (s ty i)) as [c0|] eqn:Ec; [discriminate|].
  assert (Hg : v_const v = None) by (destruct (v_const v) as [c1|] eqn:Q; [rewrite (kept_given s (proj1 Hs) _ _ _ _ Ev Q) in Ec; discriminate|reflexivity]).
  destruct (v_expr v) as [e|] eqn:Ee; [|discriminate].
  destruct (snd (s ty i)) eqn:Eb.
  { intros _. refine (proj2 Hs ty i (conj Eb Ec) _ n c Hno Hv). intro Ha. exact (Hno ty i Ha n c (le_n _) Hv). }
  assert (He : evaluable d = true).
  { destruct n as [|n]; [destruct Hv|]. destruct Hv as (v' & d' & Ev' & Hd' & Hv). rewrite Ev in Ev'. injection Ev' as <-. rewrite <- (declared_fun _ _ _ Hd _ Hd') in Hv. rewrite Hg, Ee in Hv. apply evaluable_iff. exact (proj1 Hv). }
  rewrite He. cbn [negb]. destruct (negb (d_const d) && m) eqn:Em.
  { apply andb_true_iff in Em. destruct Em as [Em1 Em2]. rewrite (Hm Em2 d Hd) in Em1. discriminate. }
  destruct (ev_expr F fl (env_at (look f) ty) e (hint_of d) (store s ty i (None, true))) as [c1 s1|x s1|] eqn:Ex; try discriminate. intros _.
  revert c Hno Hv. induction n as [n IHn] using lt_wf_ind. intros c Hno Hv. destruct n as [|n]; [exact Hv|].
  destruct Hv as (v' & d' & Ev' & Hd' & Hv). rewrite Ev in Ev'. injection Ev' as <-. rewrite <- (declared_fun _ _ _ Hd _ Hd') in Hv. rewrite Hg, Ee in Hv. destruct Hv as (_ & known & Hk & E).
  refine (ev_complete (plus A ty i) f n known ty e (hint_of d) _ c Hi Hc (settled_mark A s ty i Ec Hs) _ Hk E _ _ Ex).
  intros a j [Ha|[-> ->]] m' c' Hle Q; [apply (Hno a j Ha m' c'); [lia|exact Q]|]. refine (IHn m' _ c' _ Q); [lia|]. intros a j Ha m2 c2 Hle2. apply (Hno a j Ha m2 c2). lia.
Qed.
Lemma invariant_step f : inv_at f -> comp_at (S f) -> inv_at (S f).
Proof using Type.
  intros Hi Hc A ty i m s Hs. pose proof (Hc A ty i false s) as HC. clear Hc. cbn [Tree.lookup] in HC |- *. destruct (get_decl ty i) as [[d|]|] eqn:Ed; [|auto|exact I].
  destruct (var_of ty i) as [v|] eqn:Ev; [|auto]. destruct (fst (s ty i)) as [c0|] eqn:Ec; [auto|]. destruct (v_expr v) as [e|] eqn:Ee.
  - destruct (snd (s ty i)) eqn:Eb; [exact Hs|]. destruct (negb (evaluable d)) eqn:En; [exact Hs|]. rewrite andb_false_r in HC. destruct (negb (d_const d) && m); [exact Hs|].
    pose proof (ev_orderly (plus A ty i) f ty e (hint_of d) _ Hi (settled_mark A s ty i Ec Hs)) as K. unfold orderly in K.
    destruct (ev_expr F fl (env_at (look f) ty) e (hint_of d) (store s ty i (None, true))) as [c1 s1|x s1|]; [| |exact I].
    + destruct K as (_ & K). intros ty' i' Q. destruct (same_slot ty ty' i i') as [[-> ->]|N].
      * destruct Q as [Q _]. rewrite store_same in Q. discriminate.
      * unfold failed in Q. rewrite store_other in Q by exact N. apply K in Q. unfold failed in Q. rewrite store_other in Q by exact N. exact Q.
    + assert (Hv : forall n c, nothing A n -> ~ value true n ty i c) by (intros n c Hno Hv; exact (HC n c Hs ltac:(discriminate) Hno Hv x s1 eq_refl)).
      split; [exact (proj1 K)|]. intros ty' i' Hf Ha n c Hno. destruct (same_slot ty ty' i i') as [[-> ->]|N]; [exact (Hv n c Hno)|].
      apply (proj2 K ty' i' Hf); [intros [Q|Q]; [exact (Ha Q)|exact (N Q)]|]. intros a j [Q|[-> ->]] m' c' Hle; [exact (Hno a j Q m' c' Hle)|].
      apply Hv. intros a j Q m2 c2 Hle2. apply (Hno a j Q). lia.
  - intros ty' i' [Q1 Q2]. destruct (same_slot ty ty' i i') as [[-> ->]|N]; [rewrite store_same in Q2; discriminate|]. rewrite store_other in Q1, Q2 by exact N. split; assumption.
Qed.
Lemma both f : inv_at f /\ comp_at f.
Proof using Type.
  induction f as [|f [IH1 IH2]]; [split; [intros A ty i m s Hs; exact I|intros A ty i m s n c _ _ _ _ e s'; discriminate]|].
  pose proof (complete_step f IH1 IH2) as C. split; [apply invariant_step; assumption|exact C].
Qed.

(** ** It ends *)
Hypothesis Hacyclic : acyclic F T.
Definition up (ty p : nat) : Prop := parent_of ty = Some p.
(** [l]: the types above [ty], each the parent of the one before *)
Inductive ladder : nat -> list nat -> Prop :=
  | ladder_nil ty : ladder ty []
  | ladder_cons ty p l : parent_of ty = Some p -> ladder p l -> ladder ty (ty :: l).
Inductive above : nat -> nat -> Prop :=
  | above_one ty p : parent_of ty = Some p -> above ty p
  | above_more ty p q : parent_of ty = Some p -> above p q -> above ty q.
Lemma above_acyclic : forall ty, ~ above ty ty.
Proof using Hacyclic.
  assert (Hsnoc : forall a b, above a b -> forall c, parent_of b = Some c -> above a c).
  { induction 1 as [a b H|a p b H Hp IH]; intros c Hc; [eapply above_more; [exact H|]; apply above_one; exact Hc|eapply above_more; eauto]. }
  intro ty. induction (Hacyclic ty) as [ty _ IH]. intro H. inversion H as [? ? Hp|? p ? Hp Hr]; subst; [exact (IH ty Hp H)|]. exact (IH p Hp (Hsnoc _ _ Hr _ Hp)).
Qed.
Lemma ladder_above ty l : ladder ty l -> forall x, In x l -> x = ty \/ above ty x.
Proof using Type.
  induction 1 as [ty|ty p l H Hl IH]; intros x Q; [destruct Q|]. destruct Q as [Q|Q]; [auto|]. right. destruct (IH x Q) as [->|Q']; [apply above_one; exact H|eapply above_more; eauto].
Qed.
Lemma ladder_nodup ty l : ladder ty l -> NoDup l /\ forall x, In x l -> x < List.length T.
Proof using Hacyclic.
  induction 1 as [ty|ty p l H Hl [IH1 IH2]]; [split; [constructor|intros x []]|]. split.
  - constructor; [|exact IH1]. intro Q. destruct (ladder_above _ _ Hl _ Q) as [->|Q']; [apply (above_acyclic p); apply above_one; exact H|apply (above_acyclic ty); eapply above_more; eauto].
  - intros x [<-|Q]; [|auto]. unfold Tree.parent_of in H. destruct (nth_error T ty) eqn:E; [|discriminate]. apply nth_error_Some. congruence.
Qed.
Lemma ladder_short ty l : ladder ty l -> List.length l <= List.length T.
Proof using Hacyclic.
  intro H. destruct (ladder_nodup _ _ H) as [H1 H2]. rewrite <- (seq_length (List.length T) 0). apply NoDup_incl_length; [exact H1|]. intros x Q. apply in_seq. specialize (H2 x Q). lia.
Qed.
Lemma walk_ladder fuel : forall ty i, walk_decl F T fuel ty i = None -> exists l, ladder ty l /\ List.length l = fuel.
Proof using Type.
  induction fuel as [|fuel IH]; intros ty i E; [exists []; split; [constructor|reflexivity]|]. cbn [walk_decl] in E.
  destruct (match var_of ty i with Some v => v_decl v | None => None end); [discriminate|]. destruct (parent_of ty) as [p|] eqn:Ep; [|discriminate].
  destruct (IH _ _ E) as (l & Hl & <-). exists (ty :: l). split; [econstructor; eauto|reflexivity].
Qed.
Lemma get_decl_ends ty i : get_decl ty i <> None.
Proof using Hacyclic. intro E. destruct (walk_ladder _ _ _ E) as (l & Hl & Q). apply ladder_short in Hl. lia. Qed.
Lemma climb_ends fuel f i m : forall ty s, (forall p, lookup f p i m s <> EStuck) -> climb fuel (fun p => lookup f p i m) ty s = EStuck -> exists l, ladder ty l /\ List.length l = fuel.
Proof using Type.
  induction fuel as [|fuel IH]; intros ty s Hl E; [exists []; split; [constructor|reflexivity]|]. cbn [Tree.climb] in E. destruct (lookup f ty i m s) as [[c|p] s'|e s'|] eqn:El; try discriminate.
  - apply lookup_continue in El. destruct El as [-> [[_ ->]|[-> _]]]; [|discriminate]. destruct (parent_of ty) as [p|] eqn:Ep; [|discriminate].
    destruct (IH _ _ Hl E) as (l & Hla & <-). exists (ty :: l). split; [econstructor; eauto|reflexivity].
  - destruct (Hl ty El).
Qed.
Definition open (s : cells) (v : nat * text) : bool :=
  match fst (s (fst v) (snd v)) with Some _ => false | None => negb (snd (s (fst v) (snd v))) end.
Definition todo (s : cells) : nat := List.length (filter (open s) slots).
Definition shrinks (s s' : cells) : Prop := forall v, open s' v = true -> open s v = true.
Lemma filter_le {A : Type} (f g : A -> bool) (l : list A) : (forall v, f v = true -> g v = true) -> List.length (filter f l) <= List.length (filter g l).
Proof using Type.
  intro H. induction l as [|x l IH]; [auto|]. cbn [filter]. destruct (f x) eqn:E; [rewrite (H x E); cbn; lia|]. destruct (g x); cbn; lia.
Qed.
Lemma filter_lt {A : Type} (f g : A -> bool) x (l : list A) : (forall v, f v = true -> g v = true) -> In x l -> f x = false -> g x = true -> List.length (filter f l) < List.length (filter g l).
Proof using Type.
  intros H. induction l as [|y l IH]; [intros []|]. intros [->|Hin] Hf Hg; cbn [filter].
  - rewrite Hf, Hg. cbn. pose proof (filter_le f g l H). lia.
  - specialize (IH Hin Hf Hg). destruct (f y) eqn:E; [rewrite (H y E); cbn; lia|]. destruct (g y); cbn; lia.
Qed.
Lemma shrinks_todo s s' : shrinks s s' -> todo s' <= todo s.
Proof using Type. intro H. apply filter_le. exact H. Qed.
Lemma shrinks_store s ty i x : (open (store s ty i x) (ty, i) = true -> open s (ty, i) = true) -> shrinks s (store s ty i x).
Proof using Type.
  intros H [ty' i'] Q. destruct (same_slot ty ty' i i') as [[-> ->]|N]; [auto|]. unfold open in *. cbn [fst snd] in *. rewrite store_other in Q by exact N. exact Q.
Qed.
Definition ends_at (f : nat) : Prop := forall ty i m s, todo s < f ->
  match lookup f ty i m s with EOk _ s' | EErr _ s' => shrinks s s' | EStuck => False end.
Definition ending (f : nat) (B : Type) (s1 : cells) (s2 : unit) (x : eres cells B) (y : eres unit B) : Prop :=
  match x with EOk _ s' | EErr _ s' => shrinks s1 s' | EStuck => False end.
Lemma ev_ends f ty e hint s : ends_at f -> todo s < f -> ending f _ s tt (ev_expr F fl (env_at (look f) ty) e hint s) (ev_expr F fl (given (fun _ _ _ => None) ty) e hint tt).
Proof using Hacyclic.
  intros Hf Hs. apply (ev_related F fl _ _ false (env_at (look f) ty) (given (fun _ _ _ => None) ty) (fun s1 _ => todo s1 < f) (ending f)); try reflexivity; try discriminate; [..|exact Hs].
  - intros B a s1 [] H v Q. exact Q.
  - intros B s1 s2 H v Q. exact Q.
  - intros B C s1 s2 x y k1 k2 H0 Hx Hk. unfold ending in *. destruct x as [a t1|e1 t1|]; cbn [ebind]; [|exact Hx|exact Hx].
    assert (H1 : todo t1 < f) by (pose proof (shrinks_todo _ _ Hx); lia). specialize (Hk a t1 tt H1). destruct (k1 a t1) as [b t2|e2 t2|]; [intros v Q; auto|intros v Q; auto|exact Hk].
  - unfold TreeSpec.given, Tree.env_at. cbn [e_tree]. constructor; try reflexivity. intros ty' i m s1 s2 _ H1. cbn [t_lookup]. unfold ending.
    destruct (climb (S (List.length T)) (fun p => lookup f p i m) ty' s1) as [c s'|e' s'|] eqn:E.
    + destruct (climb_found _ _ _ _ _ _ _ _ E) as (o & Ho & Hl). pose proof (Hf o i m s1 H1) as K. rewrite Hl in K. exact K.
    + destruct (climb_err _ _ _ _ _ _ _ _ E) as [(o & Ho & Hl)|[-> _]]; [|intros v Q; exact Q]. pose proof (Hf o i m s1 H1) as K. rewrite Hl in K. exact K.
    + apply climb_ends in E; [destruct E as (l & Hl & Q); apply ladder_short in Hl; lia|]. intros p Q. pose proof (Hf p i m s1 H1) as K. rewrite Q in K. exact K.
Qed.
Lemma ends f : ends_at f.
Proof using Hacyclic.
  induction f as [|f IH]; intros ty i m s Hs; [lia|]. cbn [Tree.lookup]. destruct (get_decl ty i) as [[d|]|] eqn:Ed; [|intros v Q; exact Q|exact (get_decl_ends _ _ Ed)].
  destruct (var_of ty i) as [v|] eqn:Ev; [|intros w Q; exact Q]. destruct (fst (s ty i)) as [c|] eqn:Ec; [intros w Q; exact Q|].
  destruct (v_expr v) as [e|] eqn:Ee.
  - destruct (snd (s ty i)) eqn:Eb; [intros w Q; exact Q|]. destruct (negb (evaluable d)); [intros w Q; exact Q|]. destruct (negb (d_const d) && m); [intros w Q; exact Q|].
    assert (Hm : shrinks s (store s ty i (None, true))).
    { apply shrinks_store. unfold open. cbn [fst snd]. rewrite store_same. discriminate. }
    assert (Hlt : todo (store s ty i (None, true)) < f).
    { assert (K : todo (store s ty i (None, true)) < todo s); [|lia]. apply (filter_lt _ _ (ty, i)); [exact Hm|eapply var_slot; eauto| |]; unfold open; cbn [fst snd]; [rewrite store_same; reflexivity|rewrite Ec, Eb; reflexivity]. }
    pose proof (ev_ends f ty e (hint_of d) _ IH Hlt) as K. unfold ending in K.
    destruct (ev_expr F fl (env_at (look f) ty) e (hint_of d) (store s ty i (None, true))) as [c1 s1|x s1|]; [|intros w Q; auto|exact K].
    intros w Q. apply Hm. apply K. revert w Q. apply shrinks_store. unfold open. cbn [fst snd]. rewrite store_same. discriminate.
  - apply shrinks_store. unfold open. cbn [fst snd]. rewrite store_same. discriminate.
Qed.
End PROOFS.
