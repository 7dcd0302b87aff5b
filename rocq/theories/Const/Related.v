(** Two evaluations of the same expression that differ in how variables are looked up. *)
From Coq Require Import List NArith ZArith Bool String.
From Verif Require Import Common.Text Parse.Ast Const.Model.
Import ListNotations.
Open Scope nat_scope.

Local Arguments t_find {F St}. Local Arguments t_navigate {F St}. Local Arguments t_proc {F St}. Local Arguments t_type {F St}.
Local Arguments t_parent {F St}. Local Arguments t_self {F St}. Local Arguments t_lookup {F St}.
Local Arguments e_tree {F St}. Local Arguments e_defined {F St}. Local Arguments e_fexists {F St}. Local Arguments e_rgb {F St}.
Section EXPR.
Variable F : Type.
Section INDUCT.
Variable P : expr F -> Prop.
Variable Pt : term F -> Prop.
Definition Parg (e : expr F) : Prop := P e /\ match e with Assign _ l r => P l /\ P r | _ => True end.
Hypothesis P1 : forall t fs, Pt t -> P (Base t fs).
Hypothesis P2 : forall op l r, P l -> P r -> P (Bin op l r).
Hypothesis P3 : forall op l r, P l -> P r -> P (Assign op l r).
Hypothesis P4 : forall c a b, P c -> P a -> P b -> P (Tern c a b).
Hypothesis Pe : forall e, P e -> Pt (MExpr e).
Hypothesis Ppre : forall path vars, Forall (fun kv => P (snd kv)) vars -> Pt (MPrefab path vars).
Hypothesis Pnew : forall path vars args, Forall (fun kv => P (snd kv)) vars -> (forall l, args = Some l -> Forall Parg l) -> Pt (MNewPrefab path vars args).
Hypothesis Pimp : forall args, (forall l, args = Some l -> Forall Parg l) -> Pt (MNewImplicit args).
Hypothesis Plist : forall args, Forall Parg args -> Pt (MList args).
Hypothesis Pcall : forall i args, Forall Parg args -> Pt (MCall i args).
Hypothesis Pother : forall t, (match t with MExpr _ | MPrefab _ _ | MNewPrefab _ _ _ | MNewImplicit _ | MList _ | MCall _ _ => False | _ => True end) -> Pt t.
Lemma expr_rec2 : forall e, P e.
Proof using P1 P2 P3 P4 Pe Ppre Pnew Pimp Plist Pcall Pother.
  fix IH 1.
  assert (Ha : forall e, P e -> (match e with Assign _ l r => P l /\ P r | _ => True end) -> Parg e) by (intros; split; assumption).
  intros [t fs|op l r|op l r|c a b]; [|apply P2; apply IH|apply P3; apply IH|apply P4; apply IH].
  apply P1.
  revert t. fix IHt 1. intro t.
  assert (L : forall (l : list (expr F)), (fix al (l : list (expr F)) : Prop := match l with [] => True | e :: l' => Parg e /\ al l' end) l -> Forall Parg l).
  { induction l as [|x l Hl]; intro H; constructor; [exact (proj1 H)|exact (Hl (proj2 H))]. }
  assert (V : forall (l : list (text * expr F)), (fix al (l : list (text * expr F)) : Prop := match l with [] => True | e :: l' => P (snd e) /\ al l' end) l -> Forall (fun kv => P (snd kv)) l).
  { induction l as [|x l Hl]; intro H; constructor; [exact (proj1 H)|exact (Hl (proj2 H))]. }
  destruct t as [ |z|f|i|s|s|n| | | |e|path vars|s parts|i args|args|args|args|path vars args|i fields args|args|args it il|args il|args|x y|lib fn args|i|i args];
    try (apply Pother; exact I).
  - apply Pe. apply IH.
  - apply Ppre. apply V. revert vars. fix G 1. intros [|[k e] l]; [exact I|]. split; [apply IH|apply G].
  - apply Pcall. apply L. revert args. fix G 1. intros [|e l]; [exact I|]. split; [|apply G]. split; [apply IH|]. destruct e as [t fs'|op a b|op a b|c a b]; [exact I|exact I|split; apply IH|exact I].
  - apply Pimp. destruct args as [args|]; [|discriminate]. intros l E0. injection E0 as <-. apply L. revert args. fix G 1. intros [|e l]; [exact I|]. split; [|apply G]. split; [apply IH|]. destruct e as [t fs'|op a b|op a b|c a b]; [exact I|exact I|split; apply IH|exact I].
  - apply Pnew.
    + apply V. revert vars. fix G 1. intros [|[k e] l]; [exact I|]. split; [apply IH|apply G].
    + destruct args as [args|]; [|discriminate]. intros l E0. injection E0 as <-. apply L. revert args. fix G 1. intros [|e l]; [exact I|]. split; [|apply G]. split; [apply IH|]. destruct e as [t fs'|op a b|op a b|c a b]; [exact I|exact I|split; apply IH|exact I].
  - apply Plist. apply L. revert args. fix G 1. intros [|e l]; [exact I|]. split; [|apply G]. split; [apply IH|]. destruct e as [t fs'|op a b|op a b|c a b]; [exact I|exact I|split; apply IH|exact I].
Qed.
End INDUCT.
End EXPR.
(** ** Expressions without [a.b] *)
Section FIELDS.
Variable F : Type.
Definition is_field (f : follow F) : bool := match f with FField _ _ => true | _ => false end.
Fixpoint no_field (e : expr F) : bool :=
  match e with
  | Base t fs => no_field_term t && forallb (fun f => negb (is_field f)) fs
  | Bin _ l r | Assign _ l r => no_field l && no_field r
  | Tern c a b => no_field c && no_field a && no_field b
  end
with no_field_term (t : term F) : bool :=
  match t with
  | MExpr e => no_field e
  | MPrefab _ vars => forallb (fun kv => no_field (snd kv)) vars
  | MNewPrefab _ vars args => forallb (fun kv => no_field (snd kv)) vars && match args with Some l => forallb no_field l | None => true end
  | MNewImplicit args => match args with Some l => forallb no_field l | None => true end
  | MList args | MCall _ args => forallb no_field args
  | _ => true
  end.
End FIELDS.

Section REL.
Variable F : Type.
Variable fl : f32 F.
Variables S1 S2 : Type.
(** only expressions without fields *)
Variable ff : bool.
Variable E1 : env F S1.
Variable E2 : env F S2.
Variable J : S1 -> S2 -> Prop.
(** of two evaluations: the states they begin in, and their results *)
Variable Q : forall A : Type, S1 -> S2 -> eres S1 A -> eres S2 A -> Prop.
Arguments Q {A}.
Hypothesis Qret : forall (A : Type) (a : A) s1 s2, J s1 s2 -> Q s1 s2 (EOk a s1) (EOk a s2).
Hypothesis Qerr : forall (A : Type) s1 s2, J s1 s2 -> Q s1 s2 (EErr (A:=A) EOther s1) (EErr EOther s2).
Hypothesis Qbind : forall (A B : Type) s1 s2 (x : eres S1 A) (y : eres S2 A) (k1 : A -> S1 -> eres S1 B) (k2 : A -> S2 -> eres S2 B),
  J s1 s2 -> Q s1 s2 x y -> (forall a t1 t2, J t1 t2 -> Q t1 t2 (k1 a t1) (k2 a t2)) -> Q s1 s2 (ebind x k1) (ebind y k2).
(** the same surroundings, but for the values of variables *)
Record alike (T1 : tree_env F S1) (T2 : tree_env F S2) : Prop := {
  al_find : forall p, t_find T1 p = t_find T2 p;
  al_navigate : forall p, t_navigate T1 p = t_navigate T2 p;
  al_proc : forall ty i, t_proc T1 ty i = t_proc T2 ty i;
  al_type : t_type T1 = t_type T2; al_parent : t_parent T1 = t_parent T2; al_self : t_self T1 = t_self T2;
  al_lookup : forall ty i m s1 s2, (ff = true -> m = false) -> J s1 s2 -> Q s1 s2 (t_lookup T1 ty i m s1) (t_lookup T2 ty i m s2) }.
Hypothesis Htree : match e_tree E1, e_tree E2 with Some T1, Some T2 => alike T1 T2 | None, None => True | _, _ => False end.
Hypothesis Hdef : e_defined E1 = e_defined E2.
Hypothesis Hfex : e_fexists E1 = e_fexists E2.
Hypothesis Hrgb : e_rgb E1 = e_rgb E2.

Lemma lift_rel (A : Type) (x : option A) s1 s2 : J s1 s2 -> Q s1 s2 (lift x s1) (lift x s2).
Proof using Qret Qerr. destruct x; cbn; auto. Qed.
Ltac trees :=
  let Hs := fresh "Hs" in let T1 := fresh "T1" in let T2 := fresh "T2" in
  pose proof Htree as Hs; destruct (e_tree E1) as [T1|], (e_tree E2) as [T2|]; try contradiction; [|auto].
Lemma follow_rel c f s1 s2 : (ff = true -> is_field F f = false) -> J s1 s2 -> Q s1 s2 (ev_follow F fl E1 c f s1) (ev_follow F fl E2 c f s2).
Proof using Qret Qerr Htree.
  intros Hf Hj. unfold ev_follow.
  assert (K1 : is_field F f = true -> forall h name, Q s1 s2 (match e_tree E1 with Some T => match t_find T (show_path h) with Some ty => t_lookup T ty name true s1 | None => EErr EOther s1 end | None => EErr EOther s1 end)
                               (match e_tree E2 with Some T => match t_find T (show_path h) with Some ty => t_lookup T ty name true s2 | None => EErr EOther s2 end | None => EErr EOther s2 end)).
  { intros Hi h name. trees. rewrite (al_find _ _ Hs). destruct (t_find T2 (show_path h)); [|auto]. apply al_lookup; [assumption| |assumption]. intro Q1. rewrite (Hf Q1) in Hi. discriminate. }
  assert (K2 : forall name, Q s1 s2 (match static_type F c, e_tree E1 with Some path, Some T => match t_find T (show_path path) with Some ty => t_lookup T ty name false s1 | None => EErr EOther s1 end | _, _ => EErr EOther s1 end)
      (match static_type F c, e_tree E2 with Some path, Some T => match t_find T (show_path path) with Some ty => t_lookup T ty name false s2 | None => EErr EOther s2 end | _, _ => EErr EOther s2 end)).
  { intro name. destruct (static_type F c) as [path|]; [|auto]. trees. rewrite (al_find _ _ Hs). destruct (t_find T2 (show_path path)); [apply al_lookup; auto|auto]. }
  assert (K3 : forall name, Q (A:=constant F) s1 s2 (match static_type F c, e_tree E1 with Some path, Some T => match t_find T (show_path path) with Some ty => lift (option_map (fun p => CPrefab (Pop p [])) (t_proc T ty name)) s1 | None => EErr EOther s1 end | _, _ => EErr EOther s1 end)
      (match static_type F c, e_tree E2 with Some path, Some T => match t_find T (show_path path) with Some ty => lift (option_map (fun p => CPrefab (Pop p [])) (t_proc T ty name)) s2 | None => EErr EOther s2 end | _, _ => EErr EOther s2 end)).
  { intro name. destruct (static_type F c) as [path|]; [|auto]. trees. rewrite (al_find _ _ Hs). destruct (t_find T2 (show_path path)); [|auto]. rewrite (al_proc _ _ Hs). apply lift_rel. exact Hj. }
  destruct c as [[h|]|ty a|l|g l|p|s|s|x]; destruct f; auto using lift_rel.
Qed.
Lemma follows_rel : forall fs, (ff = true -> forallb (fun f => negb (is_field F f)) fs = true) -> forall c s1 s2, J s1 s2 -> Q s1 s2 (ev_follows F fl E1 c fs s1) (ev_follows F fl E2 c fs s2).
Proof using Qret Qerr Qbind Htree.
  induction fs as [|f fs IH]; intros Hf c s1 s2 Hj; cbn [ev_follows]; [auto|].
  assert (H1 : ff = true -> is_field F f = false /\ forallb (fun f => negb (is_field F f)) fs = true).
  { intro Q1. specialize (Hf Q1). cbn [forallb] in Hf. apply andb_true_iff in Hf. rewrite negb_true_iff in Hf. exact Hf. }
  apply Qbind; [assumption|apply follow_rel; [intro Q1; apply (H1 Q1)|exact Hj]|]. intros; apply IH; [intro Q1; apply (H1 Q1)|assumption].
Qed.
Lemma prefab_rel path m s1 s2 : J s1 s2 -> Q s1 s2 (ev_prefab F E1 path m s1) (ev_prefab F E2 path m s2).
Proof using Qret Qerr Htree.
  intro Hj. unfold ev_prefab. destruct (absolute path); [auto|]. trees. rewrite (al_navigate _ _ Hs). apply lift_rel. exact Hj.
Qed.

Definition related (e : expr F) : Prop := forall hint s1 s2, J s1 s2 -> Q s1 s2 (ev_expr F fl E1 e hint s1) (ev_expr F fl E2 e hint s2).
Definition related_term (t : term F) : Prop := forall hint s1 s2, J s1 s2 -> Q s1 s2 (ev_term F fl E1 t hint s1) (ev_term F fl E2 t hint s2).
Definition related_arg (e : expr F) : Prop := related e /\ match e with Assign _ l r => related l /\ related r | _ => True end.
Notation sub1 := (fun e s => ev_expr F fl E1 e None s).
Notation sub2 := (fun e s => ev_expr F fl E2 e None s).
Lemma args_rel es : Forall related_arg es -> forall s1 s2, J s1 s2 -> Q s1 s2 (ev_args F sub1 es s1) (ev_args F sub2 es s2).
Proof using Qret Qbind.
  induction 1 as [|e es [He Ha] Hes IH]; intros s1 s2 Hj; cbn [ev_args]; [auto|].
  apply Qbind; [assumption| |].
  - destruct e as [t fs|op l r|op l r|c a b]; try (apply Qbind; [assumption|apply He; exact Hj|intros; apply Qret; assumption]).
    destruct op; try (apply Qbind; [assumption|apply He; exact Hj|intros; apply Qret; assumption]).
    destruct Ha as [Hl Hr]. apply Qbind; [assumption| |].
    + destruct (key_ident F l); [auto|apply Hl; exact Hj].
    + intros a t1 t2 Hj'. apply Qbind; [assumption|apply Hr; exact Hj'|]. intros; apply Qret; assumption.
  - intros a t1 t2 Hj'. apply Qbind; [assumption|apply IH; exact Hj'|]. intros; apply Qret; assumption.
Qed.
Lemma vars_rel vs : Forall (fun kv => related (snd kv)) vs -> forall m s1 s2, J s1 s2 -> Q s1 s2 (ev_vars F sub1 vs m s1) (ev_vars F sub2 vs m s2).
Proof using Qret Qbind.
  induction 1 as [|[k e] vs He Hvs IH]; intros m s1 s2 Hj; cbn [ev_vars]; [auto|]. apply Qbind; [assumption|apply He; exact Hj|]. intros; apply IH; assumption.
Qed.
Lemma opt_rel (args : option (list (expr F))) : (forall l, args = Some l -> Forall related_arg l) -> forall s1 s2, J s1 s2 -> Q s1 s2 (ev_opt (ev_args F sub1) args s1) (ev_opt (ev_args F sub2) args s2).
Proof using Qret Qbind.
  intros H s1 s2 Hj. destruct args as [l|]; cbn [ev_opt]; [|auto]. apply Qbind; [assumption|apply args_rel; auto|]. intros; apply Qret; assumption.
Qed.

Lemma fn_args (f : constfn) l : Forall related_arg l -> forall s1 s2, J s1 s2 ->
  Q s1 s2 (ebind (ev_args F sub1 l s1) (fun a s => EOk (CCall f a) s)) (ebind (ev_args F sub2 l s2) (fun a s => EOk (CCall f a) s)).
Proof using Qret Qbind. intros H s1 s2 Hj. apply Qbind; [assumption|apply args_rel; assumption|]. intros; apply Qret; assumption. Qed.
Notation calm e := (ff = true -> no_field F e = true).
Definition P' (e : expr F) : Prop := calm e -> related e.
Lemma calm2 (x y : bool) : (ff = true -> x && y = true) -> (ff = true -> x = true) /\ (ff = true -> y = true).
Proof using Type. intro H. split; intro Q1; apply (proj1 (andb_true_iff _ _) (H Q1)). Qed.
Lemma calm_args args : Forall (Parg F P') args -> (ff = true -> forallb (no_field F) args = true) -> Forall related_arg args.
Proof using Type.
  induction 1 as [|e es [He Ha] Hes IH]; intro H; [constructor|]. cbn [forallb] in H. apply calm2 in H. destruct H as [H1 H2]. constructor; [|auto]. split; [auto|].
  destruct e as [t fs|op l r|op l r|c a b]; auto. cbn [no_field] in H1. apply calm2 in H1. destruct H1, Ha. auto.
Qed.
Lemma calm_vars (vars : list (text * expr F)) : Forall (fun kv => P' (snd kv)) vars -> (ff = true -> forallb (fun kv => no_field F (snd kv)) vars = true) -> Forall (fun kv => related (snd kv)) vars.
Proof using Type.
  induction 1 as [|e es He Hes IH]; intro H; [constructor|]. cbn [forallb] in H. apply calm2 in H. destruct H as [H1 H2]. constructor; auto.
Qed.
Theorem ev_related : forall e, (ff = true -> no_field F e = true) -> forall hint s1 s2, J s1 s2 -> Q s1 s2 (ev_expr F fl E1 e hint s1) (ev_expr F fl E2 e hint s2).
Proof using Qret Qerr Qbind Htree Hdef Hfex Hrgb.
  intro e. change (P' e). apply (expr_rec2 F P' (fun t => (ff = true -> no_field_term F t = true) -> related_term t)); clear e; unfold P'.
  - intros t fs Ht Hc hint s1 s2 Hj. cbn [no_field] in Hc. apply calm2 in Hc. destruct Hc as [Hc1 Hc2]. change (Q s1 s2 (ebind (ev_term F fl E1 t (match fs with [] => hint | _ => None end) s1) (fun c s => ev_follows F fl E1 c fs s))
      (ebind (ev_term F fl E2 t (match fs with [] => hint | _ => None end) s2) (fun c s => ev_follows F fl E2 c fs s))).
    apply Qbind; [assumption|apply Ht; assumption|]. intros; apply follows_rel; assumption.
  - intros op l r Hl Hr Hc hint s1 s2 Hj. cbn [no_field] in Hc. apply calm2 in Hc. destruct Hc as [Hc1 Hc2]. change (Q s1 s2 (ebind (ev_expr F fl E1 l None s1) (fun a s => ebind (ev_expr F fl E1 r None s) (fun b t => lift (binary F fl op a b) t)))
      (ebind (ev_expr F fl E2 l None s2) (fun a s => ebind (ev_expr F fl E2 r None s) (fun b t => lift (binary F fl op a b) t)))).
    apply Qbind; [assumption|apply Hl; assumption|]. intros a t1 t2 Ht. apply Qbind; [assumption|apply Hr; assumption|]. intros; apply lift_rel; assumption.
  - intros op l r _ _ _ hint s1 s2 Hj. change (Q (A:=constant F) s1 s2 (EErr EOther s1) (EErr EOther s2)). auto.
  - intros c a b Hc Ha Hb Hn hint s1 s2 Hj. cbn [no_field] in Hn. apply calm2 in Hn. destruct Hn as [Hn Hn3]. apply calm2 in Hn. destruct Hn as [Hn1 Hn2].
    change (Q s1 s2 (ebind (ev_expr F fl E1 c None s1) (fun v s => if to_bool F fl v then ev_expr F fl E1 a hint s else ev_expr F fl E1 b hint s))
      (ebind (ev_expr F fl E2 c None s2) (fun v s => if to_bool F fl v then ev_expr F fl E2 a hint s else ev_expr F fl E2 b hint s))).
    apply Qbind; [assumption|apply Hc; assumption|]. intros v t1 t2 Ht. destruct (to_bool F fl v); [apply Ha|apply Hb]; assumption.
  - intros e He Hc hint s1 s2 Hj. exact (He Hc hint s1 s2 Hj).
  - intros path vars Hv Hc hint s1 s2 Hj. pose proof (calm_vars vars Hv Hc) as Hv'.
    change (Q s1 s2 (ebind (ev_vars F sub1 vars [] s1) (fun m s => ebind (ev_prefab F E1 path m s) (fun p t => EOk (CPrefab p) t)))
      (ebind (ev_vars F sub2 vars [] s2) (fun m s => ebind (ev_prefab F E2 path m s) (fun p t => EOk (CPrefab p) t)))).
    apply Qbind; [assumption|apply vars_rel; assumption|]. intros m t1 t2 Ht. apply Qbind; [assumption|apply prefab_rel; exact Ht|]. intros; apply Qret; assumption.
  - intros path vars args Hv Ha0 Hc hint s1 s2 Hj. cbn [no_field_term] in Hc. apply calm2 in Hc. destruct Hc as [Hc1 Hc2]. pose proof (calm_vars vars Hv Hc1) as Hv'.
    assert (Ha : forall l, args = Some l -> Forall related_arg l) by (intros l ->; apply calm_args; auto).
    change (Q s1 s2 (ebind (ev_vars F sub1 vars [] s1) (fun m s => ebind (ev_prefab F E1 path m s) (fun p t => ebind (ev_opt (ev_args F sub1) args t) (fun a u => EOk (CNew (Some p) a) u))))
      (ebind (ev_vars F sub2 vars [] s2) (fun m s => ebind (ev_prefab F E2 path m s) (fun p t => ebind (ev_opt (ev_args F sub2) args t) (fun a u => EOk (CNew (Some p) a) u))))).
    apply Qbind; [assumption|apply vars_rel; assumption|]. intros m t1 t2 Ht. apply Qbind; [assumption|apply prefab_rel; exact Ht|].
    intros q u1 u2 Hu. apply Qbind; [assumption|apply opt_rel; assumption|]. intros; apply Qret; assumption.
  - intros args Ha0 Hc hint s1 s2 Hj. assert (Ha : forall l, args = Some l -> Forall related_arg l) by (intros l ->; apply calm_args; auto).
    change (Q s1 s2 (ebind (ev_opt (ev_args F sub1) args s1) (fun a u => EOk (CNew None a) u)) (ebind (ev_opt (ev_args F sub2) args s2) (fun a u => EOk (CNew None a) u))).
    apply Qbind; [assumption|apply opt_rel; assumption|]. intros; apply Qret; assumption.
  - intros args Ha0 Hc hint s1 s2 Hj. pose proof (calm_args args Ha0 Hc) as Ha.
    change (Q s1 s2 (ebind (ev_args F sub1 args s1) (fun a u => EOk (CList a) u)) (ebind (ev_args F sub2 args s2) (fun a u => EOk (CList a) u))).
    apply Qbind; [assumption|apply args_rel; assumption|]. intros; apply Qret; assumption.
  - intros i args Ha0 Hc hint s1 s2 Hj. pose proof (calm_args args Ha0 Hc) as Ha. clear Ha0 Hc. cbn [ev_term]. destruct (fn_of i) as [f|]; [exact (fn_args f args Ha s1 s2 Hj)|].
    destruct (existsb (text_eqb i) _).
    { destruct args as [|e [|e' args]]; auto. inversion Ha as [|? ? [He _] _]; subst. apply Qbind; [assumption|apply He; exact Hj|]. intros c t1 t2 Ht. destruct c; auto. }
    destruct (text_eqb i (lit "rgb")).
    { destruct ((3 <=? List.length args) && (List.length args <=? 5)); [|auto]. apply Qbind; [assumption|exact (args_rel args Ha s1 s2 Hj)|]. intros. rewrite Hrgb. apply lift_rel; assumption. }
    destruct (text_eqb i (lit "defined")).
    { rewrite Hdef. destruct (e_defined E2) as [d|]; [|auto]. destruct args as [|e [|e' args]]; auto. destruct (as_term F e) as [t|]; [|auto]. destruct t; auto. }
    destruct (text_eqb i (lit "nameof")).
    { destruct args as [|e [|e' args]]; auto. apply lift_rel. exact Hj. }
    destruct (text_eqb i (lit "fexists")); [|auto].
    rewrite Hfex. destruct (e_fexists E2) as [d|]; [|auto]. destruct args as [|e [|e' args]]; auto. destruct (as_term F e) as [t|]; [|auto]. destruct t; auto. apply lift_rel. exact Hj.
  - intros t Hn _ hint s1 s2 Hj.
    destruct t as [ |z|f|i|s|s|n| | | |e|path vars|s parts|i args|args|args|args|path vars args|i fields args|args|args it il|args il|args|x y|lib fn args|i|i args]; try contradiction; cbn [ev_term]; auto.
    + trees. destruct (text_eqb i (lit "type")); [rewrite (al_type _ _ Hs); auto|]. destruct (text_eqb i (lit "parent_type")); [rewrite (al_parent _ _ Hs); apply lift_rel; exact Hj|].
      rewrite (al_self _ _ Hs). apply al_lookup; auto.
    + trees. rewrite (al_type _ _ Hs). auto.
    + destruct hint; auto.
Qed.
End REL.
