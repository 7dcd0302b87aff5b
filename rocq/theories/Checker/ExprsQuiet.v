(** C69: an expression about which nothing is reported. *)
From Coq Require Import List Arith NArith ZArith Bool String Relations Lia.
From Verif Require Import Common.Text Objtree.Ispath Objtree.Model Parse.Ast Checker.CallTree Checker.Kwargs Checker.Directives Checker.TypeExpr Checker.Filters Checker.FiltersProps Checker.Exprs Checker.ExprsSpec Checker.ExprsProps.
Import ListNotations.
Open Scope nat_scope.

Section QUIET.
Variables F V D L : Type.
Variable t : objtree V D.
Variable rules : env L.
Variable returns : procref -> option texpr.
Variable vars : nat -> list (text * option vdecl).
Variable builtin : procref -> bool.
Variable kind : D -> text.
Variable self : procref.
Variable new_context : bool.
Variable locals : text -> option ana.
Notation size := (List.length (graph t)).
Notation self_type := (pr_ty self).
Notation var_decl := (var_decl t vars).
Notation proc_at := (proc_at t).
Notation type_at := (type_at t self).
Notation event := (event F L).
Notation expr := (expr F).
Notation part := (part F).
Notation visit := (visit (F := F) t rules returns vars builtin kind self new_context locals).
Notation looks := (looks (F := F) t rules returns vars builtin kind self locals).
Notation says := (says (F := F) t rules returns vars builtin kind self new_context locals).
Notation looked_at := (looked_at (F := F) t rules returns vars builtin kind self locals).

(** ** Specification *)
(** What is shown to the user; the others are for the checks of whole programs *)
Definition shown (ev : event) : Prop := match ev with Calls _ _ _ _ _ _ | Sleeps _ | Impure _ | CallsParentProc => False | _ => True end.
Definition quiet (h : option nat) (e : expr) : Prop := forall ev, In ev (snd (visit h e)) -> ~ shown ev.

(** The parts that an expression has, in what is written.  Left out: what [new] has between its parentheses when the type has no procedure
    [New] and is one of the four that need none; arguments of [SpacemanDMM_unlint]; variables of a path like [/obj{x = 1}]; [new a.b(...)]. *)
Inductive raw : Type := RE (e : expr) | RT (x : term F) | RF (f : follow F).
Definition raw_of (n : part) : raw := match n with E _ e => RE e | T _ x => RT x | W _ f => RF f end.
Definition excused (i : nat) : Prop := proc_at i (lit "New") = None /\ In (path_of t i) (map lit ["/list"; "/alist"; "/vector"; "/pixloc"]%string).
Inductive arg_in (args : list expr) : raw -> Prop := arg_in_of e k v : In e args -> arg_of e k v -> arg_in args (RE v).
Definition child (n : part) (q : raw) : Prop :=
  match n with
  | E _ (Base x fs) => q = RT x \/ exists f, In f fs /\ q = RF f
  | E _ (Bin _ l r) | E _ (Assign _ l r) => q = RE l \/ q = RE r
  | E _ (Tern c a b) => q = RE c \/ q = RE a \/ q = RE b
  | T _ (MExpr e) => q = RE e
  | T _ (MInterp _ ps) => exists e s, In (Some e, s) ps /\ q = RE e
  | T _ (MCall x args) =>
      if text_eqb x (lit "SpacemanDMM_unlint") then proc_at self_type x <> None /\ arg_in args q
      else if text_eqb x (lit "SpacemanDMM_debug") then match proc_at self_type x with Some _ => arg_in args q | None => exists e, In e args /\ q = RE e end
      else arg_in args q
  | T _ (MSelfCall args) | T _ (MParentCall args) | T _ (MGlobalCall _ args) | T _ (MList args) => arg_in args q
  | T h (MNewImplicit (Some args)) => (forall i, h = Some i -> ~ excused i) /\ arg_in args q
  | T _ (MNewPrefab path _ (Some args)) => (forall i, type_at path = Some i -> ~ excused i) /\ arg_in args q
  | T _ (MInput args _ l) | T _ (MLocate args l) => arg_in args q \/ exists e, l = Some e /\ q = RE e
  | T _ (MPick cs) => exists w e, In (w, e) cs /\ (q = RE e \/ exists w', w = Some w' /\ q = RE w')
  | T _ (MDynCall a b) => arg_in a q \/ arg_in b q
  | T _ (MExtCall l f args) => (exists e, l = Some e /\ q = RE e) \/ q = RE f \/ arg_in args q
  | W _ (FIndex _ e) => q = RE e
  | W _ (FCall _ _ args) => arg_in args q
  | _ => False
  end.
(** What is known of a part about which nothing is reported *)
Definition fine (n : part) : Prop :=
  match n with
  | T _ (MIdent x) => (exists a, locals x = Some a) \/ x = lit "type" \/ exists d, var_decl self_type x = Some d
  | T _ (MGlobalIdent x) => exists d, var_decl 0 x = Some d
  | T _ (MPrefab path _) => exists i, type_at path = Some i
  | T _ (MNewPrefab path _ _) => exists i, type_at path = Some i /\ ((exists p, proc_at i (lit "New") = Some p) \/ excused i)
  | T _ (MCall x _) => (exists p, proc_at self_type x = Some p) \/ x = lit "__PROC__" \/ x = lit "SpacemanDMM_unlint" \/ x = lit "SpacemanDMM_debug"
  | T _ (MParentCall _) => exists p, parent_proc t size self = Some (Some p)
  | T _ (MGlobalCall x _) => exists p, proc_at 0 x = Some p
  | T h (MNewImplicit _) => exists i, h = Some i /\ ((exists p, proc_at i (lit "New") = Some p) \/ excused i)
  | W a (FField k x) => with_colon k \/ x_type a = SProc \/ exists ty, basic_type (x_type a) = Some ty /\ ((path_of t ty = lit "/callee" /\ x = lit "proc") \/ exists d, var_decl ty x = Some d)
  | W a (FCall k x _) => with_colon k \/ exists ty p, basic_type (x_type a) = Some ty /\ proc_at ty x = Some p /\ (forall q l, ~ closed t rules ty p q l)
  | W a (FStaticField x) => exists i d, target t a i /\ var_decl i x = Some d
  | W a (FProcRef x) => exists i p, target t a i /\ proc_at i x = Some p
  | W a (FIndex _ _) => forall i, x_type a = SType i -> exists p, proc_at i (lit "operator[]") = Some p
  | _ => True
  end.

(** ** Proofs *)
Section PART.
Variable n : part.
Hypothesis Q : forall ev, says n ev -> ~ shown ev.
Lemma is_fine : fine n.
Proof using Q.
  destruct n as [h e|h y|a f]; [exact I| |].
  - destruct y as [ |z|f|x|s|s|k| | | |e|path vs|s ps|x args|args|args|args|path vs args|i fs args|args|args it l|args l|cs|ca cb|l f args|x|x args]; cbn [fine]; try exact I.
    + destruct (locals x) as [a|] eqn:Hx; [left; exists a; reflexivity|]. right. destruct (text_eqb_spec x (lit "type")) as [->|N]; [left; reflexivity|]. right.
      destruct (var_decl self_type x) as [d|] eqn:Hd; [exists d; reflexivity|]. destruct (Q (UndefinedVar x)); [apply sy_var; assumption|exact I].
    + destruct (type_at path) as [i|] eqn:Hi; [exists i; reflexivity|]. destruct (Q (BadPath path)); [apply sy_path; exact Hi|exact I].
    + destruct (proc_at self_type x) as [p|] eqn:Hp; [left; exists p; reflexivity|]. right. destruct (text_eqb_spec x (lit "__PROC__")) as [->|N1]; [left; reflexivity|]. right.
      destruct (text_eqb_spec x (lit "SpacemanDMM_unlint")) as [->|N2]; [left; reflexivity|]. right. destruct (text_eqb_spec x (lit "SpacemanDMM_debug")) as [->|N3]; [reflexivity|].
      destruct (Q (UndefinedProc x self_type)); [apply sy_proc; assumption|exact I].
    + destruct (parent_proc t size self) as [[p|]|] eqn:Hp; [exists p; reflexivity| |]; (destruct (Q NoParent); [apply sy_no_parent; congruence|exact I]).
    + destruct h as [i|]; [exists i; split; [reflexivity|]|destruct (Q NoHint); [apply sy_no_hint|exact I]]. destruct (proc_at i (lit "New")) as [p|] eqn:Hp; [left; exists p; reflexivity|right; split; [exact Hp|]].
      destruct (existsb (text_eqb (path_of t i)) no_new) eqn:N; [apply mem_text in N; exact N|]. apply not_mem_text in N. destruct (Q (NoNew i)); [apply sy_no_new_hint; assumption|exact I].
    + destruct (type_at path) as [i|] eqn:Hi; [exists i; split; [reflexivity|]|destruct (Q (BadPath path)); [apply sy_new_path; exact Hi|exact I]]. destruct (proc_at i (lit "New")) as [p|] eqn:Hp; [left; exists p; reflexivity|right; split; [exact Hp|]].
      destruct (existsb (text_eqb (path_of t i)) no_new) eqn:N; [apply mem_text in N; exact N|]. apply not_mem_text in N. destruct (Q (NoNew i)); [eapply sy_no_new; eassumption|exact I].
    + destruct (var_decl 0 x) as [d|] eqn:Hd; [exists d; reflexivity|]. destruct (Q (UndefinedGlobal x)); [apply sy_global; exact Hd|exact I].
    + destruct (proc_at 0 x) as [p|] eqn:Hp; [exists p; reflexivity|]. destruct (Q (UndefinedGlobalProc x)); [apply sy_global_proc; exact Hp|exact I].
  - assert (St : forall x, f = FStaticField x \/ f = FProcRef x -> exists i, target t a i).
    { intros x Hf. destruct (basic_type (x_type a)) as [i|] eqn:Hb; [exists i; apply tg_type; exact Hb|]. destruct (x_val a) as [v|] eqn:Hv.
      - destruct v as [p|s|].
        + destruct (find t (render p)) as [i|] eqn:Hi; [exists i; exact (tg_path _ _ _ a p i Hb Hv Hi)|]. destruct (Q (NoSuchTypepath p)); [eapply sy_no_such_typepath; eassumption|exact I].
        + destruct (Q (NotTypepath x)); [eapply sy_not_typepath; [eassumption|eassumption|eassumption|discriminate]|exact I].
        + destruct (Q (NotTypepath x)); [eapply sy_not_typepath; [eassumption|eassumption|eassumption|discriminate]|exact I].
      - destruct (Q (NoTypepath x)); [eapply sy_no_typepath; eassumption|exact I]. }
    destruct f as [k e|k x|k x args|op|x|x]; cbn [fine]; try exact I.
    + intros i Hx. destruct (proc_at i (lit "operator[]")) as [p|] eqn:Hp; [exists p; reflexivity|]. destruct (Q (BadIndex i)); [apply sy_index; assumption|exact I].
    + destruct (colon_dec k) as [Hk|Hk]; [left; exact Hk|right]. destruct (x_type a) as [|i|l keys|] eqn:Hx; [| | |left; reflexivity].
      * destruct (Q (FieldNeedsType x)); [apply sy_field_needs_type; assumption|exact I].
      * right. exists i. split; [reflexivity|]. destruct (text_eqb (path_of t i) (lit "/callee") && text_eqb x (lit "proc")) eqn:C; [apply is_callee in C; left; exact C|]. apply not_callee in C.
        right. destruct (var_decl i x) as [d|] eqn:Hd; [exists d; reflexivity|]. destruct (Q (UndefinedField x (Some i))); [|exact I]. apply sy_field; try assumption. rewrite Hx. reflexivity.
      * right. exists l. split; [reflexivity|]. destruct (text_eqb (path_of t l) (lit "/callee") && text_eqb x (lit "proc")) eqn:C; [apply is_callee in C; left; exact C|]. apply not_callee in C.
        right. destruct (var_decl l x) as [d|] eqn:Hd; [exists d; reflexivity|]. destruct (Q (UndefinedField x (Some l))); [|exact I]. apply sy_field; try assumption. rewrite Hx. reflexivity.
    + destruct (colon_dec k) as [Hk|Hk]; [left; exact Hk|right]. destruct (basic_type (x_type a)) as [ty|] eqn:Hb; [|destruct (Q (CallNeedsType x)); [apply sy_needs_type; assumption|exact I]].
      destruct (proc_at ty x) as [p|] eqn:Hp; [|destruct (Q (UndefinedProc x ty)); [apply sy_method; assumption|exact I]]. exists ty, p. split; [reflexivity|]. split; [exact Hp|].
      intros q l C. destruct (Q (Trespass (CallsPrivate L q l))); [eapply sy_closed; eassumption|exact I].
    + destruct (St x (or_introl eq_refl)) as (i & Ht). destruct (var_decl i x) as [d|] eqn:Hd; [exists i, d; split; assumption|]. destruct (Q (UndefinedField x (Some i))); [apply sy_static_field; assumption|exact I].
    + destruct (St x (or_intror eq_refl)) as (i & Ht). destruct (proc_at i x) as [p|] eqn:Hp; [exists i, p; split; assumption|]. destruct (Q (UndefinedProc x i)); [apply sy_ref; assumption|exact I].
Qed.
Lemma call_args p src exact inherit args q : invokes t rules self n p src exact inherit args -> arg_in args q -> exists m, looks n m /\ raw_of m = q.
Proof using Type. intros Hi Ha. destruct Ha as [e k v He Ha]. exists (E None v). split; [eapply lk_call; eassumption|reflexivity]. Qed.
Lemma not_skipped q : child n q -> exists m, looks n m /\ raw_of m = q.
Proof using Q.
  pose proof is_fine as Fn. pose proof call_args as C. clear Q. destruct n as [h e|h y|a f].
  - destruct e as [y fs|op l r|op l r|c a b]; cbn [child].
    + intros [->|(f & Hf & ->)].
      * destruct fs as [|f fs]; [exists (T h y); split; [apply lk_term|reflexivity]|exists (T None y); split; [apply lk_first|reflexivity]].
      * apply in_split in Hf. destruct Hf as (fs1 & fs2 & ->). eexists (W _ f). split; [apply lk_follow; apply (gives_is F V D L t rules returns vars builtin kind self new_context locals)|reflexivity].
    + assert (D' : op = BOr \/ op <> BOr) by (destruct op; ((left; reflexivity) || (right; discriminate))). destruct D' as [->|N].
      * intros [-> | ->]; [exists (E h l); split; [apply lk_or_left|reflexivity]|exists (E h r); split; [apply lk_or_right|reflexivity]].
      * intros [-> | ->]; [exists (E None l); split; [apply lk_left; exact N|reflexivity]|exists (E None r); split; [apply lk_right; exact N|reflexivity]].
    + intros [-> | ->]; [exists (E None l); split; [apply lk_assign_left|reflexivity]|]. eexists (E _ r). split; [apply lk_assign_right; apply (gives_is F V D L t rules returns vars builtin kind self new_context locals)|reflexivity].
    + intros [-> |[-> | ->]]; [exists (E None c); split; [apply lk_cond|reflexivity]|exists (E h a); split; [apply lk_then|reflexivity]|exists (E h b); split; [apply lk_else|reflexivity]].
  - destruct y as [ |z|f|x|s|s|k| | | |e|path vs|s ps|x args|args|args|args|path vs args|i fs args|args|args it l|args l|cs|ca cb|l f args|x|x args]; cbn [child fine] in *; try (intros []; fail).
    + intros ->. exists (E h e). split; [apply lk_paren|reflexivity].
    + intros (e & s' & Hi & ->). exists (E None e). split; [eapply lk_interp; exact Hi|reflexivity].
    + destruct (proc_at self_type x) as [p|] eqn:Hp.
      * intro H. apply (C p self_type false true args); [apply iv_plain; exact Hp|]. destruct (text_eqb x (lit "SpacemanDMM_unlint")); [apply H|]. destruct (text_eqb x (lit "SpacemanDMM_debug")); exact H.
      * destruct (text_eqb_spec x (lit "SpacemanDMM_unlint")) as [->|N1]; [intros [Q _]; congruence|]. destruct (text_eqb_spec x (lit "SpacemanDMM_debug")) as [->|N2].
        -- intros (e & He & ->). exists (E None e). split; [apply lk_debug; assumption|reflexivity].
        -- destruct Fn as [(p & Q)|[->|[Q|Q]]]; try congruence. intro H. apply (C self self_type false true args); [apply iv_proc; exact Hp|exact H].
    + apply (C self self_type true true args). apply iv_self.
    + destruct Fn as (p & Hp). apply (C p self_type true true args). apply iv_parent. exact Hp.
    + destruct args as [args|]; [|intros []]. destruct Fn as (i & -> & [(p & Hp)|Ex]); intros [H Ha]; [|destruct (H i eq_refl Ex)].
      apply (C p i true false args); [exact (iv_implicit _ _ _ _ _ _ _ i (Some args) p Hp)|exact Ha].
    + destruct args as [args|]; [|intros []]. destruct Fn as (i & Hi & [(p & Hp)|Ex]); intros [H Ha]; [|destruct (H i Hi Ex)].
      apply (C p i true false args); [exact (iv_new _ _ _ _ _ _ _ h path vs (Some args) i p Hi Hp)|exact Ha].
    + intros [e k v He Ha]. exists (E None v). split; [eapply lk_list; eassumption|reflexivity].
    + intros [[e k v He Ha]|(e & -> & ->)]; [exists (E None v); split; [eapply lk_input; eassumption|reflexivity]|exists (E None e); split; [apply lk_input_in|reflexivity]].
    + intros [[e k v He Ha]|(e & -> & ->)]; [exists (E None v); split; [eapply lk_locate; eassumption|reflexivity]|exists (E None e); split; [apply lk_locate_in|reflexivity]].
    + intros (w & e & Hi & [->|(w' & -> & ->)]); [exists (E None e); split; [eapply lk_choice; exact Hi|reflexivity]|exists (E None w'); split; [eapply lk_weight; exact Hi|reflexivity]].
    + intros [[e k v He Ha]|[e k v He Ha]]; exists (E None v); (split; [|reflexivity]); [eapply lk_dynamic_left|eapply lk_dynamic_right]; eassumption.
    + intros [(e & -> & ->)|[->|[e k v He Ha]]]; [exists (E None e); split; [apply lk_library|reflexivity]|exists (E None f); split; [apply lk_function|reflexivity]|exists (E None v); split; [eapply lk_external; eassumption|reflexivity]].
    + destruct Fn as (p & Hp). apply (C p 0 true false args). apply iv_global. exact Hp.
  - destruct f as [k e|k x|k x args|op|x|x]; cbn [child fine] in *; try (intros []; fail).
    + intros ->. exists (E None e). split; [apply lk_index|reflexivity].
    + destruct (colon_dec k) as [Hk|Hk].
      * intros [e k' v He Ha]. exists (E None v). split; [eapply lk_colon; eassumption|reflexivity].
      * destruct Fn as [Q|(ty & p & Hb & Hp & Hn)]; [contradiction|]. apply (C p ty false false args). apply iv_method; assumption.
Qed.
End PART.

Lemma quiet_part h e m : quiet h e -> looked_at (E h e) m -> forall ev, says m ev -> ~ shown ev.
Proof using Type. intros Q Hm ev Hs. apply Q. apply C69_events. exists m. split; assumption. Qed.
(** C69: when nothing is reported about an expression, all names in what is looked at are those of something, *)
Theorem C69_quiet h e m : quiet h e -> looked_at (E h e) m -> fine m.
Proof using Type. intros Q Hm. apply is_fine. exact (quiet_part h e m Q Hm). Qed.
(** and everything is looked at, with the exceptions in [child]. *)
Theorem C69_everything h e m q : quiet h e -> looked_at (E h e) m -> child m q -> exists m', looked_at (E h e) m' /\ raw_of m' = q.
Proof using Type.
  intros Q Hm Hc. destruct (not_skipped m (quiet_part h e m Q Hm) q Hc) as (m' & Hl & Hr). exists m'. split; [|exact Hr].
  unfold ExprsSpec.looked_at in *. apply clos_rt_rt1n. apply rt_trans with m; [apply clos_rt1n_rt; exact Hm|apply rt_step; exact Hl].
Qed.
End QUIET.
Print Assumptions C69_quiet.
Print Assumptions C69_everything.
