(** C69: what the checker makes of expressions. *)
From Coq Require Import List Arith NArith ZArith Bool String Relations Lia.
From Verif Require Import Common.Text Objtree.Ispath Objtree.Model Objtree.Spec Objtree.Paths Objtree.Inherit Objtree.Calls Parse.Ast Checker.CallTree Checker.Kwargs Checker.Directives Checker.TypeExpr Checker.Filters Checker.FiltersProps Checker.Exprs Checker.ExprsSpec.
Import ListNotations.
Open Scope nat_scope.

(** ** Sizes *)
Section SIZE.
Variable F : Type.
Definition opt {A : Type} (f : A -> nat) (o : option A) : nat := match o with Some a => f a | None => 0 end.
Definition sum {A : Type} (f : A -> nat) (l : list A) : nat := list_sum (map f l).
Fixpoint esize (e : expr F) : nat :=
  match e with
  | Base x fs => S (S (tsize x + sum (fun f => S (fsize f)) fs))
  | Bin _ l r | Assign _ l r => S (esize l + esize r)
  | Tern c a b => S (esize c + esize a + esize b)
  end
with tsize (x : term F) : nat :=
  match x with
  | MExpr e => S (esize e)
  | MInterp _ ps => S (sum (fun p => S (match fst p with Some e => esize e | None => 0 end)) ps)
  | MCall _ args | MSelfCall args | MParentCall args | MList args | MGlobalCall _ args => S (sum (fun e => S (esize e)) args)
  | MNewImplicit args | MNewPrefab _ _ args => S (match args with Some l => sum (fun e => S (esize e)) l | None => 0 end)
  | MInput args _ l | MLocate args l => S (sum (fun e => S (esize e)) args + match l with Some e => esize e | None => 0 end)
  | MPick cs => S (sum (fun c => S (match fst c with Some e => esize e | None => 0 end + esize (snd c))) cs)
  | MDynCall a b => S (sum (fun e => S (esize e)) a + sum (fun e => S (esize e)) b)
  | MExtCall l f args => S (match l with Some e => esize e | None => 0 end + esize f + sum (fun e => S (esize e)) args)
  | _ => 1
  end
with fsize (f : follow F) : nat :=
  match f with
  | FIndex _ e => S (esize e)
  | FCall _ _ args => S (sum (fun e => S (esize e)) args)
  | _ => 1
  end.
Definition psize (n : part F) : nat := match n with E _ e => esize e | T _ x => tsize x | W _ f => fsize f end.
Lemma sum_in {A : Type} (f : A -> nat) l x : In x l -> f x <= sum f l.
Proof using Type. unfold sum. induction l as [|y l IH]; [intros []|]. cbn [map list_sum fold_right]. intros [->|H]; [lia|]. specialize (IH H). unfold list_sum in IH. lia. Qed.
Lemma sum_app {A : Type} (f : A -> nat) a b : sum f (a ++ b) = sum f a + sum f b.
Proof using Type. unfold sum. rewrite map_app, list_sum_app. reflexivity. Qed.
Lemma z_base x fs : esize (Base x fs) = S (S (tsize x + sum (fun f => S (fsize f)) fs)). Proof using Type. reflexivity. Qed.
Lemma z_bin op l r : esize (Bin op l r) = S (esize l + esize r). Proof using Type. reflexivity. Qed.
Lemma z_assign op l r : esize (Assign op l r) = S (esize l + esize r). Proof using Type. reflexivity. Qed.
Lemma z_tern c a b : esize (Tern c a b) = S (esize c + esize a + esize b). Proof using Type. reflexivity. Qed.
Lemma z_expr e : tsize (MExpr e) = S (esize e). Proof using Type. reflexivity. Qed.
Lemma sum_one {A : Type} (f : A -> nat) x : sum f [x] = f x. Proof using Type. unfold sum. cbn [map list_sum fold_right]. lia. Qed.
Lemma sum_cons {A : Type} (f : A -> nat) x l : sum f (x :: l) = f x + sum f l. Proof using Type. reflexivity. Qed.
End SIZE.
Arguments esize {F}. Arguments tsize {F}. Arguments fsize {F}. Arguments psize {F}.

Section C69.
Variables F V D L : Type.
Variable t : objtree V D.
Variable rules : env L.
Variable returns : procref -> option texpr.
Variable vars : nat -> list (text * option vdecl).
Variable builtin : procref -> bool.
Variable kind : D -> text.
Variable self : procref.
Variable new_context : bool.
Variable locals : text -> option ana.
Notation size := (List.length (graph t)).
Notation self_type := (pr_ty self).
Notation list_type := (expect t "/list").
Notation var_decl := (var_decl t vars).
Notation proc_at := (proc_at t).
Notation type_at := (type_at t self).
Notation static_type := (static_type t list_type).
Notation event := (event F L).
Notation out := (out F L).
Notation expr := (expr F).
Notation visit := (visit (F := F) t rules returns vars builtin kind self new_context locals).
Notation visit_term := (visit_term (F := F) t rules returns vars builtin kind self new_context locals).
Notation visit_follow := (visit_follow (F := F) t rules returns vars builtin kind self new_context locals).
Notation visit_call := (visit_call (F := F) t rules returns builtin self new_context).
Notation after_args := (after_args (F := F) (L := L) t returns builtin).
Notation gives := (gives (F := F) t rules returns vars builtin kind self locals).
Notation looks := (looks (F := F) t rules returns vars builtin kind self locals).
Notation says := (says (F := F) t rules returns vars builtin kind self new_context locals).
Notation looked_at := (looked_at (F := F) t rules returns vars builtin kind self locals).
Notation invokes := (invokes (F := F) t rules self).
Notation result := (result (F := F) t returns builtin).
Notation target := (target t).
Notation part := (part F).
Implicit Types (n m : part) (h : option nat) (ev : event) (p : procref) (e : expr) (args : list expr) (gs : list (garg F)).

Definition see (n : part) : out := match n with E h e => visit h e | T h x => visit_term h x | W a f => visit_follow a f end.
Definition see_arg (e : expr) : out := visit None (arg_value e).
Fixpoint follows (a : ana) (fs : list (follow F)) : out :=
  match fs with [] => (a, []) | f :: fs' => let '(b, ev1) := visit_follow a f in let '(c, ev2) := follows b fs' in (c, ev1 ++ ev2) end.

(** ** One step of the analysis *)
Lemma see_base h x fs : see (E h (Base x fs)) =
  (fst (follows (fst (see (T match fs with [] => h | _ => None end x))) fs), snd (see (T match fs with [] => h | _ => None end x)) ++ snd (follows (fst (see (T match fs with [] => h | _ => None end x))) fs)).
Proof using Type.
  transitivity (let '(a, evs) := visit_term match fs with [] => h | _ => None end x in (fun r : out => (fst r, evs ++ snd r)) (follows a fs)); [reflexivity|].
  cbn [see]. destruct (visit_term match fs with [] => h | _ => None end x). reflexivity.
Qed.
Lemma see_bin h op l r : see (E h (Bin op l r)) =
  let k := match op with BOr => h | _ => None end in
  (visit_binary t (fst (see (E k l))) op, snd (see (E k l)) ++ snd (see (E k r)) ++ operator_faults t op l (fst (see (E k l)))).
Proof using Type.
  transitivity (let k := match op with BOr => h | _ => None end in let '(a, ev1) := visit k l in let '(_, ev2) := visit k r in (visit_binary t a op, ev1 ++ ev2 ++ operator_faults t op l a)); [reflexivity|].
  cbn [see]. cbv zeta. destruct (visit match op with BOr => h | _ => None end l). destruct (visit match op with BOr => h | _ => None end r). reflexivity.
Qed.
Lemma see_assign h op l r : see (E h (Assign op l r)) =
  let a := fst (see (E None l)) in
  (fst (see (E (basic_type (x_type a)) r)), snd (see (E None l)) ++ (if x_impure a then [Impure (lit "Assignment on purity breaking expression")] else []) ++ snd (see (E (basic_type (x_type a)) r))).
Proof using Type.
  transitivity (let '(a, ev1) := visit None l in let '(b, ev2) := visit (basic_type (x_type a)) r in
                (b, ev1 ++ (if x_impure a then [Impure (lit "Assignment on purity breaking expression")] else []) ++ ev2)); [reflexivity|].
  cbn [see]. cbv zeta. destruct (visit None l) as [a ?]. cbn [fst]. destruct (visit (basic_type (x_type a)) r). reflexivity.
Qed.
Lemma see_tern h c a b : see (E h (Tern c a b)) = (fst (see (E h a)), snd (see (E None c)) ++ snd (see (E h a)) ++ snd (see (E h b))).
Proof using Type.
  transitivity (let '(_, ev1) := visit None c in let '(r, ev2) := visit h a in let '(_, ev3) := visit h b in (r, ev1 ++ ev2 ++ ev3)); [reflexivity|].
  cbn [see]. destruct (visit None c), (visit h a), (visit h b). reflexivity.
Qed.

Lemma arg_eq e : match keyword e with Some _ => match e with Assign _ _ r => visit None r | _ => (empty, []) end | None => visit None e end = see_arg e.
Proof using Type. unfold see_arg, arg_value. destruct (keyword e) eqn:K; [|reflexivity]. destruct e; try discriminate K. reflexivity. Qed.
Definition maybe (o : option expr) : list event := match o with Some e => snd (visit None e) | None => [] end.
Definition term_body (h : option nat) (x : term F) : out :=
  match x with
  | MNull | MInt _ | MFloat _ | MResource _ => (constant, [])
  | MString s => ({| x_type := SNone; x_val := Some (VText s); x_impure := false |}, [])
  | MAs _ => (empty, [])
  | MIdent name => visit_ident t vars self locals name
  | MGlobalIdent name => match var_decl 0 name with Some d => var_typed t (vd_type d) true | None => (empty, [UndefinedGlobal name]) end
  | MExpr e => visit h e
  | MPrefab path _ => match type_at path with Some i => (type_value t i, []) | None => (empty, [BadPath path]) end
  | MInterp _ parts => (empty, flat_map (fun s => match fst s with Some e => snd (visit None e) | None => [] end) parts)
  | MCall name args =>
      let r := match proc_at self_type name with
               | Some p => visit_call p self_type false true args (map see_arg args)
               | None => if text_eqb name (lit "__PROC__") then visit_call self self_type false true args (map see_arg args)
                         else if text_eqb name (lit "SpacemanDMM_unlint") then (empty, [])
                         else if text_eqb name (lit "SpacemanDMM_debug") then (empty, flat_map (fun e => snd (visit None e)) args)
                         else (empty, [UndefinedProc name self_type])
               end in
      (fst r, (if existsb (text_eqb name) sleep_names then sleeps new_context name else []) ++ type_sleepers t new_context self_type name ++ snd r)
  | MSelfCall args => visit_call self self_type true true args (map see_arg args)
  | MParentCall args =>
      let r := match parent_proc t size self with Some (Some p) => visit_call p self_type true true args (map see_arg args) | _ => (empty, [NoParent]) end in
      (fst r, CallsParentProc :: snd r)
  | MGlobalCall name args => match proc_at 0 name with Some p => visit_call p 0 true false args (map see_arg args) | None => (empty, [UndefinedGlobalProc name]) end
  | MNewImplicit args => match h with Some i => visit_new t rules returns builtin self new_context i (args_of args) (map see_arg (args_of args)) | None => (empty, [NoHint]) end
  | MNewPrefab path _ args => match type_at path with Some i => visit_new t rules returns builtin self new_context i (args_of args) (map see_arg (args_of args)) | None => (empty, [BadPath path]) end
  | MNewMini _ _ _ => (empty, [])
  | MList args => (of_type (SType list_type), flat_map (fun e => snd (see_arg e)) args)
  | MInput args _ in_list => (empty, sleeps new_context (lit "input") ++ flat_map (fun e => snd (see_arg e)) args ++ maybe in_list)
  | MLocate args in_list => (empty, flat_map (fun e => snd (see_arg e)) args ++ maybe in_list)
  | MPick choices => (empty, flat_map (fun c => (match fst c with Some e => snd (visit None e) | None => [] end) ++ snd (visit None (snd c))) choices)
  | MDynCall a b => (empty, flat_map (fun e => snd (see_arg e)) a ++ flat_map (fun e => snd (see_arg e)) b)
  | MExtCall library function args => (empty, maybe library ++ snd (visit None function) ++ flat_map (fun e => snd (see_arg e)) args)
  | MType => (type_value t self_type, [])
  | MProc => (empty, [])
  | MImplied => match h with Some _ => (type_value t self_type, []) | None => (empty, []) end
  end.
Lemma map_arg args : map (fun e => match keyword e with Some _ => match e with Assign _ _ r => visit None r | _ => (empty, []) end | None => visit None e end) args = map see_arg args.
Proof using Type. apply map_ext. exact arg_eq. Qed.
Lemma flat_arg args : flat_map (fun e => snd match keyword e with Some _ => match e with Assign _ _ r => visit None r | _ => (empty, []) end | None => visit None e end) args = flat_map (fun e => snd (see_arg e)) args.
Proof using Type. apply flat_map_ext. intro e. rewrite arg_eq. reflexivity. Qed.
Lemma see_term h y : see (T h y) = term_body h y.
Proof using Type.
  cbn [see]. destruct y as [ | | | | | | | | | | | | |x args|args|args|[args|]|path vs [args|]|i fs args|args|args it l|args l|cs|ca cb|l f args|i|i args]; try reflexivity;
  unfold term_body; rewrite <- ?map_arg, <- ?flat_arg; cbn [args_of map]; try reflexivity; destruct h; cbn [args_of]; rewrite <- ?map_arg; reflexivity.
Qed.

(** ** Arguments and results of calls *)
Lemma arg_of_is e : arg_of e (keyword e) (arg_value e).
Proof using Type.
  unfold arg_value. destruct e as [y fs|op l r|op l r|c a b]; try (constructor; discriminate).
  destruct op; try (constructor; discriminate). destruct l as [y fs| | |]; try (constructor; discriminate). destruct fs as [|f fs]; [|destruct y; constructor; discriminate].
  destruct y; try (constructor; discriminate); constructor.
Qed.
Lemma arg_of_fun e k v : arg_of e k v -> k = keyword e /\ v = arg_value e.
Proof using Type.
  intro H. destruct H as [k r|k r|e H1 H2]; [split; reflexivity|split; reflexivity|]. unfold arg_value. destruct e as [y fs|op l r|op l r|c a b]; try (split; reflexivity).
  destruct op; try (split; reflexivity). destruct l as [y fs| | |]; try (split; reflexivity). destruct fs as [|f fs]; [|destruct y; split; reflexivity].
  destruct y; try (split; reflexivity); exfalso; [eapply H1|eapply H2]; reflexivity.
Qed.
Lemma names_of args ks : Forall2 (fun e k => exists v, arg_of e k v) args ks <-> ks = map keyword args.
Proof using Type.
  split.
  - induction 1 as [|e k args ks [v H] _ IH]; [reflexivity|]. apply arg_of_fun in H. destruct H as [-> _]. cbn [map]. rewrite IH. reflexivity.
  - intros ->. induction args as [|e args IH]; constructor; [exists (arg_value e); apply arg_of_is|exact IH].
Qed.
Definition gather (args : list expr) : list (garg F) := map (fun e => {| ga_name := keyword e; ga_ana := fst (see_arg e); ga_expr := arg_value e |}) args.
Lemma gather_is args : Forall2 (fun e g => arg_of e (ga_name g) (ga_expr g)) args (gather args).
Proof using Type. induction args as [|e args IH]; cbn [gather map]; constructor; [apply arg_of_is|exact IH]. Qed.
Lemma gather_eq args gs : Forall2 (fun e g => arg_of e (ga_name g) (ga_expr g)) args gs -> (forall g, In g gs -> fst (see (E None (ga_expr g))) = ga_ana g) -> gs = gather args.
Proof using Type.
  induction 1 as [|e g args gs H _ IH]; intro Hs; [reflexivity|]. cbn [gather map]. f_equal; [|apply IH; intros g' Hg; apply Hs; right; exact Hg].
  apply arg_of_fun in H. destruct H as [H1 H2]. specialize (Hs g (or_introl eq_refl)). destruct g as [k a v]. cbn [ga_name ga_expr ga_ana] in *. subst. reflexivity.
Qed.
Lemma call_eq p src exact inherit args : visit_call p src exact inherit args (map see_arg args) =
  (fst (after_args p (gather args)),
   Calls p src exact inherit new_context (map keyword args) :: map Trespass (check_private t rules self_type p) ++ flat_map (fun e => snd (see_arg e)) args ++ snd (after_args p (gather args))).
Proof using Type.
  unfold Exprs.visit_call.
  assert (G : map (fun e : expr * out => {| ga_name := keyword (fst e); ga_ana := fst (snd e); ga_expr := arg_value (fst e) |}) (combine args (map see_arg args)) = gather args).
  { induction args as [|e args IH]; [reflexivity|]. cbn [map combine gather fst snd]. f_equal. exact IH. }
  cbv zeta. match goal with |- context [map ?f (combine args ?r)] => change (map f (combine args r)) with (map (fun e : expr * out => {| ga_name := keyword (fst e); ga_ana := fst (snd e); ga_expr := arg_value (fst e) |}) (combine args (map see_arg args))) end.
  rewrite G. destruct (after_args p (gather args)) as [a evs]. cbn [fst snd]. repeat f_equal. rewrite flat_map_concat_map, map_map, <- flat_map_concat_map. reflexivity.
Qed.
Lemma is_root_iff i : is_root t i = true <-> path_of t i = [].
Proof using Type. unfold is_root. destruct (path_of t i); split; congruence. Qed.
Lemma global_iff p name : global t p name = true <-> is_global t p name.
Proof using Type. unfold global, is_global. rewrite andb_true_iff, is_root_iff, text_eqb_eq. reflexivity. Qed.
Lemma plain_iff gs : forall (n : nat) a, plain gs n a <-> nth_error (positional (F := F) gs) n = Some a.
Proof using Type.
  unfold positional. induction gs as [|g gs IH]; intros n a; cbn [filter map].
  - split; [intros H; inversion H|destruct n; discriminate].
  - destruct (ga_name g) as [x|] eqn:G.
    + rewrite <- IH. split; [intros H; inversion H; subst; [congruence|congruence|assumption]|intros H; exact (pl_named _ _ _ _ _ _ G H)].
    + cbn [map]. destruct n as [|n]; cbn [nth_error].
      * split; [intros H; inversion H; subst; [reflexivity|congruence]|intros H; injection H as <-; apply pl_here; exact G].
      * rewrite <- IH. split; [intros H; inversion H; subst; [assumption|congruence]|intros H; apply pl_next; assumption].
Qed.
Lemma astype_some p gs s : astype t p gs = Some s ->
  is_global t p "astype" /\ ((exists a q i, nth_error (positional gs) 1 = Some a /\ x_val a = Some (VPath q) /\ find t (render q) = Some i /\ s = SType i) \/
  (exists a, nth_error (positional gs) 0 = Some a /\ s = x_type a /\ forall b q i, nth_error (positional gs) 1 = Some b -> x_val b = Some (VPath q) -> find t (render q) <> Some i)).
Proof using Type.
  unfold astype. destruct (global t p "astype") eqn:G; [|discriminate]. apply global_iff in G. intro H. split; [exact G|].
  destruct (nth_error (positional gs) 1) as [[ty [[q|q|]|] im]|] eqn:N.
  - destruct (find t (render q)) as [i|] eqn:Fi.
    + injection H as <-. left. eexists _, q, i. repeat split. exact Fi.
    + right. destruct (nth_error (positional gs) 0) as [a|]; [|discriminate]. injection H as <-. exists a. repeat split. intros b q' i E. injection E as <-. cbn [x_val]. intro E. injection E as <-. congruence.
  - right. destruct (nth_error (positional gs) 0) as [a|]; [|discriminate]. injection H as <-. exists a. repeat split. intros b q' i E. injection E as <-. discriminate.
  - right. destruct (nth_error (positional gs) 0) as [a|]; [|discriminate]. injection H as <-. exists a. repeat split. intros b q' i E. injection E as <-. discriminate.
  - right. destruct (nth_error (positional gs) 0) as [a|]; [|discriminate]. injection H as <-. exists a. repeat split. intros b q' i E. injection E as <-. discriminate.
  - right. destruct (nth_error (positional gs) 0) as [a|]; [|discriminate]. injection H as <-. exists a. repeat split. intros b q' i E. discriminate.
Qed.
Lemma astype_none p gs : astype t p gs = None <-> ordinary t p gs.
Proof using Type.
  assert (P : (exists a, plain gs 0 a) <-> positional (F := F) gs <> []).
  { split; [intros (a & H) E; apply plain_iff in H; rewrite E in H; discriminate|]. intros H. destruct (positional gs) as [|a l] eqn:E; [contradiction|]. exists a. apply plain_iff. rewrite E. reflexivity. }
  unfold ordinary. rewrite P. clear P. rewrite <- global_iff. unfold astype. destruct (global t p "astype"); [|split; [intros _ [Q _]; discriminate|reflexivity]].
  destruct (positional gs) as [|a l]; cbn [nth_error].
  - split; [intros _ [_ Q]; exact (Q eq_refl)|reflexivity].
  - split; [|intro Q; exfalso; apply Q; split; [reflexivity|discriminate]]. destruct l as [|[ty [[q|q|]|] im] l]; cbn [nth_error]; try discriminate. destruct (find t (render q)); discriminate.
Qed.
Lemma goes_on (fs : list (arg F)) : snd (filter_check fs) = true <-> exists ty allowed, typed fs ty allowed.
Proof using Type.
  unfold filter_check, typed. split.
  - destruct (get (lit "type") (by_name fs)) as [a|] eqn:G; [|discriminate]. apply get_given in G. destruct (g_val a) as [[q|ty|]|] eqn:Ev; try discriminate.
    destruct (get ty valid_filter_types) as [allowed|] eqn:Gt; [|discriminate]. intros _. exists ty, allowed, a. split; [exact G|]. split; [exact Ev|]. apply Objtree.Lemmas.get_in. exact Gt.
  - intros (ty & allowed & a & Ga & Ev & Hi). apply get_given in Ga. rewrite Ga, Ev. rewrite (Objtree.Lemmas.get_of ty _ allowed types_nodup Hi). reflexivity.
Qed.
Lemma known_iff p gs : filter_known t p gs <-> snd (if global t p "filter" then filter_check (map to_filter gs) else ([], true)) = true.
Proof using Type.
  unfold filter_known. rewrite <- global_iff. destruct (global t p "filter").
  - rewrite goes_on. split; [intro H; exact (H eq_refl)|intros H _; exact H].
  - split; [reflexivity|intros _ Q; discriminate].
Qed.
Lemma builtin_iff p : is_root t (pr_ty p) && builtin p = true <-> path_of t (pr_ty p) = [] /\ builtin p = true.
Proof using Type. rewrite andb_true_iff, is_root_iff. reflexivity. Qed.
Lemma not_builtin p : is_root t (pr_ty p) && builtin p = false <-> path_of t (pr_ty p) <> [] \/ builtin p = false.
Proof using Type.
  rewrite andb_false_iff. unfold is_root. destruct (path_of t (pr_ty p)); split; (intros [Q|Q]; [|right; exact Q]); try congruence; left; congruence.
Qed.
Lemma builtin_is x : builtin_result t x (builtin_type t x).
Proof using Type.
  unfold builtin_type, builtin_types, get. cbn [map fst snd List.find].
  repeat match goal with |- context [text_eqb (lit ?s) x] => destruct (text_eqb_spec (lit s) x) as [<-|] | |- context [text_eqb x (lit ?s)] => destruct (text_eqb_spec x (lit s)) as [->|] end.
  all: try (constructor; cbn [map In]; clear; tauto). apply br_other. cbn [map In]. intro H. repeat (destruct H as [H|H]; [congruence|]). exact H.
Qed.
Lemma builtin_fun x s : builtin_result t x s -> builtin_type t x = s.
Proof using Type.
  intro H. destruct H as [x H| |x H|x H| | | | |x H]; try reflexivity.
  - cbn [map In] in H. repeat (destruct H as [<-|H]; [reflexivity|]). destruct H.
  - cbn [map In] in H. repeat (destruct H as [<-|H]; [reflexivity|]). destruct H.
  - cbn [map In] in H. repeat (destruct H as [<-|H]; [reflexivity|]). destruct H.
  - pose proof (builtin_is x) as B. remember (builtin_type t x) as s eqn:Es. clear Es. destruct B as [x B| |x B|x B| | | | |x B]; try reflexivity; exfalso; apply H; cbn [map In] in *; try revert B; clear; tauto.
Qed.
Lemma result_is p gs : result p gs (fst (after_args p gs)).
Proof using Type.
  unfold Exprs.after_args. destruct (astype t p gs) as [s|] eqn:A.
  - apply astype_some in A. destruct A as [G [(a & q & i & H1 & H2 & H3 & ->)|(a & H1 & -> & H2)]]; cbn [fst].
    + apply plain_iff in H1. exact (rs_astype _ _ _ _ _ _ p gs a q i G H1 H2 H3).
    + apply plain_iff in H1. apply (rs_astype_first _ _ _ _ _ _ p gs a G H1). intros b q i Hb. apply (H2 b q i). apply plain_iff. exact Hb.
  - apply astype_none in A. cbn [fst]. destruct (snd (if global t p "filter" then filter_check (map to_filter gs) else ([], true))) eqn:K.
    + apply known_iff in K. unfold returned. destruct (is_root t (pr_ty p) && builtin p) eqn:B.
      * apply builtin_iff in B. cbn [fst]. apply rs_builtin; [exact A|exact K|exact (proj1 B)|exact (proj2 B)|apply builtin_is].
      * apply not_builtin in B. unfold call_type. destruct (returns p) as [e|] eqn:R; [|apply rs_none; assumption]. destruct (evaluate t list_type (context_of (map to_types gs)) e) as [s|x] eqn:Ev; cbn [fst].
        -- exact (rs_return _ _ _ _ _ _ p gs e s A K B R Ev).
        -- exact (rs_problem _ _ _ _ _ _ p gs e x A K B R Ev).
    + cbn [fst]. apply rs_filter; [exact A|]. rewrite known_iff. congruence.
Qed.
Lemma result_eq p gs a : result p gs a -> fst (after_args p gs) = a.
Proof using Type.
  unfold Exprs.after_args. intro H.
  assert (O : ordinary t p gs -> fst (let filters := if global t p "filter" then filter_check (map to_filter gs) else ([], true) in
      let rest := if snd filters then returned (F := F) (L := L) t returns builtin p gs else (empty, []) in
      (fst rest, find_faults t builtin p gs ++ map FilterError (fst filters) ++ snd rest)) = a -> fst (match astype t p gs with Some s => (of_type s, []) | None => let filters := if global t p "filter" then filter_check (map to_filter gs) else ([], true) in
      let rest := if snd filters then returned (F := F) (L := L) t returns builtin p gs else (empty, []) in
      (fst rest, find_faults t builtin p gs ++ map FilterError (fst filters) ++ snd rest) end) = a).
  { intros Ho E. apply astype_none in Ho. rewrite Ho. exact E. }
  destruct H as [a q i G H1 H2 H3|a G H1 H2|Ho K|s Ho K H1 H2 H3|Ho K B R|e s Ho K B R Ev|e x Ho K B R Ev].
  - apply global_iff in G. apply plain_iff in H1. unfold astype. rewrite G, H1. destruct a as [ty vl im]. cbn [x_val] in H2. subst vl. rewrite H3. reflexivity.
  - apply global_iff in G. apply plain_iff in H1. unfold astype. rewrite G, H1. destruct (nth_error (positional gs) 1) as [[ty [[q|q|]|] im]|] eqn:N; try reflexivity.
    destruct (find t (render q)) as [i|] eqn:Fi; [|reflexivity]. apply plain_iff in N. destruct (H2 _ q i N eq_refl Fi).
  - apply O; [exact Ho|]. rewrite known_iff in K. cbv zeta. destruct (snd _); [congruence|reflexivity].
  - apply O; [exact Ho|]. rewrite known_iff in K. cbv zeta. rewrite K. cbn [fst]. unfold returned. rewrite (proj2 (builtin_iff p) (conj H1 H2)), (builtin_fun _ _ H3). reflexivity.
  - apply O; [exact Ho|]. rewrite known_iff in K. cbv zeta. rewrite K. cbn [fst]. apply not_builtin in B. unfold returned, call_type. rewrite B, R. reflexivity.
  - apply O; [exact Ho|]. rewrite known_iff in K. cbv zeta. rewrite K. cbn [fst]. apply not_builtin in B. unfold returned, call_type. rewrite B, R, Ev. reflexivity.
  - apply O; [exact Ho|]. rewrite known_iff in K. cbv zeta. rewrite K. cbn [fst]. apply not_builtin in B. unfold returned, call_type. rewrite B, R, Ev. reflexivity.
Qed.

(** ** One step, for what follows a term *)
Definition follow_body (a : ana) (f : follow F) : out :=
  match f with
  | FUnary op => visit_unary t rules returns builtin self new_context a op
  | FField KColon _ | FField KSafeColon _ => (empty, [])
  | FField _ x => visit_field t vars self a x
  | FCall KColon _ args | FCall KSafeColon _ args => (empty, flat_map (fun e => snd (see_arg e)) args)
  | FCall _ x args =>
      match basic_type (x_type a) with
      | None => (empty, [CallNeedsType x])
      | Some ty =>
          let r := match proc_at ty x with
                   | None => (empty, [UndefinedProc x ty])
                   | Some p =>
                       match blocked t rules ty p with
                       | Some tr => (empty, [Trespass tr])
                       | None => let r := visit_call p ty false false args (map see_arg args) in (fst r, map Trespass (protected_faults t rules self p) ++ snd r)
                       end
                   end in
          (fst r, type_sleepers t new_context ty x ++ snd r)
      end
  | FIndex _ e =>
      let evs := snd (visit None e) in
      match x_type a with
      | SList _ keys => (of_type keys, evs)
      | SType i => (a, evs ++ match proc_at i (lit "operator[]") with None => [BadIndex i] | Some _ => [] end)
      | _ => (a, evs)
      end
  | FStaticField x =>
      match static_target t a x with
      | inr ev => (empty, [ev])
      | inl i => match var_decl i x with Some d => var_typed t (vd_type d) false | None => (empty, [UndefinedField x (Some i)]) end
      end
  | FProcRef x =>
      match static_target t a x with
      | inr ev => (empty, [ev])
      | inl i =>
          match proc_at i x with
          | None => (empty, [UndefinedProc x i])
          | Some p =>
              let k := match get_proc_declaration t size (pr_ty p) x with Some (Some d) => [kind d] | _ => [] end in
              ({| x_type := SNone; x_val := Some (VPath (words (path_of t i) ++ k ++ [x])); x_impure := false |}, [])
          end
      end
  end.
Lemma see_follow a f : see (W a f) = follow_body a f.
Proof using Type.
  cbn [see]. destruct f as [k e|k x|k x args|op|x|x]; try reflexivity. destruct k; unfold follow_body; rewrite <- ?map_arg, <- ?flat_arg; reflexivity.
Qed.
Lemma follows_app a fs1 fs2 : follows a (fs1 ++ fs2) = (fst (follows (fst (follows a fs1)) fs2), snd (follows a fs1) ++ snd (follows (fst (follows a fs1)) fs2)).
Proof using Type.
  revert a. induction fs1 as [|f fs1 IH]; intro a; cbn [app follows]; [apply surjective_pairing|]. destruct (visit_follow a f) as [b ev1]. rewrite IH.
  destruct (follows b fs1) as [c ev2]. cbn [fst snd]. rewrite app_assoc. reflexivity.
Qed.
Lemma follows_one a f : follows a [f] = see (W a f).
Proof using Type. cbn [follows see]. destruct (visit_follow a f). rewrite app_nil_r. reflexivity. Qed.
Lemma base_none y fs : fst (see (E None (Base y fs))) = fst (follows (fst (see (T None y))) fs).
Proof using Type. rewrite see_base. cbn [fst]. destruct fs; reflexivity. Qed.
Lemma base_snoc h y fs f : fst (see (E h (Base y (fs ++ [f])))) = fst (see (W (fst (see (E None (Base y fs)))) f)).
Proof using Type.
  rewrite base_none, see_base. cbn [fst]. replace (match fs ++ [f] with [] => h | _ => None end) with (@None nat) by (destruct fs; reflexivity). rewrite follows_app, follows_one. reflexivity.
Qed.

(** ** The helpers say what the rules say *)
Lemma var_typed_is of im : exists s, var_type t of s /\ fst (var_typed (F := F) (L := L) t of im) = {| x_type := s; x_val := None; x_impure := im |}.
Proof using Type. unfold var_typed. destruct (static_type of) as [s|x] eqn:S; [exists s; split; [apply vt_good; exact S|reflexivity]|exists SNone; split; [apply (vt_bad _ _ _ _ x); exact S|reflexivity]]. Qed.
Lemma var_typed_eq of im s : var_type t of s -> fst (var_typed (F := F) (L := L) t of im) = {| x_type := s; x_val := None; x_impure := im |}.
Proof using Type. intro H. unfold var_typed. destruct H as [s H|x H]; rewrite H; reflexivity. Qed.
Lemma var_typed_says of im ev : In ev (snd (var_typed (F := F) (L := L) t of im)) <-> exists x, static_type of = Bad x /\ ev = TypeProblem x.
Proof using Type.
  unfold var_typed. destruct (static_type of) as [s|x]; cbn [snd In]; [split; [intros []|intros (x & Q & _); discriminate]|].
  split; [intros [<-|[]]; exists x; split; reflexivity|intros (y & Q & ->); injection Q as <-; left; reflexivity].
Qed.
Lemma is_list_iff s : is_list t s = true <-> listlike t s.
Proof using Type.
  destruct s as [|i|l k|]; cbn [is_list]; [split; [discriminate|intro H; inversion H]| |split; [constructor|reflexivity]|split; [discriminate|intro H; inversion H]].
  rewrite text_eqb_eq. split; [intro H; constructor; exact H|intro H; inversion H; assumption].
Qed.
Lemma list_op_binary op a : list_op op -> visit_binary t a op = if is_list t (x_type a) then of_type (x_type a) else empty.
Proof using Type. unfold list_op, visit_binary. cbn [In]. intros [<-|[<-|[<-|[<-|[<-|[]]]]]]; reflexivity. Qed.
Lemma other_op_binary op a : ~ list_op op -> visit_binary t a op = empty.
Proof using Type. unfold list_op, visit_binary. intro H. destruct (is_list t (x_type a)); [|reflexivity]. destruct op; try reflexivity; exfalso; apply H; cbn [In]; auto 10. Qed.
Lemma list_op_dec op : list_op op \/ ~ list_op op.
Proof using Type. clear. unfold list_op. destruct op; cbn [In]; intuition discriminate. Qed.
Lemma list_op_or op : list_op op -> op <> BOr.
Proof using Type. clear. intros H ->. unfold list_op in H. cbn [In] in H. intuition discriminate. Qed.
Lemma target_iff a x i : static_target (F := F) (L := L) t a x = inl i <-> target a i.
Proof using Type.
  unfold static_target. split.
  - destruct (basic_type (x_type a)) as [j|] eqn:B; [intro Q; injection Q as ->; apply tg_type; exact B|]. destruct (x_val a) as [[q|q|]|] eqn:Vl; try discriminate. destruct (find t (render q)) as [j|] eqn:Fi; [|discriminate].
    intro Q. injection Q as ->. exact (tg_path _ _ _ a q i B Vl Fi).
  - intro H. destruct H as [i B|q i B Vl Fi]; rewrite B; [reflexivity|]. rewrite Vl, Fi. reflexivity.
Qed.
Lemma target_fun a i j : target a i -> target a j -> i = j.
Proof using F L V D t. intros H1 H2. apply (target_iff a [] i) in H1. apply (target_iff a [] j) in H2. congruence. Qed.
Lemma target_none a x ev : static_target (F := F) (L := L) t a x = inr ev -> forall i, ~ target a i.
Proof using Type. intros H i Q. apply (target_iff a x) in Q. congruence. Qed.
Lemma blocked_some ty p tr : blocked t rules ty p = Some tr <-> exists q l, closed t rules ty p q l /\ tr = CallsPrivate L q l.
Proof using Type.
  unfold blocked, closed. destruct (get_self_or_parent t (e_private rules) p) as [[[q b] l]|] eqn:G; [|split; [discriminate|intros (q & l & [Q _] & _); discriminate]].
  destruct b; [|split; [discriminate|intros (q' & l' & [Q _] & _); discriminate]]. destruct (Nat.eqb_spec ty (pr_ty q)) as [Ety|N].
  - split; [discriminate|]. intros (q' & l' & [Q N] & _). injection Q as <- <-. congruence.
  - split; [intro Q; injection Q as <-; exists q, l; split; [split; [reflexivity|congruence]|reflexivity]|]. intros (q' & l' & [Q _] & ->). injection Q as <- <-. reflexivity.
Qed.
Lemma blocked_none ty p : blocked t rules ty p = None <-> forall q l, ~ closed t rules ty p q l.
Proof using Type.
  split.
  - intros H q l C. assert (Q : blocked t rules ty p = Some (CallsPrivate L q l)) by (apply blocked_some; exists q, l; split; [exact C|reflexivity]). congruence.
  - intro H. destruct (blocked t rules ty p) as [tr|] eqn:B; [|reflexivity]. apply blocked_some in B. destruct B as (q & l & C & _). destruct (H q l C).
Qed.
Lemma private_says p (tr : trespass L) : In tr (check_private t rules self_type p) <-> exists q l, closed t rules self_type p q l /\ tr = CallsPrivate L q l.
Proof using Type.
  unfold check_private, closed. destruct (get_self_or_parent t (e_private rules) p) as [[[q b] l]|] eqn:G; [|split; [intros []|intros (q & l & [Q _] & _); discriminate]].
  destruct b; [|split; [intros []|intros (q' & l' & [Q _] & _); discriminate]]. destruct (Nat.eqb_spec self_type (pr_ty q)) as [Ety|N].
  - split; [intros []|]. intros (q' & l' & [Q N] & _). injection Q as <- <-. congruence.
  - split; [intros [<-|[]]; exists q, l; split; [split; [reflexivity|congruence]|reflexivity]|]. intros (q' & l' & [Q _] & ->). injection Q as <- <-. left. reflexivity.
Qed.
Lemma protected_says p (tr : trespass L) : In tr (protected_faults t rules self p) <-> exists q l, get_self_or_parent t (e_protected rules) p = Some (q, true, l) /\ tree_sub t self_type (pr_ty q) = false /\ tr = CallsProtected L q l.
Proof using Type.
  unfold protected_faults. destruct (get_self_or_parent t (e_protected rules) p) as [[[q b] l]|]; [|split; [intros []|intros (q & l & Q & _); discriminate]].
  destruct b; [|split; [intros []|intros (q' & l' & Q & _); discriminate]]. destruct (tree_sub t self_type (pr_ty q)) eqn:Ts.
  - split; [intros []|]. intros (q' & l' & Q & N & _). injection Q as <- <-. congruence.
  - split; [intros [<-|[]]; exists q, l; repeat split; exact Ts|]. intros (q' & l' & Q & _ & ->). injection Q as <- <-. left. reflexivity.
Qed.
Lemma overloads_dec op : (exists name, overloads op (lit name) /\ forall a, visit_unary (F := F) t rules returns builtin self new_context a op = visit_overload t rules returns builtin self new_context a name) \/
  ((forall x, ~ overloads op x) /\ forall a, visit_unary (F := F) t rules returns builtin self new_context a op = (empty, [])).
Proof using Type.
  destruct op; try (right; split; [intros x H; inversion H|reflexivity]); left; [exists "operator++"%string|exists "operator++"%string|exists "operator--"%string|exists "operator--"%string]; (split; [constructor|reflexivity]).
Qed.
Lemma overloads_fun op x y : overloads op x -> overloads op y -> x = y.
Proof using Type. intros H1 H2. destruct H1; inversion H2; reflexivity. Qed.
Lemma colon_dec k : with_colon k \/ ~ with_colon k.
Proof using Type. clear. unfold with_colon. destruct k; intuition discriminate. Qed.
Lemma colon_field a k x : ~ with_colon k -> see (W a (FField k x)) = visit_field t vars self a x.
Proof using Type. intro H. rewrite see_follow. destruct k; try reflexivity; exfalso; apply H; [left|right]; reflexivity. Qed.
Lemma colon_call a k x args : ~ with_colon k -> see (W a (FCall k x args)) =
  match basic_type (x_type a) with
  | None => (empty, [CallNeedsType x])
  | Some ty =>
      let r := match proc_at ty x with
               | None => (empty, [UndefinedProc x ty])
               | Some p => match blocked t rules ty p with
                           | Some tr => (empty, [Trespass tr])
                           | None => let r := visit_call p ty false false args (map see_arg args) in (fst r, map Trespass (protected_faults t rules self p) ++ snd r)
                           end
               end in
      (fst r, type_sleepers t new_context ty x ++ snd r)
  end.
Proof using Type. intro H. rewrite see_follow. destruct k; try reflexivity; exfalso; apply H; [left|right]; reflexivity. Qed.
Lemma with_field a k x : with_colon k -> see (W a (FField k x)) = (empty, []).
Proof using Type. intros [->| ->]; rewrite see_follow; reflexivity. Qed.
Lemma with_call a k x args : with_colon k -> see (W a (FCall k x args)) = (empty, flat_map (fun e => snd (see_arg e)) args).
Proof using Type. intros [->| ->]; rewrite see_follow; reflexivity. Qed.
Lemma not_callee i x : ~ (path_of t i = lit "/callee" /\ x = lit "proc") <-> text_eqb (path_of t i) (lit "/callee") && text_eqb x (lit "proc") = false.
Proof using Type.
  destruct (text_eqb_spec (path_of t i) (lit "/callee")) as [E1|N1], (text_eqb_spec x (lit "proc")) as [E2|N2]; cbn [andb].
  - split; [intro H; exfalso; apply H; split; assumption|discriminate].
  - split; [reflexivity|intros _ [_ Q]; contradiction].
  - split; [reflexivity|intros _ [Q _]; contradiction].
  - split; [reflexivity|intros _ [Q _]; contradiction].
Qed.
Lemma is_callee i x : (path_of t i = lit "/callee" /\ x = lit "proc") <-> text_eqb (path_of t i) (lit "/callee") && text_eqb x (lit "proc") = true.
Proof using Type. rewrite andb_true_iff, !text_eqb_eq. reflexivity. Qed.
Lemma not_proc s i : basic_type s = Some i -> match s with SProc => False | _ => True end.
Proof using Type. destruct s; try discriminate; intros _; exact I. Qed.
Lemma field_typed a x ty : basic_type (x_type a) = Some ty -> visit_field (F := F) (L := L) t vars self a x =
  if text_eqb (path_of t ty) (lit "/callee") && text_eqb x (lit "proc") then (of_type SProc, [])
  else match var_decl ty x with
       | None => (empty, [UndefinedField x (Some ty)])
       | Some d => let r := var_typed t (vd_type d) false in
                   (fst r, (if negb (ty =? self_type) && vd_private d then [PrivateVar x ty] else if negb (tree_sub t self_type ty) && vd_protected d then [ProtectedVar x ty] else []) ++ snd r)
       end.
Proof using Type. intro H. unfold visit_field. destruct (x_type a); try discriminate H; rewrite H; reflexivity. Qed.
Lemma ident_eq h x : see (T h (MIdent x)) = visit_ident t vars self locals x.
Proof using Type. rewrite see_term. reflexivity. Qed.

(** ** Sizes *)
Lemma invokes_size n p src exact inherit args e : invokes n p src exact inherit args -> In e args -> esize e < psize n.
Proof using Type.
  assert (A : forall l : list expr, In e l -> esize e < S (sum (fun e => S (esize e)) l)) by (intros l Hl; apply (sum_in (fun e => S (esize e))) in Hl; lia).
  intros H Hi. destruct H; cbn [psize tsize fsize]; try (apply A; exact Hi); try (destruct args as [args|]; [apply A; exact Hi|destruct Hi]). destruct Hi.
Qed.
Lemma value_size e : esize (arg_value e) <= esize e.
Proof using Type. unfold arg_value. destruct (keyword e); [|lia]. destruct e; cbn [esize]; lia. Qed.

(** ** What is known *)
Lemma gives_eq n a : gives n a -> fst (see n) = a.
Proof using Type.
  induction 1 as [h y a _ IH|h y fs f a b _ IH1 _ IH2|h op l r a Hop _ IH Hl|h op l r a Hop _ IH Hl|h op l r Hop|h op l r a b _ IH1 _ IH2|h c a b r _ IH
    |h|h z|h f|h s|h s|h x a Hx|h Hx|h x d s Hx Nx Hd Hs|h x Hx Nx Hd|h x d s Hd Hs|h x Hd|h path vs i Hi|h path vs Hi|h|i| |h e a _ IH|h args
    |n p src exact inherit args gs a Hc Nc Hg _ IH Hr|n Hc|h x args Hp Nx|h args Hp|h x args Hp
    |h k|h|h s ps|h i fs args|h args it l|h args l|h cs|h a b|h l f args
    |a k x Hk|a k x args Hk|a k x ty d s Hk Hb Nc Hd Hs|a k ty Hk Hb Hp|a k x ty Hk Hb Nc Hd|a k x Hk Hb|a k x args ty Hk Hb Hp|a k x args ty p q l Hk Hb Hp Hc|a k x args Hk Hb
    |a k e l keys Hx|a k e Hx|a op Ho|a op name Ho Hx|a x i d s Ht Hd Hs|a x Ht|a x i p k Ht Hp Hk|a x Ht].
  - rewrite see_base. exact IH.
  - rewrite base_snoc, IH1. exact IH2.
  - rewrite see_bin. cbv zeta. cbn [fst]. pose proof (list_op_or op Hop) as No. replace (match op with BOr => h | _ => None end) with (@None nat) by (destruct op; congruence).
    rewrite IH, (list_op_binary op a Hop). apply is_list_iff in Hl. rewrite Hl. reflexivity.
  - rewrite see_bin. cbv zeta. cbn [fst]. pose proof (list_op_or op Hop) as No. replace (match op with BOr => h | _ => None end) with (@None nat) by (destruct op; congruence).
    rewrite IH, (list_op_binary op a Hop). rewrite <- is_list_iff in Hl. destruct (is_list t (x_type a)); [congruence|reflexivity].
  - rewrite see_bin. cbv zeta. cbn [fst]. apply other_op_binary. exact Hop.
  - rewrite see_assign. cbv zeta. cbn [fst]. rewrite IH1. exact IH2.
  - rewrite see_tern. exact IH.
  - reflexivity.
  - reflexivity.
  - reflexivity.
  - reflexivity.
  - reflexivity.
  - rewrite ident_eq. unfold visit_ident. rewrite Hx. reflexivity.
  - rewrite ident_eq. unfold visit_ident. rewrite Hx, text_eqb_refl. reflexivity.
  - rewrite ident_eq. unfold visit_ident. rewrite Hx. destruct (text_eqb_spec x (lit "type")) as [Q|_]; [contradiction|]. rewrite Hd. apply var_typed_eq. exact Hs.
  - rewrite ident_eq. unfold visit_ident. rewrite Hx. destruct (text_eqb_spec x (lit "type")) as [Q|_]; [contradiction|]. rewrite Hd. reflexivity.
  - rewrite see_term. unfold term_body. rewrite Hd. apply var_typed_eq. exact Hs.
  - rewrite see_term. unfold term_body. rewrite Hd. reflexivity.
  - rewrite see_term. unfold term_body. rewrite Hi. reflexivity.
  - rewrite see_term. unfold term_body. rewrite Hi. reflexivity.
  - reflexivity.
  - reflexivity.
  - reflexivity.
  - rewrite see_term. exact IH.
  - rewrite see_term. reflexivity.
  - pose proof (gather_eq args gs Hg IH) as G. apply result_eq in Hr. rewrite G in Hr. destruct Hc as [h x args p Hp|h args Hp|h args|h args p Hp|h x args p Hp|i args p Hp|h path vs args i p Hi Hp|b k x args ty p Hk Hb Hp Hn|b op name i p Ho Hx Hp].
    + rewrite see_term. unfold term_body. cbv zeta. rewrite Hp, call_eq. exact Hr.
    + rewrite see_term. unfold term_body. cbv zeta. rewrite Hp, text_eqb_refl, call_eq. exact Hr.
    + rewrite see_term. unfold term_body. rewrite call_eq. exact Hr.
    + rewrite see_term. unfold term_body. cbv zeta. rewrite Hp, call_eq. exact Hr.
    + rewrite see_term. unfold term_body. rewrite Hp, call_eq. exact Hr.
    + destruct (Nc I).
    + destruct (Nc I).
    + rewrite (colon_call _ _ _ _ Hk), Hb. cbv zeta. rewrite Hp. apply blocked_none in Hn. rewrite Hn, call_eq. exact Hr.
    + rewrite see_follow. unfold follow_body. destruct (overloads_dec op) as [(nm & Ho' & Hu)|[Hn _]]; [|destruct (Hn _ Ho)]. rewrite Hu. rewrite (overloads_fun op name (lit nm) Ho Ho') in Hp. unfold visit_overload. cbv zeta. rewrite Hx, Hp. change (visit_call p i true false [] []) with (visit_call p i true false [] (map see_arg [])). rewrite call_eq. exact Hr.
  - destruct n as [h e|h y|b f]; try destruct Hc. rewrite see_term. destruct y; try destruct Hc; unfold term_body; [destruct h as [i|]|destruct (type_at path) as [i|]]; reflexivity.
  - rewrite see_term. unfold term_body. cbv zeta. rewrite Hp. destruct (text_eqb_spec x (lit "__PROC__")) as [Q|_]; [contradiction|]. destruct (text_eqb x (lit "SpacemanDMM_unlint")); [reflexivity|]. destruct (text_eqb x (lit "SpacemanDMM_debug")); reflexivity.
  - rewrite see_term. unfold term_body. cbv zeta. destruct (parent_proc t size self) as [[q|]|]; [destruct (Hp q eq_refl)|reflexivity|reflexivity].
  - rewrite see_term. unfold term_body. rewrite Hp. reflexivity.
  - reflexivity.
  - reflexivity.
  - reflexivity.
  - reflexivity.
  - rewrite see_term. reflexivity.
  - rewrite see_term. reflexivity.
  - reflexivity.
  - rewrite see_term. reflexivity.
  - rewrite see_term. reflexivity.
  - rewrite (with_field _ _ _ Hk). reflexivity.
  - rewrite (with_call _ _ _ _ Hk). reflexivity.
  - rewrite (colon_field _ _ _ Hk), (field_typed _ _ _ Hb). apply not_callee in Nc. rewrite Nc, Hd. cbv zeta. cbn [fst]. apply var_typed_eq. exact Hs.
  - rewrite (colon_field _ _ _ Hk), (field_typed _ _ _ Hb). assert (C : text_eqb (path_of t ty) (lit "/callee") && text_eqb (lit "proc") (lit "proc") = true) by (apply is_callee; split; [exact Hp|reflexivity]). rewrite C. reflexivity.
  - rewrite (colon_field _ _ _ Hk), (field_typed _ _ _ Hb). apply not_callee in Nc. rewrite Nc, Hd. reflexivity.
  - rewrite (colon_field _ _ _ Hk). unfold visit_field. destruct (x_type a); try discriminate Hb; reflexivity.
  - rewrite (colon_call _ _ _ _ Hk), Hb. cbv zeta. rewrite Hp. reflexivity.
  - rewrite (colon_call _ _ _ _ Hk), Hb. cbv zeta. rewrite Hp. assert (B : blocked t rules ty p = Some (CallsPrivate L q l)) by (apply blocked_some; exists q, l; split; [exact Hc|reflexivity]). rewrite B. reflexivity.
  - rewrite (colon_call _ _ _ _ Hk), Hb. reflexivity.
  - rewrite see_follow. unfold follow_body. rewrite Hx. reflexivity.
  - rewrite see_follow. unfold follow_body. destruct (x_type a) as [|i|l keys|]; try reflexivity. destruct (Hx l keys eq_refl).
  - rewrite see_follow. unfold follow_body. destruct (overloads_dec op) as [(nm & Ho' & _)|[_ Hu]]; [destruct (Ho _ Ho')|]. rewrite Hu. reflexivity.
  - rewrite see_follow. unfold follow_body. destruct (overloads_dec op) as [(nm & Ho' & Hu)|[Hn _]]; [|destruct (Hn _ Ho)]. rewrite Hu. rewrite (overloads_fun op name (lit nm) Ho Ho') in Hx. unfold visit_overload. cbv zeta.
    destruct (x_type a) as [|i|l keys|]; try reflexivity. rewrite (Hx i eq_refl). reflexivity.
  - rewrite see_follow. unfold follow_body. apply (target_iff a x) in Ht. rewrite Ht, Hd. apply var_typed_eq. exact Hs.
  - rewrite see_follow. unfold follow_body. destruct (static_target t a x) as [i|ev] eqn:St; [|reflexivity]. apply target_iff in St. rewrite (Ht i St). reflexivity.
  - rewrite see_follow. unfold follow_body. apply (target_iff a x) in Ht. rewrite Ht, Hp. cbv zeta. cbn [fst]. unfold kind_of in Hk. destruct (get_proc_declaration t size (pr_ty p) x) as [[d|]|]; subst k; reflexivity.
  - rewrite see_follow. unfold follow_body. destruct (static_target t a x) as [i|ev] eqn:St; [|reflexivity]. apply target_iff in St. rewrite (Ht i St). reflexivity.
Qed.

Lemma gives_is n : gives n (fst (see n)).
Proof using Type.
  induction n as [n IH] using (well_founded_induction (well_founded_ltof _ psize)). unfold ltof in IH.
  assert (C : forall p src exact inherit args, invokes n p src exact inherit args -> ~ creates n -> gives n (fst (after_args p (gather args)))).
  { intros p src exact inherit args Hc Nc. refine (gv_call _ _ _ _ _ _ _ _ _ _ _ _ n p src exact inherit args (gather args) _ Hc Nc (gather_is args) _ (result_is p _)).
    intros g Hg. unfold gather in Hg. apply in_map_iff in Hg. destruct Hg as (e & <- & He). cbn [ga_expr ga_ana]. apply (IH (E None (arg_value e))). cbn [psize]. pose proof (invokes_size _ _ _ _ _ _ e Hc He). pose proof (value_size e). lia. }
  destruct n as [h e|h y|a f].
  - destruct e as [y fs|op l r|op l r|c a b].
    + destruct fs as [|f fs] using rev_ind.
      * rewrite see_base. cbn [fst follows]. apply gv_base. apply IH. cbn [psize]; rewrite ?z_base, ?z_bin, ?z_assign, ?z_tern. lia.
      * rewrite base_snoc. apply (gv_follow _ _ _ _ _ _ _ _ _ _ _ _ h y fs f (fst (see (E None (Base y fs))))); apply IH; cbn [psize]; rewrite !z_base, ?sum_app, ?sum_one; lia.
    + rewrite see_bin. cbv zeta. cbn [fst]. destruct (list_op_dec op) as [Hop|Hop]; [|rewrite (other_op_binary _ _ Hop); apply gv_other_op; exact Hop].
      pose proof (list_op_or op Hop) as No. replace (match op with BOr => h | _ => None end) with (@None nat) by (destruct op; congruence). rewrite (list_op_binary _ _ Hop).
      assert (G : gives (E None l) (fst (see (E None l)))) by (apply IH; cbn [psize]; rewrite ?z_base, ?z_bin, ?z_assign, ?z_tern; lia). destruct (is_list t (x_type (fst (see (E None l))))) eqn:Il.
      * apply gv_list_op; [exact Hop|exact G|apply is_list_iff; exact Il].
      * apply (gv_not_list _ _ _ _ _ _ _ _ _ _ _ _ h op l r _ Hop G). rewrite <- is_list_iff. congruence.
    + rewrite see_assign. cbv zeta. cbn [fst]. eapply gv_assign; apply IH; cbn [psize]; rewrite ?z_base, ?z_bin, ?z_assign, ?z_tern; lia.
    + rewrite see_tern. cbn [fst]. apply gv_ternary. apply IH. cbn [psize]; rewrite ?z_base, ?z_bin, ?z_assign, ?z_tern. lia.
  - rewrite see_term. destruct y as [ |z|f|x|s|s|k| | | |e|path vs|s ps|x args|args|args|args|path vs args|i fs args|args|args it l|args l|cs|ca cb|l f args|x|x args]; unfold term_body; try (constructor; fail).
    + unfold visit_ident. destruct (locals x) as [a|] eqn:Hx; [apply gv_local; exact Hx|]. destruct (text_eqb_spec x (lit "type")) as [->|Nx]; [apply gv_type; exact Hx|].
      destruct (var_decl self_type x) as [d|] eqn:Hd; [|apply gv_unknown; assumption]. destruct (var_typed_is (vd_type d) true) as (s & Hs & ->). exact (gv_var _ _ _ _ _ _ _ _ _ _ _ _ h x d s Hx Nx Hd Hs).
    + destruct h; constructor.
    + apply gv_paren. apply (IH (E h e)). cbn [psize]. rewrite z_expr. lia.
    + destruct (type_at path) as [i|] eqn:Hi; [apply gv_path; exact Hi|apply gv_bad_path; exact Hi].
    + cbv zeta. destruct (proc_at self_type x) as [p|] eqn:Hp.
      * rewrite call_eq. cbn [fst]. apply (C p self_type false true args); [apply iv_plain; exact Hp|exact (fun Q => Q)].
      * destruct (text_eqb_spec x (lit "__PROC__")) as [->|Nx].
        -- rewrite call_eq. cbn [fst]. apply (C self self_type false true args); [apply iv_proc; exact Hp|exact (fun Q => Q)].
        -- destruct (text_eqb x (lit "SpacemanDMM_unlint")); [apply gv_not_called; assumption|]. destruct (text_eqb x (lit "SpacemanDMM_debug")); apply gv_not_called; assumption.
    + rewrite call_eq. cbn [fst]. apply (C self self_type true true args); [apply iv_self|exact (fun Q => Q)].
    + cbv zeta. destruct (parent_proc t size self) as [[q|]|] eqn:Hp.
      * rewrite call_eq. cbn [fst]. apply (C q self_type true true args); [apply iv_parent; exact Hp|exact (fun Q => Q)].
      * cbn [fst]. apply gv_no_parent. congruence.
      * cbn [fst]. apply gv_no_parent. congruence.
    + destruct h as [i|]; unfold visit_new; cbn [fst]; apply gv_create; exact I.
    + destruct (type_at path) as [i|]; unfold visit_new; cbn [fst]; apply gv_create; exact I.
    + destruct (var_decl 0 x) as [d|] eqn:Hd; [|apply gv_global_unknown; exact Hd]. destruct (var_typed_is (vd_type d) true) as (s & Hs & ->). exact (gv_global _ _ _ _ _ _ _ _ _ _ _ _ h x d s Hd Hs).
    + destruct (proc_at 0 x) as [p|] eqn:Hp; [|apply gv_no_global; exact Hp]. rewrite call_eq. cbn [fst]. apply (C p 0 true false args); [apply iv_global; exact Hp|exact (fun Q => Q)].
  - destruct f as [k e|k x|k x args|op|x|x].
    + rewrite see_follow. unfold follow_body. cbv zeta. destruct (x_type a) as [|i|l keys|] eqn:Hx; cbn [fst]; [apply gv_index; congruence|apply gv_index; congruence|exact (gv_index_list _ _ _ _ _ _ _ _ _ _ _ _ a k e l keys Hx)|apply gv_index; congruence].
    + destruct (colon_dec k) as [Hk|Hk]; [rewrite (with_field _ _ _ Hk); apply gv_colon; exact Hk|]. rewrite (colon_field _ _ _ Hk). destruct (basic_type (x_type a)) as [ty|] eqn:Hb.
      * rewrite (field_typed _ _ _ Hb). destruct (text_eqb (path_of t ty) (lit "/callee") && text_eqb x (lit "proc")) eqn:Cl.
        -- apply is_callee in Cl. destruct Cl as [Cl ->]. exact (gv_callee _ _ _ _ _ _ _ _ _ _ _ _ a k ty Hk Hb Cl).
        -- apply not_callee in Cl. destruct (var_decl ty x) as [d|] eqn:Hd; [|exact (gv_no_field _ _ _ _ _ _ _ _ _ _ _ _ a k x ty Hk Hb Cl Hd)]. cbv zeta. cbn [fst].
           destruct (var_typed_is (vd_type d) false) as (s & Hs & ->). exact (gv_field _ _ _ _ _ _ _ _ _ _ _ _ a k x ty d s Hk Hb Cl Hd Hs).
      * replace (fst (visit_field t vars self a x)) with empty by (unfold visit_field; destruct (x_type a); try discriminate Hb; reflexivity). apply gv_untyped_field; assumption.
    + destruct (colon_dec k) as [Hk|Hk]; [rewrite (with_call _ _ _ _ Hk); apply gv_colon_call; exact Hk|]. rewrite (colon_call _ _ _ _ Hk). destruct (basic_type (x_type a)) as [ty|] eqn:Hb; [|apply gv_untyped_call; assumption]. cbv zeta. cbn [fst].
      destruct (proc_at ty x) as [p|] eqn:Hp; [|exact (gv_no_method _ _ _ _ _ _ _ _ _ _ _ _ a k x args ty Hk Hb Hp)]. destruct (blocked t rules ty p) as [tr|] eqn:B.
      * apply blocked_some in B. destruct B as (q & l & Cl & _). exact (gv_closed _ _ _ _ _ _ _ _ _ _ _ _ a k x args ty p q l Hk Hb Hp Cl).
      * rewrite call_eq. cbn [fst]. apply (C p ty false false args); [exact (iv_method _ _ _ _ _ _ _ a k x args ty p Hk Hb Hp (proj1 (blocked_none ty p) B))|exact (fun Q => Q)].
    + rewrite see_follow. unfold follow_body. destruct (overloads_dec op) as [(nm & Ho & Hu)|[Hn Hu]]; rewrite Hu; [|apply gv_unary; exact Hn]. unfold visit_overload. cbv zeta.
      destruct (x_type a) as [|i|l keys|] eqn:Hx; cbn [fst]; try (apply (gv_no_operator _ _ _ _ _ _ _ _ _ _ _ _ a op (lit nm) Ho); congruence).
      destruct (proc_at i (lit nm)) as [p|] eqn:Hp; [|apply (gv_no_operator _ _ _ _ _ _ _ _ _ _ _ _ a op (lit nm) Ho); congruence].
      change (visit_call p i true false [] []) with (visit_call p i true false [] (map see_arg [])). rewrite call_eq. cbn [fst]. apply (C p i true false []); [exact (iv_operator _ _ _ _ _ _ _ a op (lit nm) i p Ho Hx Hp)|exact (fun Q => Q)].
    + rewrite see_follow. unfold follow_body. destruct (static_target t a x) as [i|ev] eqn:St.
      * apply target_iff in St. destruct (var_decl i x) as [d|] eqn:Hd.
        -- destruct (var_typed_is (vd_type d) false) as (s & Hs & ->). exact (gv_static _ _ _ _ _ _ _ _ _ _ _ _ a x i d s St Hd Hs).
        -- apply gv_no_static. intros j Hj. rewrite (target_fun a j i Hj St). exact Hd.
      * apply gv_no_static. intros j Hj. destruct (target_none a x ev St j Hj).
    + rewrite see_follow. unfold follow_body. destruct (static_target t a x) as [i|ev] eqn:St.
      * apply target_iff in St. destruct (proc_at i x) as [p|] eqn:Hp.
        -- cbv zeta. cbn [fst]. apply (gv_ref _ _ _ _ _ _ _ _ _ _ _ _ a x i p _ St Hp). unfold kind_of. destruct (get_proc_declaration t size (pr_ty p) x) as [[d|]|]; reflexivity.
        -- apply gv_no_ref. intros j Hj. rewrite (target_fun a j i Hj St). exact Hp.
      * apply gv_no_ref. intros j Hj. destruct (target_none a x ev St j Hj).
Qed.
Lemma gives_iff n a : gives n a <-> fst (see n) = a.
Proof using Type. split; [apply gives_eq|intros <-; apply gives_is]. Qed.

(** ** What is said *)
Lemma follows_says a fs ev : In ev (snd (follows a fs)) <-> exists fs1 f fs2, fs = fs1 ++ f :: fs2 /\ In ev (snd (see (W (fst (follows a fs1)) f))).
Proof using Type.
  split.
  - revert a. induction fs as [|f fs IH]; intros a H; [destruct H|]. change (f :: fs) with ([f] ++ fs) in H. rewrite follows_app, follows_one in H. cbn [snd] in H. apply in_app_iff in H. destruct H as [H|H].
    + exists [], f, fs. split; [reflexivity|exact H].
    + apply IH in H. destruct H as (fs1 & g & fs2 & -> & H). exists (f :: fs1), g, fs2. split; [reflexivity|]. change (f :: fs1) with ([f] ++ fs1). rewrite follows_app, follows_one. exact H.
  - intros (fs1 & f & fs2 & -> & H). rewrite follows_app. cbn [snd]. apply in_app_iff. right. change (f :: fs2) with ([f] ++ fs2). rewrite follows_app, follows_one. cbn [snd]. apply in_app_iff. left. exact H.
Qed.
Lemma args_say args ev : In ev (flat_map (fun e => snd (see_arg e)) args) <-> exists e k v, In e args /\ arg_of e k v /\ In ev (snd (see (E None v))).
Proof using Type.
  rewrite in_flat_map. split.
  - intros (e & Hi & H). exists e, (keyword e), (arg_value e). split; [exact Hi|]. split; [apply arg_of_is|exact H].
  - intros (e & k & v & Hi & Ha & H). exists e. split; [exact Hi|]. apply arg_of_fun in Ha. destruct Ha as [_ ->]. exact H.
Qed.
Lemma find_says p gs ev : In ev (find_faults t builtin p gs) <-> builtin p = true /\ gs = [] /\ pr_name p = lit "Find" /\ (path_of t (pr_ty p) = lit "/list" \/ path_of t (pr_ty p) = lit "/alist") /\ ev = EmptyFind.
Proof using Type.
  unfold find_faults. destruct (builtin p); cbn [andb]; [|split; [intros []|intros (Q & _); discriminate]].
  destruct gs as [|g gs]; cbn [andb]; [|split; [intros []|intros (_ & Q & _); discriminate]].
  destruct (text_eqb_spec (pr_name p) (lit "Find")) as [En|N]; cbn [andb]; [|split; [intros []|intros (_ & _ & Q & _); contradiction]].
  destruct (text_eqb_spec (path_of t (pr_ty p)) (lit "/list")) as [E1|N1]; cbn [orb].
  - split; [intros [<-|[]]; repeat split; auto|intros (_ & _ & _ & _ & ->); left; reflexivity].
  - destruct (text_eqb_spec (path_of t (pr_ty p)) (lit "/alist")) as [E2|N2].
    + split; [intros [<-|[]]; repeat split; auto|intros (_ & _ & _ & _ & ->); left; reflexivity].
    + split; [intros []|intros (_ & _ & _ & [Q|Q] & _); contradiction].
Qed.
Lemma after_says p gs ev : In ev (snd (after_args p gs)) <->
  (builtin p = true /\ gs = [] /\ pr_name p = lit "Find" /\ (path_of t (pr_ty p) = lit "/list" \/ path_of t (pr_ty p) = lit "/alist") /\ ev = EmptyFind) \/
  (exists x, is_global t p "filter" /\ fault (map to_filter gs) x /\ ev = FilterError x) \/
  (exists (e : texpr) x, ordinary t p gs /\ filter_known t p gs /\ (path_of t (pr_ty p) <> [] \/ builtin p = false) /\ returns p = Some e /\ evaluate t list_type (context_of (map to_types gs)) e = Bad x /\ ev = TypeProblem x).
Proof using Type.
  unfold Exprs.after_args. destruct (astype t p gs) as [s|] eqn:A.
  - assert (No : ~ ordinary t p gs) by (rewrite <- astype_none; congruence). apply astype_some in A. destruct A as [[_ G] _]. cbn [snd]. split; [intros []|].
    intros [(_ & _ & Q & _)|[(x & [_ Q] & _)|(e & x & Q & _)]]; [rewrite G in Q; discriminate Q|rewrite G in Q; discriminate Q|exact (No Q)].
  - apply astype_none in A. cbn [snd]. rewrite !in_app_iff, find_says. apply or_iff_compat_l.
    assert (R : filter_known t p gs -> In ev (snd (returned (F := F) (L := L) t returns builtin p gs)) <-> (exists (e : texpr) x, ordinary t p gs /\ filter_known t p gs /\ (path_of t (pr_ty p) <> [] \/ builtin p = false) /\ returns p = Some e /\ evaluate t list_type (context_of (map to_types gs)) e = Bad x /\ ev = TypeProblem x)).
    { intro K. unfold returned. destruct (is_root t (pr_ty p) && builtin p) eqn:B.
      - split; [intros []|]. intros (e & x & _ & _ & N & _). apply not_builtin in N. congruence.
      - apply not_builtin in B. unfold call_type. destruct (returns p) as [e|]; [|split; [intros []|intros (e & x & _ & _ & _ & Q & _); discriminate]].
        destruct (evaluate t list_type (context_of (map to_types gs)) e) as [s|x] eqn:Ev; cbn [snd map In].
        + split; [intros []|]. intros (e' & x & _ & _ & _ & Q & Q' & _). injection Q as <-. congruence.
        + split; [intros [<-|[]]; exists e, x; repeat split; assumption|]. intros (e' & x' & _ & _ & _ & Q & Q' & ->). injection Q as <-. rewrite Ev in Q'. injection Q' as <-. left. reflexivity. }
    assert (Ef : In ev (map FilterError (fst (if global t p "filter" then filter_check (map to_filter gs) else ([], true)))) <-> exists x, is_global t p "filter" /\ fault (map to_filter gs) x /\ ev = FilterError x).
    { pose proof (global_iff p "filter") as Gf. destruct (global t p "filter"); cbn [fst map].
      - rewrite in_map_iff. split; [intros (x & <- & Hx); exists x; split; [apply Gf; reflexivity|]; split; [apply C70_reports; exact Hx|reflexivity]|]. intros (x & _ & Hx & ->). exists x. split; [reflexivity|apply C70_reports; exact Hx].
      - split; [intros []|intros (x & Q & _); apply Gf in Q; discriminate]. }
    rewrite Ef. apply or_iff_compat_l. pose proof (known_iff p gs) as K.
    destruct (snd (if global t p "filter" then filter_check (map to_filter gs) else ([], true))); [apply R; apply K; reflexivity|]. cbn [snd]. split; [intros []|]. intros (e & x & _ & Q & _). apply K in Q. discriminate.
Qed.
Lemma call_says p src exact inherit args ev : In ev (snd (visit_call p src exact inherit args (map see_arg args))) <->
  ev = Calls p src exact inherit new_context (map keyword args) \/ (exists q l, closed t rules self_type p q l /\ ev = Trespass (CallsPrivate L q l)) \/
  (exists e k v, In e args /\ arg_of e k v /\ In ev (snd (see (E None v)))) \/ In ev (snd (after_args p (gather args))).
Proof using Type.
  rewrite call_eq. cbn [snd In]. rewrite !in_app_iff, args_say, in_map_iff. split.
  - intros [H|[(tr & <- & H)|H]]; [left; symmetry; exact H| |right; right; exact H]. apply private_says in H. destruct H as (q & l & H & ->). right. left. exists q, l. split; [exact H|reflexivity].
  - intros [H|[(q & l & H & ->)|H]]; [left; symmetry; exact H| |right; right; exact H]. right. left. exists (CallsPrivate L q l). split; [reflexivity|]. apply private_says. exists q, l. split; [exact H|reflexivity].
Qed.
Lemma overload_says a name ev : In ev (snd (visit_overload (F := F) t rules returns builtin self new_context a name)) <->
  (x_impure a = true /\ ev = Impure (lit name ++ lit " done on non-local var")) \/
  (exists i p, x_type a = SType i /\ proc_at i (lit name) = Some p /\ In ev (snd (visit_call p i true false [] (map see_arg [])))) \/
  ((forall i, x_type a = SType i -> proc_at i (lit name) = None) /\ x_type a <> SNone /\ x_type a <> SProc /\ ev = NoOperator (lit name) (x_type a)).
Proof using Type.
  assert (P : In ev (if x_impure a then [Impure (lit name ++ lit " done on non-local var")] else []) <-> x_impure a = true /\ ev = Impure (lit name ++ lit " done on non-local var")).
  { destruct (x_impure a); [|split; [intros []|intros [Q _]; discriminate]]. split; [intros [<-|[]]; split; reflexivity|intros [_ ->]; left; reflexivity]. }
  unfold visit_overload. cbv zeta. destruct (x_type a) as [|i|l keys|] eqn:Hx; cbn [snd].
  - rewrite P. split; [left; assumption|]. intros [Q|[(i & p & Q & _)|(_ & Q & _)]]; [exact Q|discriminate|contradiction].
  - destruct (proc_at i (lit name)) as [p|] eqn:Hp; cbn [snd]; rewrite in_app_iff, P; apply or_iff_compat_l.
    + split; [intro H; left; exists i, p; split; [reflexivity|]; split; [exact Hp|exact H]|]. intros [(j & q & Q & Hq & H)|(Q & _)]; [|rewrite (Q i eq_refl) in Hp; discriminate]. injection Q as <-. rewrite Hp in Hq. injection Hq as <-. exact H.
    + split; [intros [<-|[]]; right; repeat split; try discriminate; intros j Q; injection Q as <-; exact Hp|]. intros [(j & q & Q & Hq & H)|(_ & _ & _ & ->)]; [injection Q as <-; congruence|left; reflexivity].
  - rewrite in_app_iff, P. apply or_iff_compat_l. split; [intros [<-|[]]; right; repeat split; discriminate|]. intros [(j & q & Q & _)|(_ & _ & _ & ->)]; [discriminate|left; reflexivity].
  - rewrite P. split; [left; assumption|]. intros [Q|[(i & p & Q & _)|(_ & _ & Q & _)]]; [exact Q|discriminate|contradiction].
Qed.
Lemma waits_says ty x ev : In ev (type_sleepers (F := F) (L := L) t new_context ty x) <-> exists w, new_context = false /\ waits t ty x w /\ ev = Sleeps w.
Proof using Type.
  assert (S : forall w, In ev (sleeps (F := F) (L := L) new_context w) <-> new_context = false /\ ev = Sleeps w).
  { intro w. unfold sleeps. destruct new_context; [split; [intros []|intros [Q _]; discriminate]|]. split; [intros [<-|[]]; split; reflexivity|intros [_ ->]; left; reflexivity]. }
  assert (M : forall a b, existsb (text_eqb x) (map lit [a; b]) = true <-> x = lit a \/ x = lit b).
  { intros a b. cbn [map existsb]. rewrite !orb_true_iff, !text_eqb_eq. split; [intros [Q|[Q|Q]]; [left|right|discriminate]; exact Q|intros [Q|Q]; [left|right; left]; exact Q]. }
  unfold type_sleepers. destruct (text_eqb_spec (path_of t ty) (lit "/client")) as [Ec|Nc].
  - pose proof (M "SoundQuery"%string "MeasureText"%string) as M1. destruct (existsb (text_eqb x) (map lit ["SoundQuery"%string; "MeasureText"%string])).
    + rewrite S. split.
      * intros [N ->]. exists (lit "client." ++ x). split; [exact N|]. split; [apply wt_client; [exact Ec|apply M1; reflexivity]|reflexivity].
      * intros (w & N & H & ->). split; [exact N|]. destruct H as [x Hc Hx|x Hc Hx]; [reflexivity|rewrite Ec in Hc; discriminate Hc].
    + split; [intros []|]. intros (w & _ & H & _). destruct H as [x Hc Hx|x Hc Hx]; [apply M1 in Hx; discriminate|rewrite Ec in Hc; discriminate Hc].
  - destruct (text_eqb_spec (path_of t ty) (lit "/world")) as [Ew|Nw].
    + pose proof (M "Import"%string "Export"%string) as M1. destruct (existsb (text_eqb x) (map lit ["Import"%string; "Export"%string])).
      * rewrite S. split.
        -- intros [N ->]. exists (lit "world." ++ x). split; [exact N|]. split; [apply wt_world; [exact Ew|apply M1; reflexivity]|reflexivity].
        -- intros (w & N & H & ->). split; [exact N|]. destruct H as [x Hc Hx|x Hc Hx]; [contradiction|reflexivity].
      * split; [intros []|]. intros (w & _ & H & _). destruct H as [x Hc Hx|x Hc Hx]; [contradiction|apply M1 in Hx; discriminate].
    + split; [intros []|]. intros (w & _ & H & _). destruct H as [x Hc Hx|x Hc Hx]; contradiction.
Qed.
Lemma sleeps_says w ev : In ev (sleeps (F := F) (L := L) new_context w) <-> new_context = false /\ ev = Sleeps w.
Proof using Type. unfold sleeps. destruct new_context; [split; [intros []|intros [Q _]; discriminate]|]. split; [intros [<-|[]]; split; reflexivity|intros [_ ->]; left; reflexivity]. Qed.
Lemma mem_text x l : existsb (text_eqb x) l = true <-> In x l.
Proof using Type. rewrite existsb_exists. split; [intros (y & Hy & Q); apply text_eqb_eq in Q; subst; exact Hy|intro H; exists x; split; [exact H|apply text_eqb_eq; reflexivity]]. Qed.
Lemma not_mem_text x l : existsb (text_eqb x) l = false <-> ~ In x l.
Proof using Type. rewrite <- mem_text. destruct (existsb (text_eqb x) l); split; congruence. Qed.
(** 2470-2509 in one step *)
Lemma call_term h x args ev : In ev (snd (see (T h (MCall x args)))) <->
  (new_context = false /\ In x sleep_names /\ ev = Sleeps x) \/ (exists w, new_context = false /\ waits t self_type x w /\ ev = Sleeps w) \/
  In ev (snd match proc_at self_type x with
             | Some p => visit_call p self_type false true args (map see_arg args)
             | None => if text_eqb x (lit "__PROC__") then visit_call self self_type false true args (map see_arg args)
                       else if text_eqb x (lit "SpacemanDMM_unlint") then (empty, [])
                       else if text_eqb x (lit "SpacemanDMM_debug") then (empty, flat_map (fun e => snd (visit None e)) args)
                       else (empty, [UndefinedProc x self_type])
             end).
Proof using Type.
  rewrite see_term. unfold term_body. cbv zeta. cbn [snd]. rewrite !in_app_iff, waits_says.
  assert (A : In ev (if existsb (text_eqb x) sleep_names then sleeps new_context x else []) <-> new_context = false /\ In x sleep_names /\ ev = Sleeps x).
  { pose proof (mem_text x sleep_names) as M. destruct (existsb (text_eqb x) sleep_names).
    - rewrite sleeps_says. split; [intros [H ->]; split; [exact H|]; split; [apply M; reflexivity|reflexivity]|intros (H & _ & ->); split; [exact H|reflexivity]].
    - split; [intros []|intros (_ & H & _); apply M in H; discriminate]. }
  rewrite A. reflexivity.
Qed.
Lemma method_says a k x args ty ev : ~ with_colon k -> basic_type (x_type a) = Some ty -> In ev (snd (see (W a (FCall k x args)))) <->
  (exists w, new_context = false /\ waits t ty x w /\ ev = Sleeps w) \/ (proc_at ty x = None /\ ev = UndefinedProc x ty) \/
  exists p, proc_at ty x = Some p /\ ((exists q l, closed t rules ty p q l /\ ev = Trespass (CallsPrivate L q l)) \/
    ((forall q l, ~ closed t rules ty p q l) /\ ((exists q l, get_self_or_parent t (e_protected rules) p = Some (q, true, l) /\ tree_sub t self_type (pr_ty q) = false /\ ev = Trespass (CallsProtected L q l)) \/
      In ev (snd (visit_call p ty false false args (map see_arg args)))))).
Proof using Type.
  intros Hk Hb. rewrite (colon_call _ _ _ _ Hk), Hb. cbv zeta. cbn [snd]. rewrite in_app_iff, waits_says. apply or_iff_compat_l.
  destruct (proc_at ty x) as [p|] eqn:Hp; [|cbn [snd In]; split; [intros [<-|[]]; left; split; reflexivity|intros [[_ ->]|(p & Q & _)]; [left; reflexivity|discriminate]]].
  destruct (blocked t rules ty p) as [tr|] eqn:B.
  - pose proof (proj1 (blocked_some ty p tr) B) as (q & l & Cl & ->). cbn [snd In]. split.
    + intros [<-|[]]. right. exists p. split; [reflexivity|]. left. exists q, l. split; [exact Cl|reflexivity].
    + intros [[Q _]|(p' & Q & [(q' & l' & Cl' & ->)|[N _]])]; [discriminate| |injection Q as <-; destruct (N q l Cl)]. injection Q as <-. destruct Cl as [C1 _], Cl' as [C2 _]. rewrite C1 in C2. injection C2 as <- <-. left. reflexivity.
  - pose proof (proj1 (blocked_none ty p) B) as N. cbn [snd]. rewrite in_app_iff, in_map_iff. split.
    + intro H. right. exists p. split; [reflexivity|]. right. split; [exact N|]. destruct H as [(tr & <- & H)|H]; [|right; exact H]. left. apply protected_says in H. destruct H as (q & l & H1 & H2 & ->). exists q, l. repeat split; assumption.
    + intros [[Q _]|(p' & Q & [(q' & l' & Cl' & ->)|[_ H]])]; [discriminate|injection Q as <-; destruct (N _ _ Cl')|]. injection Q as <-. destruct H as [(q & l & H1 & H2 & ->)|H]; [|right; exact H].
      left. exists (CallsProtected L q l). split; [reflexivity|]. apply protected_says. exists q, l. repeat split; assumption.
Qed.

(** a call that a part makes is analysed with it *)
Lemma invoked n p src exact inherit args ev : invokes n p src exact inherit args -> In ev (snd (visit_call p src exact inherit args (map see_arg args))) -> In ev (snd (see n)).
Proof using Type.
  intros Hi H. destruct Hi as [h x args p Hp|h args Hp|h args|h args p Hp|h x args p Hp|i args p Hp|h path vs args i p Ht Hp|a k x args ty p Hk Hb Hp Hn|a op name i p Ho Hx Hp].
  - apply call_term. right. right. rewrite Hp. exact H.
  - apply call_term. right. right. rewrite Hp. exact H.
  - rewrite see_term. exact H.
  - rewrite see_term. unfold term_body. cbv zeta. rewrite Hp. cbn [snd]. right. exact H.
  - rewrite see_term. unfold term_body. rewrite Hp. exact H.
  - rewrite see_term. unfold term_body, visit_new. rewrite Hp. exact H.
  - rewrite see_term. unfold term_body, visit_new. rewrite Ht, Hp. exact H.
  - apply (method_says _ _ _ _ _ _ Hk Hb). right. right. exists p. split; [exact Hp|]. right. split; [exact Hn|]. right. exact H.
  - rewrite see_follow. unfold follow_body. destruct (overloads_dec op) as [(nm & Ho' & Hu)|[Hn _]]; [|destruct (Hn _ Ho)]. rewrite Hu. rewrite (overloads_fun op name (lit nm) Ho Ho') in Hp.
    apply overload_says. right. left. exists i, p. split; [exact Hx|]. split; [exact Hp|exact H].
Qed.
Lemma gives_gather args gs : Forall2 (fun e g => arg_of e (ga_name g) (ga_expr g)) args gs -> (forall g, In g gs -> gives (E None (ga_expr g)) (ga_ana g)) -> gs = gather args.
Proof using Type. intros H1 H2. apply gather_eq; [exact H1|]. intros g Hg. apply gives_iff. apply H2. exact Hg. Qed.
Lemma gather_gives args g : In g (gather args) -> gives (E None (ga_expr g)) (ga_ana g).
Proof using Type. unfold gather. rewrite in_map_iff. intros (e & <- & _). cbn [ga_expr ga_ana]. apply gives_iff. reflexivity. Qed.
Lemma gather_nil args : gather args = [] <-> args = [].
Proof using Type. destruct args; split; (reflexivity || discriminate). Qed.
Lemma invoked_says n p src exact inherit args ev : invokes n p src exact inherit args -> In ev (snd (visit_call p src exact inherit args (map see_arg args))) -> says n ev \/ exists m, looks n m /\ In ev (snd (see m)).
Proof using Type.
  intros Hi H. apply call_says in H. destruct H as [->|[(q & l & Cl & ->)|[(e & k & v & He & Ha & H)|H]]].
  - left. eapply sy_call; [exact Hi|]. apply names_of. reflexivity.
  - left. eapply sy_private; [exact Hi|exact Cl].
  - right. exists (E None v). split; [eapply lk_call; [exact Hi|exact He|exact Ha]|exact H].
  - left. apply after_says in H. destruct H as [(Hb & Hg & Hn & Hp & ->)|[(x & Hf & Hx & ->)|(e & x & Ho & Hk & Hb & Hr & Hv & ->)]].
    + apply gather_nil in Hg. subst args. eapply sy_find; [exact Hi|exact Hb|exact Hn|exact Hp].
    + eapply sy_filter; [exact Hi|apply gather_is|apply gather_gives|exact Hf|exact Hx].
    + eapply sy_return; [exact Hi|apply gather_is|apply gather_gives|exact Ho|exact Hk|exact Hb|exact Hr|exact Hv].
Qed.

(** ** Operators *)
Lemma in_says (l : expr) ev : In ev (in_faults (F := F) (L := L) l) <->
  (exists x fs1 op fs2, l = Base x (fs1 ++ FUnary op :: fs2) /\ (forall op', ~ In (FUnary op') fs1) /\ ev = AmbiguousIn (Some op)) \/ ((forall x fs, l <> Base x fs) /\ ev = AmbiguousIn None).
Proof using Type.
  destruct l as [x fs|op l r|op l r|c a b]; cbn [in_faults];
  try (split; [intros [<-|[]]; right; split; [discriminate|reflexivity]|intros [(x & fs1 & o & fs2 & Q & _)|[_ ->]]; [discriminate|left; reflexivity]]).
  assert (G : In ev match List.find (fun f : follow F => match f with FUnary _ => true | _ => false end) fs with Some (FUnary op) => [AmbiguousIn (Some op)] | _ => [] end <->
    exists fs1 op fs2, fs = fs1 ++ FUnary op :: fs2 /\ (forall op', ~ In (FUnary op') fs1) /\ ev = AmbiguousIn (Some op)).
  { induction fs as [|f fs IH]; cbn [List.find]; [split; [intros []|intros (fs1 & op & fs2 & Q & _); destruct fs1; discriminate]|].
    assert (N : (forall op, f <> FUnary op) -> (exists fs1 op fs2, fs = fs1 ++ FUnary op :: fs2 /\ (forall op', ~ In (FUnary op') fs1) /\ ev = AmbiguousIn (Some op)) <->
      (exists fs1 op fs2, f :: fs = fs1 ++ FUnary op :: fs2 /\ (forall op', ~ In (FUnary op') fs1) /\ ev = AmbiguousIn (Some op))).
    { intro Nf. split.
      - intros (fs1 & op & fs2 & -> & H & ->). exists (f :: fs1), op, fs2. split; [reflexivity|]. split; [|reflexivity]. intros op' [Q|Q]; [exact (Nf op' Q)|exact (H op' Q)].
      - intros (fs1 & op & fs2 & Q & H & ->). destruct fs1 as [|g fs1]; [injection Q as -> _; destruct (Nf op eq_refl)|]. injection Q as <- ->. exists fs1, op, fs2. split; [reflexivity|]. split; [|reflexivity]. intros op' Q. apply (H op'). right. exact Q. }
    destruct f as [k e|k y|k y args|op|y|y]; try (rewrite IH; apply N; discriminate).
    split; [intros [<-|[]]; exists [], op, fs; split; [reflexivity|]; split; [intros op' []|reflexivity]|].
    intros (fs1 & op1 & fs2 & Q & H & ->). destruct fs1 as [|g fs1]; [injection Q as <- _; left; reflexivity|]. injection Q as <- _. destruct (H op (or_introl eq_refl)). }
  rewrite G. split.
  - intros (fs1 & op & fs2 & -> & H & ->). left. exists x, fs1, op, fs2. split; [reflexivity|]. split; [exact H|reflexivity].
  - intros [(y & fs1 & op & fs2 & Q & H & ->)|[Q _]]; [|destruct (Q x fs eq_refl)]. injection Q as <- ->. exists fs1, op, fs2. split; [reflexivity|]. split; [exact H|reflexivity].
Qed.
Lemma not_says op (l : expr) ev : In ev (not_faults (F := F) (L := L) op l) <-> exists x fs, l = Base x fs /\ In (FUnary Not) fs /\ ev = AmbiguousNot op.
Proof using Type.
  destruct l as [x fs|o l r|o l r|c a b]; cbn [not_faults]; try (split; [intros []|intros (x & fs & Q & _); discriminate]).
  assert (G : existsb (fun f : follow F => match f with FUnary Not => true | _ => false end) fs = true <-> In (FUnary Not) fs).
  { rewrite existsb_exists. split; [intros (f & Hf & Q); destruct f as [| | |u| |]; try discriminate; destruct u; try discriminate; exact Hf|intro H; exists (FUnary Not); split; [exact H|reflexivity]]. }
  destruct (existsb _ fs).
  - split; [intros [<-|[]]; exists x, fs; split; [reflexivity|]; split; [apply G; reflexivity|reflexivity]|intros (y & gs & _ & _ & ->); left; reflexivity].
  - split; [intros []|intros (y & gs & Q & H & _); injection Q as <- <-; apply G in H; discriminate].
Qed.
Lemma shift_says a ev : In ev (shift_faults (F := F) (L := L) t a) <->
  (x_type a = SType (expect t "/mob") /\ ev = Impure (lit "LShift onto mob")) \/
  (x_type a = SType (expect t "/savefile") /\ expect t "/savefile" <> expect t "/mob" /\ ev = Impure (lit "LShift onto savefile")) \/
  (x_type a = SType list_type /\ list_type <> expect t "/mob" /\ list_type <> expect t "/savefile" /\ ev = Impure (lit "LShift onto list")).
Proof using Type.
  unfold shift_faults. destruct (x_type a) as [|i|l k|]; try (split; [intros []|intros [[Q _]|[(Q & _)|(Q & _)]]; discriminate]).
  destruct (Nat.eqb_spec i (expect t "/mob")) as [E1|N1]; [|destruct (Nat.eqb_spec i (expect t "/savefile")) as [E2|N2]; [|destruct (Nat.eqb_spec i list_type) as [E3|N3]]].
  - split; [intros [<-|[]]; left; split; [congruence|reflexivity]|]. intros [[Q ->]|[(Q & N & _)|(Q & N & _)]]; [left; reflexivity| |]; injection Q as Q; congruence.
  - split; [intros [<-|[]]; right; left; repeat split; congruence|]. intros [[Q ->]|[(Q & _ & ->)|(Q & _ & N & _)]]; [injection Q as Q; congruence|left; reflexivity|injection Q as Q; congruence].
  - split; [intros [<-|[]]; right; right; repeat split; congruence|]. intros [[Q ->]|[(Q & _)|(Q & _ & _ & ->)]]; [injection Q as Q; congruence|injection Q as Q; congruence|left; reflexivity].
  - split; [intros []|]. intros [[Q _]|[(Q & _)|(Q & _)]]; injection Q as Q; congruence.
Qed.

(** ** The rules are sound *)
Lemma says_in n ev : says n ev -> In ev (snd (see n)).
Proof using Type.
  intro H. destruct H as [h x Hx Nx Hd|h x d p Hx Nx Hd Hs|h x Hd|h x d p Hd Hs|h path vs Hi|h path vs args Hi
    |h x args Hp N1 N2 N3|a k x args ty Hk Hb Hp|a x i Ht Hp|h x args Hp|h args Hp|h args|args|i args Hp Hn|h path vs args i Hi Hp Hn|a k x args Hk Hb|a op name Ho Hx N1 N2
    |a k x ty Hk Hb Nc Hd|a k x Hk Hx Hn|a k x Hk Hx|a k x ty d p Hk Hb Nc Hd Hs|a k x ty d Hk Hb Nc Hd Hv Ny|a k x ty d Hk Hb Nc Hd Np Hv Hs|a k e i Hx Hp
    |a x i Ht Hd|a x i d p Ht Hd Hs|a f x Hf Hb Hv|a f x v Hf Hb Hv Nv|a f x p Hf Hb Hv Hn
    |n p src exact inherit args ks Hi Hk|n p src exact inherit args q l Hi Hc|a k x args ty p q l Hk Hb Hp Hc|a k x args p src q l Hi Hg Hs|n p src exact inherit Hi Hb Hn Hp
    |n p src exact inherit args gs e Hi Hg1 Hg2 Hf Hx|n p src exact inherit args gs e x Hi Hg1 Hg2 Ho Hk Hb Hr Hv
    |h x args Hn Hx|h args it l Hn|h x args w Hn Hw|a k x args ty w Hn Hk Hb Hw
    |h op l r a Ha Hi|a op name Ho Hi|h l r a Ha Hx|h l r a Ha Hx N1|h l r a Ha Hx N1 N2|h x fs1 op fs2 r Hn|h l r Hn|h op x fs r Ho Hf].
  - rewrite ident_eq. unfold visit_ident. rewrite Hx. destruct (text_eqb_spec x (lit "type")) as [Q|_]; [contradiction|]. rewrite Hd. left. reflexivity.
  - rewrite ident_eq. unfold visit_ident. rewrite Hx. destruct (text_eqb_spec x (lit "type")) as [Q|_]; [contradiction|]. rewrite Hd. apply var_typed_says. exists p. split; [exact Hs|reflexivity].
  - rewrite see_term. unfold term_body. rewrite Hd. left. reflexivity.
  - rewrite see_term. unfold term_body. rewrite Hd. apply var_typed_says. exists p. split; [exact Hs|reflexivity].
  - rewrite see_term. unfold term_body. rewrite Hi. left. reflexivity.
  - rewrite see_term. unfold term_body. rewrite Hi. left. reflexivity.
  - apply call_term. right. right. rewrite Hp. destruct (text_eqb_spec x (lit "__PROC__")) as [Q|_]; [contradiction|]. destruct (text_eqb_spec x (lit "SpacemanDMM_unlint")) as [Q|_]; [contradiction|].
    destruct (text_eqb_spec x (lit "SpacemanDMM_debug")) as [Q|_]; [contradiction|]. left. reflexivity.
  - apply (method_says _ _ _ _ _ _ Hk Hb). right. left. split; [exact Hp|reflexivity].
  - rewrite see_follow. unfold follow_body. apply (target_iff a x) in Ht. rewrite Ht, Hp. left. reflexivity.
  - rewrite see_term. unfold term_body. rewrite Hp. left. reflexivity.
  - rewrite see_term. unfold term_body. cbv zeta. cbn [snd]. right. destruct (parent_proc t size self) as [[q|]|]; [destruct (Hp q eq_refl)|left; reflexivity|left; reflexivity].
  - rewrite see_term. unfold term_body. left. reflexivity.
  - rewrite see_term. unfold term_body. left. reflexivity.
  - rewrite see_term. unfold term_body, visit_new. rewrite Hp. apply (not_mem_text _ no_new) in Hn. rewrite Hn. left. reflexivity.
  - rewrite see_term. unfold term_body, visit_new. rewrite Hi, Hp. apply (not_mem_text _ no_new) in Hn. rewrite Hn. left. reflexivity.
  - rewrite (colon_call _ _ _ _ Hk), Hb. left. reflexivity.
  - rewrite see_follow. unfold follow_body. destruct (overloads_dec op) as [(nm & Ho' & Hu)|[Hn _]]; [|destruct (Hn _ Ho)]. rewrite Hu. rewrite (overloads_fun op name (lit nm) Ho Ho') in *. apply overload_says. right. right. repeat split; assumption.
  - rewrite (colon_field _ _ _ Hk), (field_typed _ _ _ Hb). apply not_callee in Nc. rewrite Nc, Hd. left. reflexivity.
  - rewrite (colon_field _ _ _ Hk). unfold visit_field. rewrite Hx. apply (not_mem_text x proc_fields) in Hn. rewrite Hn. left. reflexivity.
  - rewrite (colon_field _ _ _ Hk). unfold visit_field. rewrite Hx. left. reflexivity.
  - rewrite (colon_field _ _ _ Hk), (field_typed _ _ _ Hb). apply not_callee in Nc. rewrite Nc, Hd. cbv zeta. cbn [snd]. apply in_app_iff. right. apply var_typed_says. exists p. split; [exact Hs|reflexivity].
  - rewrite (colon_field _ _ _ Hk), (field_typed _ _ _ Hb). apply not_callee in Nc. rewrite Nc, Hd. cbv zeta. cbn [snd]. apply in_app_iff. left. destruct (Nat.eqb_spec ty self_type) as [Q|_]; [contradiction|]. rewrite Hv. left. reflexivity.
  - rewrite (colon_field _ _ _ Hk), (field_typed _ _ _ Hb). apply not_callee in Nc. rewrite Nc, Hd. cbv zeta. cbn [snd]. apply in_app_iff. left. rewrite Hs, Hv. cbn [negb andb].
    destruct (Nat.eqb_spec ty self_type) as [Q|Q]; cbn [negb andb]; [left; reflexivity|]. destruct (vd_private d) eqn:P; [exfalso; apply Np; split; [reflexivity|exact Q]|left; reflexivity].
  - rewrite see_follow. unfold follow_body. cbv zeta. rewrite Hx. cbn [snd]. apply in_app_iff. right. rewrite Hp. left. reflexivity.
  - rewrite see_follow. unfold follow_body. apply (target_iff a x) in Ht. rewrite Ht, Hd. left. reflexivity.
  - rewrite see_follow. unfold follow_body. apply (target_iff a x) in Ht. rewrite Ht, Hd. apply var_typed_says. exists p. split; [exact Hs|reflexivity].
  - destruct Hf as [-> | ->]; rewrite see_follow; unfold follow_body, static_target; rewrite Hb, Hv; left; reflexivity.
  - destruct Hf as [-> | ->]; rewrite see_follow; unfold follow_body, static_target; rewrite Hb, Hv; destruct v as [q|q|]; try destruct (Nv q eq_refl); left; reflexivity.
  - destruct Hf as [-> | ->]; rewrite see_follow; unfold follow_body, static_target; rewrite Hb, Hv, Hn; left; reflexivity.
  - apply (invoked _ _ _ _ _ _ _ Hi). apply names_of in Hk. subst ks. apply call_says. left. reflexivity.
  - apply (invoked _ _ _ _ _ _ _ Hi). apply call_says. right. left. exists q, l. split; [exact Hc|reflexivity].
  - apply (method_says _ _ _ _ _ _ Hk Hb). right. right. exists p. split; [exact Hp|]. left. exists q, l. split; [exact Hc|reflexivity].
  - inversion Hi; subst. match goal with H1 : ~ with_colon k, H2 : basic_type _ = Some _ |- _ => apply (method_says _ _ _ _ _ _ H1 H2) end. right. right. exists p. split; [assumption|]. right. split; [assumption|]. left. exists q, l. repeat split; assumption.
  - apply (invoked _ _ _ _ _ _ _ Hi). apply call_says. right. right. right. apply after_says. left. repeat split; assumption.
  - apply (invoked _ _ _ _ _ _ _ Hi). apply call_says. right. right. right. apply after_says. right. left. rewrite <- (gives_gather _ _ Hg1 Hg2). exists e. repeat split; try assumption; apply Hf.
  - apply (invoked _ _ _ _ _ _ _ Hi). apply call_says. right. right. right. apply after_says. right. right. rewrite <- (gives_gather _ _ Hg1 Hg2). exists e, x. repeat split; assumption.
  - apply call_term. left. repeat split; assumption.
  - rewrite see_term. unfold term_body. cbn [snd]. apply in_app_iff. left. apply sleeps_says. split; [exact Hn|reflexivity].
  - apply call_term. right. left. exists w. repeat split; assumption.
  - apply (method_says _ _ _ _ _ _ Hk Hb). left. exists w. repeat split; assumption.
  - rewrite see_assign. cbv zeta. cbn [snd]. apply gives_iff in Ha. rewrite Ha, Hi. apply in_app_iff. right. left. reflexivity.
  - rewrite see_follow. unfold follow_body. destruct (overloads_dec op) as [(nm & Ho' & Hu)|[Hn _]]; [|destruct (Hn _ Ho)]. rewrite Hu. rewrite (overloads_fun op name (lit nm) Ho Ho') in *. apply overload_says. left. split; [exact Hi|reflexivity].
  - rewrite see_bin. cbv zeta. cbn [snd]. apply gives_iff in Ha. rewrite !in_app_iff. right. right. cbn [operator_faults]. rewrite Ha. apply shift_says. left. split; [exact Hx|reflexivity].
  - rewrite see_bin. cbv zeta. cbn [snd]. apply gives_iff in Ha. rewrite !in_app_iff. right. right. cbn [operator_faults]. rewrite Ha. apply shift_says. right. left. repeat split; assumption.
  - rewrite see_bin. cbv zeta. cbn [snd]. apply gives_iff in Ha. rewrite !in_app_iff. right. right. cbn [operator_faults]. rewrite Ha. apply shift_says. right. right. repeat split; assumption.
  - rewrite see_bin. cbv zeta. cbn [snd]. rewrite !in_app_iff. right. right. cbn [operator_faults]. apply in_says. left. exists x, fs1, op, fs2. split; [reflexivity|]. split; [exact Hn|reflexivity].
  - rewrite see_bin. cbv zeta. cbn [snd]. rewrite !in_app_iff. right. right. cbn [operator_faults]. apply in_says. right. split; [exact Hn|reflexivity].
  - rewrite see_bin. cbv zeta. cbn [snd]. rewrite !in_app_iff. right. right.
    assert (Q : In (AmbiguousNot op) (not_faults (F := F) (L := L) op (Base x fs))) by (apply not_says; exists x, fs; split; [reflexivity|]; split; [exact Hf|reflexivity]).
    cbn [In] in Ho. destruct Ho as [<-|[<-|[<-|[]]]]; exact Q.
Qed.

(** ** What is looked at *)
Lemma hint_follow h fs (f : follow F) fs' : match fs ++ f :: fs' with [] => h | _ => None end = None.
Proof using Type. destruct fs; reflexivity. Qed.
Lemma looks_in n m ev : looks n m -> In ev (snd (see m)) -> In ev (snd (see n)).
Proof using Type.
  intros H He. destruct H as [h x|h x f fs|h x fs f fs' a Ha|h l r|h l r|h op l r N|h op l r N|h op l r|h op l r a Ha|h c a b|h c a b|h c a b|h e|h s ps e s' Hi
    |n p src exact inherit args e k v Hc Hi Ha|h args e Hp Hi|h args e k v Hi Ha|h args it l e k v Hi Ha|h args it e|h args l e k v Hi Ha|h args e|h cs w e Hi|h cs w e Hi
    |h a b e k v Hi Ha|h a b e k v Hi Ha|h l f args|h l f args|h l f args e k v Hi Ha|a k x args e k' v Hk Hi Ha|a k e].
  - rewrite see_base. cbn [snd follows]. apply in_app_iff. left. exact He.
  - rewrite see_base. cbn [snd]. apply in_app_iff. left. exact He.
  - rewrite see_base. cbn [snd]. apply in_app_iff. right. apply follows_says. exists fs, f, fs'. split; [reflexivity|]. rewrite hint_follow, <- base_none. apply gives_iff in Ha. rewrite Ha. exact He.
  - rewrite see_bin. cbv zeta. cbn [snd]. apply in_app_iff. left. exact He.
  - rewrite see_bin. cbv zeta. cbn [snd]. rewrite !in_app_iff. right. left. exact He.
  - rewrite see_bin. cbv zeta. cbn [snd]. apply in_app_iff. left. destruct op; try exact He. contradiction.
  - rewrite see_bin. cbv zeta. cbn [snd]. rewrite !in_app_iff. right. left. destruct op; try exact He. contradiction.
  - rewrite see_assign. cbv zeta. cbn [snd]. apply in_app_iff. left. exact He.
  - rewrite see_assign. cbv zeta. cbn [snd]. rewrite !in_app_iff. right. right. apply gives_iff in Ha. rewrite Ha. exact He.
  - rewrite see_tern. cbn [snd]. apply in_app_iff. left. exact He.
  - rewrite see_tern. cbn [snd]. rewrite !in_app_iff. right. left. exact He.
  - rewrite see_tern. cbn [snd]. rewrite !in_app_iff. right. right. exact He.
  - rewrite see_term. exact He.
  - rewrite see_term. unfold term_body. cbn [snd]. apply in_flat_map. exists (Some e, s'). split; [exact Hi|exact He].
  - apply (invoked _ _ _ _ _ _ _ Hc). apply call_says. right. right. left. exists e, k, v. split; [exact Hi|]. split; [exact Ha|exact He].
  - apply call_term. right. right. rewrite Hp. cbn [snd]. apply in_flat_map. exists e. split; [exact Hi|exact He].
  - rewrite see_term. unfold term_body. cbn [snd]. apply args_say. exists e, k, v. split; [exact Hi|]. split; [exact Ha|exact He].
  - rewrite see_term. unfold term_body. cbn [snd]. rewrite !in_app_iff. right. left. apply args_say. exists e, k, v. split; [exact Hi|]. split; [exact Ha|exact He].
  - rewrite see_term. unfold term_body. cbn [snd]. rewrite !in_app_iff. right. right. exact He.
  - rewrite see_term. unfold term_body. cbn [snd]. rewrite !in_app_iff. left. apply args_say. exists e, k, v. split; [exact Hi|]. split; [exact Ha|exact He].
  - rewrite see_term. unfold term_body. cbn [snd]. rewrite !in_app_iff. right. exact He.
  - rewrite see_term. unfold term_body. cbn [snd]. apply in_flat_map. exists (Some w, e). split; [exact Hi|]. apply in_app_iff. left. exact He.
  - rewrite see_term. unfold term_body. cbn [snd]. apply in_flat_map. exists (w, e). split; [exact Hi|]. apply in_app_iff. right. exact He.
  - rewrite see_term. unfold term_body. cbn [snd]. rewrite in_app_iff. left. apply args_say. exists e, k, v. split; [exact Hi|]. split; [exact Ha|exact He].
  - rewrite see_term. unfold term_body. cbn [snd]. rewrite in_app_iff. right. apply args_say. exists e, k, v. split; [exact Hi|]. split; [exact Ha|exact He].
  - rewrite see_term. unfold term_body. cbn [snd]. rewrite !in_app_iff. left. exact He.
  - rewrite see_term. unfold term_body. cbn [snd]. rewrite !in_app_iff. right. left. exact He.
  - rewrite see_term. unfold term_body. cbn [snd]. rewrite !in_app_iff. right. right. apply args_say. exists e, k, v. split; [exact Hi|]. split; [exact Ha|exact He].
  - rewrite (with_call _ _ _ _ Hk). cbn [snd]. apply args_say. exists e, k', v. split; [exact Hi|]. split; [exact Ha|exact He].
  - rewrite see_follow. unfold follow_body. cbv zeta. destruct (x_type a); cbn [snd]; try exact He. apply in_app_iff. left. exact He.
Qed.
Lemma maybe_says (o : option expr) ev : In ev (maybe o) <-> exists e, o = Some e /\ In ev (snd (see (E None e))).
Proof using Type. destruct o as [e|]; cbn [maybe]; [|split; [intros []|intros (e & Q & _); discriminate]]. split; [intro H; exists e; split; [reflexivity|exact H]|intros (e' & Q & H); injection Q as <-; exact H]. Qed.

(** ** The rules are complete *)
Lemma see_out n ev : In ev (snd (see n)) -> says n ev \/ exists m, looks n m /\ In ev (snd (see m)).
Proof using Type.
  assert (A : forall (m : part) (args : list expr), (forall e k v, In e args -> arg_of e k v -> looks m (E None v)) -> In ev (flat_map (fun e => snd (see_arg e)) args) -> exists m', looks m m' /\ In ev (snd (see m'))).
  { intros m args Hm H. apply args_say in H. destruct H as (e & k & v & Hi & Ha & H). exists (E None v). split; [exact (Hm e k v Hi Ha)|exact H]. }
  assert (M : forall (m : part) (o : option expr), (forall e, o = Some e -> looks m (E None e)) -> In ev (maybe o) -> exists m', looks m m' /\ In ev (snd (see m'))).
  { intros m o Hm H. apply maybe_says in H. destruct H as (e & Q & H). exists (E None e). split; [exact (Hm e Q)|exact H]. }
  destruct n as [h e|h y|a f].
  - destruct e as [y fs|op l r|op l r|c a b]; intro H.
    + right. rewrite see_base in H. cbn [snd] in H. apply in_app_iff in H. destruct H as [H|H].
      * destruct fs as [|f fs]; [exists (T h y); split; [apply lk_term|exact H]|exists (T None y); split; [apply lk_first|exact H]].
      * apply follows_says in H. destruct H as (fs1 & f & fs2 & -> & H). rewrite hint_follow, <- base_none in H. exists (W (fst (see (E None (Base y fs1)))) f). split; [apply lk_follow; apply gives_iff; reflexivity|exact H].
    + rewrite see_bin in H. cbv zeta in H. cbn [snd] in H. rewrite !in_app_iff in H. destruct H as [H|[H|H]].
      * right. assert (D' : op = BOr \/ op <> BOr) by (destruct op; ((left; reflexivity) || (right; discriminate))). destruct D' as [->|N]; [exists (E h l); split; [apply lk_or_left|exact H]|].
        exists (E None l). split; [apply lk_left; exact N|destruct op; try exact H; contradiction].
      * right. assert (D' : op = BOr \/ op <> BOr) by (destruct op; ((left; reflexivity) || (right; discriminate))). destruct D' as [->|N]; [exists (E h r); split; [apply lk_or_right|exact H]|].
        exists (E None r). split; [apply lk_right; exact N|destruct op; try exact H; contradiction].
      * left. assert (Nt : In op [BBitAnd; BBitOr; BBitXor] -> In ev (not_faults op l) -> says (E h (Bin op l r)) ev) by (intros Ho Hn; apply not_says in Hn; destruct Hn as (y & fs & -> & Hf & ->); apply sy_not; assumption).
        destruct op; cbn [operator_faults] in H; try destruct H.
        all: try (apply Nt; [cbn [In]; auto|exact H]).
        -- apply shift_says in H. destruct H as [[Hx ->]|[(Hx & N & ->)|(Hx & N1 & N2 & ->)]]; [eapply sy_shift_mob|eapply sy_shift_savefile|eapply sy_shift_list]; try eassumption; apply gives_iff; reflexivity.
        -- apply in_says in H. destruct H as [(y & fs1 & op & fs2 & -> & Hn & ->)|[Hn ->]]; [apply sy_in_unary; exact Hn|apply sy_in; exact Hn].
    + rewrite see_assign in H. cbv zeta in H. cbn [snd] in H. rewrite !in_app_iff in H. destruct H as [H|[H|H]].
      * right. exists (E None l). split; [apply lk_assign_left|exact H].
      * left. destruct (x_impure (fst (see (E None l)))) eqn:Q; [|destruct H]. destruct H as [<-|[]]. eapply sy_assign; [apply gives_iff; reflexivity|exact Q].
      * right. exists (E (basic_type (x_type (fst (see (E None l))))) r). split; [apply lk_assign_right; apply gives_iff; reflexivity|exact H].
    + right. rewrite see_tern in H. cbn [snd] in H. rewrite !in_app_iff in H. destruct H as [H|[H|H]]; [exists (E None c); split; [apply lk_cond|exact H]|exists (E h a); split; [apply lk_then|exact H]|exists (E h b); split; [apply lk_else|exact H]].
  - destruct y as [ |z|f|x|s|s|k| | | |e|path vs|s ps|x args|args|args|args|path vs args|i fs args|args|args it l|args l|cs|ca cb|l f args|x|x args]; try (rewrite see_term; intros []; fail).
    + rewrite ident_eq. unfold visit_ident. destruct (locals x) as [a|] eqn:Hx; [intros []|]. destruct (text_eqb_spec x (lit "type")) as [->|Nx]; [intros []|].
      destruct (var_decl self_type x) as [d|] eqn:Hd; [|intros [<-|[]]; left; apply sy_var; assumption]. intro H. apply var_typed_says in H. destruct H as (p & Hp & ->). left. eapply sy_var_type; eassumption.
    + rewrite see_term. unfold term_body. destruct h; intros [].
    + rewrite see_term. intro H. right. exists (E h e). split; [apply lk_paren|exact H].
    + rewrite see_term. unfold term_body. destruct (type_at path) as [i|] eqn:Hi; [intros []|]. intros [<-|[]]. left. apply sy_path. exact Hi.
    + rewrite see_term. unfold term_body. cbn [snd]. rewrite in_flat_map. intros ([[e|] s'] & Hi & H); [|destruct H]. right. exists (E None e). split; [eapply lk_interp; exact Hi|exact H].
    + intro H. apply call_term in H. destruct H as [(Hn & Hx & ->)|[(w & Hn & Hw & ->)|H]]; [left; apply sy_sleep; assumption|left; apply sy_waits; assumption|].
      destruct (proc_at self_type x) as [p|] eqn:Hp; [exact (invoked_says _ _ _ _ _ _ _ (iv_plain _ _ _ _ _ _ _ h x args p Hp) H)|].
      destruct (text_eqb_spec x (lit "__PROC__")) as [->|N1]; [exact (invoked_says _ _ _ _ _ _ _ (iv_proc _ _ _ _ _ _ _ h args Hp) H)|].
      destruct (text_eqb_spec x (lit "SpacemanDMM_unlint")) as [->|N2]; [destruct H|].
      destruct (text_eqb_spec x (lit "SpacemanDMM_debug")) as [->|N3]; [|destruct H as [<-|[]]; left; apply sy_proc; assumption].
      cbn [snd] in H. apply in_flat_map in H. destruct H as (e & He & H). right. exists (E None e). split; [apply lk_debug; assumption|exact H].
    + rewrite see_term. intro H. exact (invoked_says _ _ _ _ _ _ _ (iv_self _ _ _ _ _ _ _ h args) H).
    + rewrite see_term. unfold term_body. cbv zeta. cbn [snd]. intros [<-|H]; [left; apply sy_parent|].
      destruct (parent_proc t size self) as [[p|]|] eqn:Hp; [exact (invoked_says _ _ _ _ _ _ _ (iv_parent _ _ _ _ _ _ _ h args p Hp) H)| |]; destruct H as [<-|[]]; left; apply sy_no_parent; congruence.
    + rewrite see_term. unfold term_body. destruct h as [i|]; [|intros [<-|[]]; left; apply sy_no_hint]. unfold visit_new. cbn [snd].
      destruct (proc_at i (lit "New")) as [p|] eqn:Hp; [intro H; exact (invoked_says _ _ _ _ _ _ _ (iv_implicit _ _ _ _ _ _ _ i args p Hp) H)|].
      destruct (existsb (text_eqb (path_of t i)) no_new) eqn:Nn; [intros []|]. apply not_mem_text in Nn. intros [<-|[]]. left. apply sy_no_new_hint; assumption.
    + rewrite see_term. unfold term_body. destruct (type_at path) as [i|] eqn:Hi; [|intros [<-|[]]; left; apply sy_new_path; exact Hi]. unfold visit_new. cbn [snd].
      destruct (proc_at i (lit "New")) as [p|] eqn:Hp; [intro H; exact (invoked_says _ _ _ _ _ _ _ (iv_new _ _ _ _ _ _ _ h path vs args i p Hi Hp) H)|].
      destruct (existsb (text_eqb (path_of t i)) no_new) eqn:Nn; [intros []|]. apply not_mem_text in Nn. intros [<-|[]]. left. apply sy_no_new; assumption.
    + rewrite see_term. unfold term_body. cbn [snd]. intro H. right. eapply A; [|exact H]. intros e k v Hi Ha. eapply lk_list; eassumption.
    + rewrite see_term. unfold term_body. cbn [snd]. rewrite !in_app_iff. intros [H|[H|H]].
      * apply sleeps_says in H. destruct H as [Hn ->]. left. apply sy_input. exact Hn.
      * right. eapply A; [|exact H]. intros e k v Hi Ha. eapply lk_input; eassumption.
      * right. eapply M; [|exact H]. intros e ->. apply lk_input_in.
    + rewrite see_term. unfold term_body. cbn [snd]. rewrite in_app_iff. intros [H|H].
      * right. eapply A; [|exact H]. intros e k v Hi Ha. eapply lk_locate; eassumption.
      * right. eapply M; [|exact H]. intros e ->. apply lk_locate_in.
    + rewrite see_term. unfold term_body. cbn [snd]. rewrite in_flat_map. intros ([w e] & Hi & H). cbn [fst snd] in H. apply in_app_iff in H. right. destruct H as [H|H].
      * destruct w as [w|]; [|destruct H]. exists (E None w). split; [eapply lk_weight; exact Hi|exact H].
      * exists (E None e). split; [eapply lk_choice; exact Hi|exact H].
    + rewrite see_term. unfold term_body. cbn [snd]. rewrite in_app_iff. intros [H|H]; right; (eapply A; [|exact H]); intros e k v Hi Ha; [eapply lk_dynamic_left|eapply lk_dynamic_right]; eassumption.
    + rewrite see_term. unfold term_body. cbn [snd]. rewrite !in_app_iff. intros [H|[H|H]]; right.
      * eapply M; [|exact H]. intros e ->. apply lk_library.
      * exists (E None f). split; [apply lk_function|exact H].
      * eapply A; [|exact H]. intros e k v Hi Ha. eapply lk_external; eassumption.
    + rewrite see_term. unfold term_body. destruct (var_decl 0 x) as [d|] eqn:Hd; [|intros [<-|[]]; left; apply sy_global; exact Hd]. intro H. apply var_typed_says in H. destruct H as (p & Hp & ->). left. eapply sy_global_type; eassumption.
    + rewrite see_term. unfold term_body. destruct (proc_at 0 x) as [p|] eqn:Hp; [|intros [<-|[]]; left; apply sy_global_proc; exact Hp]. intro H. exact (invoked_says _ _ _ _ _ _ _ (iv_global _ _ _ _ _ _ _ h x args p Hp) H).
  - assert (St : forall x i, f = FStaticField x \/ f = FProcRef x -> static_target t a x = inr i -> ev = i -> says (W a f) ev).
    { intros x i Hf H ->. unfold static_target in H. destruct (basic_type (x_type a)) as [j|] eqn:Hb; [discriminate|]. destruct (x_val a) as [[q|q|]|] eqn:Hv.
      - destruct (find t (render q)) as [j|] eqn:Hq; [discriminate|]. injection H as <-. eapply sy_no_such_typepath; eassumption.
      - injection H as <-. eapply sy_not_typepath; [eassumption|eassumption|eassumption|discriminate].
      - injection H as <-. eapply sy_not_typepath; [eassumption|eassumption|eassumption|discriminate].
      - injection H as <-. eapply sy_no_typepath; eassumption. }
    destruct f as [k e|k x|k x args|op|x|x]; intro H.
    + rewrite see_follow in H. unfold follow_body in H. cbv zeta in H.
      assert (G : In ev (snd (see (E None e))) -> says (W a (FIndex k e)) ev \/ exists m, looks (W a (FIndex k e)) m /\ In ev (snd (see m))) by (intro Q; right; exists (E None e); split; [apply lk_index|exact Q]).
      destruct (x_type a) as [|i|l keys|] eqn:Hx; try exact (G H). cbn [snd] in H. apply in_app_iff in H. destruct H as [H|H]; [exact (G H)|].
      left. destruct (proc_at i (lit "operator[]")) as [p|] eqn:Hp; [destruct H|]. destruct H as [<-|[]]. apply sy_index; assumption.
    + destruct (colon_dec k) as [Hk|Hk]; [rewrite (with_field _ _ _ Hk) in H; destruct H|]. left. rewrite (colon_field _ _ _ Hk) in H. destruct (basic_type (x_type a)) as [ty|] eqn:Hb.
      * rewrite (field_typed _ _ _ Hb) in H. destruct (text_eqb (path_of t ty) (lit "/callee") && text_eqb x (lit "proc")) eqn:Cl; [destruct H|]. apply not_callee in Cl.
        destruct (var_decl ty x) as [d|] eqn:Hd; [|destruct H as [<-|[]]; eapply sy_field; eassumption]. cbv zeta in H. cbn [snd] in H. apply in_app_iff in H. destruct H as [H|H].
        -- destruct (Nat.eqb_spec ty self_type) as [Q|Q]; cbn [negb andb] in H.
           ++ destruct (tree_sub t self_type ty) eqn:Ts; [destruct H|]. cbn [negb andb] in H. destruct (vd_protected d) eqn:Vp; [|destruct H]. destruct H as [<-|[]].
              eapply sy_protected_var; try eassumption. intros [_ N]. contradiction.
           ++ destruct (vd_private d) eqn:Vv; [destruct H as [<-|[]]; eapply sy_private_var; eassumption|].
              destruct (tree_sub t self_type ty) eqn:Ts; [destruct H|]. cbn [negb andb] in H. destruct (vd_protected d) eqn:Vp; [|destruct H]. destruct H as [<-|[]].
              eapply sy_protected_var; try eassumption. intros [N _]. congruence.
        -- apply var_typed_says in H. destruct H as (p & Hp & ->). eapply sy_field_type; eassumption.
      * unfold visit_field in H. destruct (x_type a) as [|i|l keys|] eqn:Hx; try discriminate Hb.
        -- destruct H as [<-|[]]. apply sy_field_needs_type; assumption.
        -- cbn [snd] in H. destruct (existsb (text_eqb x) proc_fields) eqn:Q; [destruct H|]. destruct H as [<-|[]]. apply not_mem_text in Q. apply sy_proc_field; assumption.
    + destruct (colon_dec k) as [Hk|Hk].
      * rewrite (with_call _ _ _ _ Hk) in H. right. eapply A; [|exact H]. intros e k' v Hi Ha. eapply lk_colon; eassumption.
      * destruct (basic_type (x_type a)) as [ty|] eqn:Hb; [|rewrite (colon_call _ _ _ _ Hk), Hb in H; destruct H as [<-|[]]; left; apply sy_needs_type; assumption].
        apply (method_says _ _ _ _ _ _ Hk Hb) in H. destruct H as [(w & Hn & Hw & ->)|[[Hp ->]|(p & Hp & [(q & l & Cl & ->)|[Hn [(q & l & Hg & Hs & ->)|H]]])]].
        -- left. eapply sy_waits_on; eassumption.
        -- left. apply sy_method; assumption.
        -- left. eapply sy_closed; eassumption.
        -- left. eapply sy_protected; [eapply iv_method; eassumption|exact Hg|exact Hs].
        -- exact (invoked_says _ _ _ _ _ _ _ (iv_method _ _ _ _ _ _ _ a k x args ty p Hk Hb Hp Hn) H).
    + rewrite see_follow in H. unfold follow_body in H. destruct (overloads_dec op) as [(nm & Ho & Hu)|[Hn Hu]]; rewrite Hu in H; [|destruct H]. apply overload_says in H.
      destruct H as [[Hi ->]|[(i & p & Hx & Hp & H)|(Hx & N1 & N2 & ->)]].
      * left. apply sy_increment; assumption.
      * exact (invoked_says _ _ _ _ _ _ _ (iv_operator _ _ _ _ _ _ _ a op (lit nm) i p Ho Hx Hp) H).
      * left. apply sy_operator; assumption.
    + left. rewrite see_follow in H. unfold follow_body in H. destruct (static_target t a x) as [i|ev'] eqn:Q; [|destruct H as [<-|[]]; apply (St x ev'); [left; reflexivity|exact Q|reflexivity]].
      apply target_iff in Q. destruct (var_decl i x) as [d|] eqn:Hd; [|destruct H as [<-|[]]; apply sy_static_field; assumption]. apply var_typed_says in H. destruct H as (p & Hp & ->). eapply sy_static_type; eassumption.
    + left. rewrite see_follow in H. unfold follow_body in H. destruct (static_target t a x) as [i|ev'] eqn:Q; [|destruct H as [<-|[]]; apply (St x ev'); [right; reflexivity|exact Q|reflexivity]].
      apply target_iff in Q. destruct (proc_at i x) as [p|] eqn:Hp; [destruct H|]. destruct H as [<-|[]]. apply sy_ref; assumption.
Qed.

Lemma looks_size n m : looks n m -> psize m < psize n.
Proof using Type.
  assert (A : forall (l : list expr) e k v, In e l -> arg_of e k v -> esize v < sum (fun e => S (esize e)) l).
  { intros l e k v Hl Ha. apply (sum_in (fun e => S (esize e))) in Hl. apply arg_of_fun in Ha. destruct Ha as [_ ->]. pose proof (value_size e). cbv beta in Hl. lia. }
  intro H. destruct H as [h x|h x f fs|h x fs f fs' a Ha|h l r|h l r|h op l r N|h op l r N|h op l r|h op l r a Ha|h c a b|h c a b|h c a b|h e|h s ps e s' Hi
    |n p src exact inherit args e k v Hc Hi Ha|h args e Hp Hi|h args e k v Hi Ha|h args it l e k v Hi Ha|h args it e|h args l e k v Hi Ha|h args e|h cs w e Hi|h cs w e Hi
    |h a b e k v Hi Ha|h a b e k v Hi Ha|h l f args|h l f args|h l f args e k v Hi Ha|a k x args e k' v Hk Hi Ha|a k e]; cbn [psize]; rewrite ?z_base, ?z_bin, ?z_assign, ?z_tern, ?z_expr, ?sum_app, ?sum_cons; try lia.
  - apply (sum_in (fun p : option expr * text => S (match fst p with Some e => esize e | None => 0 end))) in Hi. cbv beta in Hi. cbn [fst] in Hi.
    change (esize e < S (sum (fun p : option expr * text => S (match fst p with Some e => esize e | None => 0 end)) ps)). lia.
  - pose proof (invokes_size _ _ _ _ _ _ _ Hc Hi). apply arg_of_fun in Ha. destruct Ha as [_ ->]. pose proof (value_size e). lia.
  - change (esize e < S (sum (fun e => S (esize e)) args)). apply (sum_in (fun e => S (esize e))) in Hi. cbv beta in Hi. lia.
  - change (esize v < S (sum (fun e => S (esize e)) args)). specialize (A _ _ _ _ Hi Ha). lia.
  - change (esize v < S (sum (fun e => S (esize e)) args + match l with Some e => esize e | None => 0 end)). specialize (A _ _ _ _ Hi Ha). lia.
  - change (esize e < S (sum (fun e => S (esize e)) args + esize e)). lia.
  - change (esize v < S (sum (fun e => S (esize e)) args + match l with Some e => esize e | None => 0 end)). specialize (A _ _ _ _ Hi Ha). lia.
  - change (esize e < S (sum (fun e => S (esize e)) args + esize e)). lia.
  - change (esize w < S (sum (fun c : option expr * expr => S (match fst c with Some e => esize e | None => 0 end + esize (snd c))) cs)).
    apply (sum_in (fun c : option expr * expr => S (match fst c with Some e => esize e | None => 0 end + esize (snd c)))) in Hi. cbv beta in Hi. cbn [fst snd] in Hi. lia.
  - change (esize e < S (sum (fun c : option expr * expr => S (match fst c with Some e => esize e | None => 0 end + esize (snd c))) cs)).
    apply (sum_in (fun c : option expr * expr => S (match fst c with Some e => esize e | None => 0 end + esize (snd c)))) in Hi. cbv beta in Hi. cbn [fst snd] in Hi. lia.
  - change (esize v < S (sum (fun e => S (esize e)) a + sum (fun e => S (esize e)) b)). specialize (A _ _ _ _ Hi Ha). lia.
  - change (esize v < S (sum (fun e => S (esize e)) a + sum (fun e => S (esize e)) b)). specialize (A _ _ _ _ Hi Ha). lia.
  - change (esize l < S (esize l + esize f + sum (fun e => S (esize e)) args)). lia.
  - change (esize f < S (match l with Some e => esize e | None => 0 end + esize f + sum (fun e => S (esize e)) args)). lia.
  - change (esize v < S (match l with Some e => esize e | None => 0 end + esize f + sum (fun e => S (esize e)) args)). specialize (A _ _ _ _ Hi Ha). lia.
  - change (esize v < S (sum (fun e => S (esize e)) args)). specialize (A _ _ _ _ Hi Ha). lia.
  - change (esize e < S (esize e)). lia.
Qed.
Lemma see_iff n ev : In ev (snd (see n)) <-> exists m, looked_at n m /\ says m ev.
Proof using Type.
  split.
  - induction n as [n IH] using (well_founded_induction (well_founded_ltof _ psize)). unfold ltof in IH. intro H. apply see_out in H. destruct H as [H|(m & Hm & H)]; [exists n; split; [constructor|exact H]|].
    destruct (IH m (looks_size _ _ Hm) H) as (m' & Hl & Hs). exists m'. split; [econstructor; [exact Hm|exact Hl]|exact Hs].
  - intros (m & Hl & Hs). induction Hl as [n|n m m' Hm _ IH]; [apply says_in; exact Hs|]. eapply looks_in; [exact Hm|apply IH; exact Hs].
Qed.

(** ** The theorems *)
(** C69: what is known about an expression is what the rules give, and nothing else. *)
Theorem C69_types h e a : gives (E h e) a <-> fst (visit h e) = a.
Proof using Type. exact (gives_iff (E h e) a). Qed.
(** C69: what is reported is exactly what is said about some part that is looked at. *)
Theorem C69_events h e ev : In ev (snd (visit h e)) <-> exists m, looked_at (E h e) m /\ says m ev.
Proof using Type. exact (see_iff (E h e) ev). Qed.

Theorem C69_lookup i x d : (exists es, finished t es) -> acyclic t -> (var_decl i x = Some d <-> declares t vars i x d).
Proof using Type.
  intros [es Hf] Ac. destruct (search_fuel V D t (finished_tidy _ _ _ _ Hf) Ac (fun j => match get x (vars j) with Some d => d | None => None end) i size (le_n _)) as (r & Hr & Hn).
  unfold Exprs.var_decl. rewrite Hr. clear Hr. split.
  - intros ->. remember (Some d) as r eqn:Er. induction Hn as [i a Ha|i q r Ha Hp _ IH|i Ha Hp]; [|apply (dc_parent _ _ _ _ i q); [intros d' Q; rewrite Q in Ha; discriminate|exact Hp|exact (IH Er)]|discriminate].
    injection Er as ->. apply dc_here. destruct (get x (vars i)) as [o|]; [subst o; reflexivity|discriminate].
  - intro Hd. revert r Hn. induction Hd as [i x d H|i q x d H Hp _ IH]; intros r Hn.
    + inversion Hn; subst; rewrite H in *; congruence.
    + inversion Hn; subst; [|assert (p = q) by congruence; subst; apply IH; assumption|congruence]. destruct (get x (vars i)) as [[d'|]|] eqn:G; try discriminate. destruct (H d' eq_refl).
Qed.
End C69.
