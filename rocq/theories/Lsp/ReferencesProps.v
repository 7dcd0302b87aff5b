(** C73: the references of the language server. *)
From Coq Require Import List Arith NArith ZArith Bool String Relations Lia.
From Verif Require Import Common.Text Objtree.Ispath Objtree.Model Objtree.Lemmas Objtree.Spec Objtree.Wf Objtree.Assign Objtree.Paths Objtree.Inherit Objtree.Calls Parse.Ast Stmt.Ast.
From Verif Require Import Checker.CallTree Checker.Kwargs Checker.TypeExpr Checker.Exprs Checker.ExprsSpec Checker.ExprsProps Checker.Stmts Checker.StmtsSpec Checker.StmtsProps Lsp.Completion Lsp.CompletionSpec Lsp.CompletionProps Lsp.References Lsp.ReferencesSpec.
Import ListNotations.
Open Scope nat_scope.

(** ** Sizes *)
Section SIZE.
Variable F : Type.
Fixpoint zexpr (e : expr F) : nat :=
  match e with
  | Base x fs => S (S (zterm x + sum (fun f => S (zfollow f)) fs))
  | Bin _ l r | Assign _ l r => S (zexpr l + zexpr r)
  | Tern c a b => S (zexpr c + zexpr a + zexpr b)
  end
with zterm (x : term F) : nat :=
  match x with
  | MExpr e => S (zexpr e)
  | MPrefab _ vs => S (sum (fun v => S (zexpr (snd v))) vs)
  | MInterp _ ps => S (sum (fun p => S (opt zexpr (fst p))) ps)
  | MCall _ args | MSelfCall args | MParentCall args | MList args | MGlobalCall _ args => S (sum (fun e => S (zexpr e)) args)
  | MNewImplicit args => S (opt (sum (fun e => S (zexpr e))) args)
  | MNewPrefab _ vs args => S (sum (fun v => S (zexpr (snd v))) vs + opt (sum (fun e => S (zexpr e))) args)
  | MInput args _ l | MLocate args l => S (sum (fun e => S (zexpr e)) args + opt zexpr l)
  | MPick cs => S (sum (fun c => S (opt zexpr (fst c) + zexpr (snd c))) cs)
  | MDynCall a b => S (sum (fun e => S (zexpr e)) a + sum (fun e => S (zexpr e)) b)
  | MExtCall l f args => S (opt zexpr l + zexpr f + sum (fun e => S (zexpr e)) args)
  | _ => 1
  end
with zfollow (f : Parse.Ast.follow F) : nat :=
  match f with
  | FIndex _ e => S (zexpr e)
  | FCall _ _ args => S (sum (fun e => S (zexpr e)) args)
  | _ => 1
  end.
Definition zpart (n : part F) : nat := match n with E _ e => zexpr e | T _ x => zterm x | W _ f => zfollow f end.
Lemma z_base x fs : zexpr (Base x fs) = S (S (zterm x + sum (fun f => S (zfollow f)) fs)). Proof using Type. reflexivity. Qed.
Lemma z_expr_is e : zexpr e = match e with Base x fs => S (S (zterm x + sum (fun f => S (zfollow f)) fs)) | Bin _ l r | Assign _ l r => S (zexpr l + zexpr r) | Tern c a b => S (zexpr c + zexpr a + zexpr b) end.
Proof using Type. destruct e; reflexivity. Qed.
Lemma z_term_is x : zterm x =
  match x with
  | MExpr e => S (zexpr e)
  | MPrefab _ vs => S (sum (fun v => S (zexpr (snd v))) vs)
  | MInterp _ ps => S (sum (fun p => S (opt zexpr (fst p))) ps)
  | MCall _ args | MSelfCall args | MParentCall args | MList args | MGlobalCall _ args => S (sum (fun e => S (zexpr e)) args)
  | MNewImplicit args => S (opt (sum (fun e => S (zexpr e))) args)
  | MNewPrefab _ vs args => S (sum (fun v => S (zexpr (snd v))) vs + opt (sum (fun e => S (zexpr e))) args)
  | MInput args _ l | MLocate args l => S (sum (fun e => S (zexpr e)) args + opt zexpr l)
  | MPick cs => S (sum (fun c => S (opt zexpr (fst c) + zexpr (snd c))) cs)
  | MDynCall a b => S (sum (fun e => S (zexpr e)) a + sum (fun e => S (zexpr e)) b)
  | MExtCall l f args => S (opt zexpr l + zexpr f + sum (fun e => S (zexpr e)) args)
  | _ => 1
  end.
Proof using Type. destruct x; reflexivity. Qed.
Lemma z_follow_is f : zfollow f =
  match f with
  | FIndex _ e => S (zexpr e)
  | FCall _ _ args => S (sum (fun e => S (zexpr e)) args)
  | _ => 1
  end.
Proof using Type. destruct f; reflexivity. Qed.
End SIZE.
Arguments zexpr {F}. Arguments zterm {F}. Arguments zfollow {F}. Arguments zpart {F}.

Section C73.
Variables F V D : Type.
Notation stmt := (stmt F). Notation expr := (expr F). Notation term := (term F). Notation follow := (Parse.Ast.follow F). Notation spot := (spot F). Notation use := (use F).
Variable t : objtree V D.
Variable vars : nat -> list (text * rvar F).
Hypothesis TD : tidy V D t.
Hypothesis AC : acyclic t.
Notation size := (List.length (graph t)).
Notation list_type := (expect t "/list").
Notation declares := (declares F V D t vars).
Notation declares_proc := (declares_proc V D t).
Notation has_proc := (has_proc V D t).
Notation written := (written V D t).
Notation stype := (stype t).
Notation var_decl_at := (var_decl_at t vars).
Notation proc_decl_at := (proc_decl_at t).
Notation proc_at := (proc_at t).

(** ** Names *)
Lemma declares_iff i x j path : declares i x j path <-> var_decl_at i x = Some (j, path).
Proof using TD AC.
  unfold ReferencesSpec.declares, References.var_decl_at.
  destruct (search_fuel V D t TD AC (fun k => match get x (vars k) with Some v => match rv_decl v with Some p => Some (k, p) | None => None end | None => None end) i size (le_n _)) as (r & E & N). rewrite E.
  split; [intro H; rewrite (nearest_fun V D t _ _ _ _ N H); reflexivity|]. intros H. destruct r as [d|]; [|discriminate]. injection H as ->. exact N.
Qed.
Lemma declares_none i x : (forall j path, ~ declares i x j path) <-> var_decl_at i x = None.
Proof using TD AC.
  split.
  - intro H. destruct (var_decl_at i x) as [[j p]|] eqn:E; [|reflexivity]. apply declares_iff in E. destruct (H j p E).
  - intros H j p Q. apply declares_iff in Q. congruence.
Qed.
Lemma declares_proc_iff i x j : declares_proc i x j <-> proc_decl_at i x = Some j.
Proof using TD AC.
  unfold ReferencesSpec.declares_proc, References.proc_decl_at.
  destruct (search_fuel V D t TD AC (fun k => match procs_of t k x with Some p => match p_decl p with Some _ => Some k | None => None end | None => None end) i size (le_n _)) as (r & E & N). rewrite E.
  split; [intro H; rewrite (nearest_fun V D t _ _ _ _ N H); reflexivity|]. intros H. destruct r as [d|]; [|discriminate]. injection H as ->. exact N.
Qed.
Lemma nearest_sub {A : Type} (f : nat -> option A) i r : nearest t f i r -> match r with Some a => exists j, subtype t i j /\ f j = Some a | None => forall j, subtype t i j -> f j = None end.
Proof using Type.
  induction 1 as [i a F1|i p r F1 P N IH|i F1 P].
  - exists i. split; [apply rt_refl|exact F1].
  - destruct r as [a|].
    + destruct IH as (j & S1 & Fj). exists j. split; [|exact Fj]. eapply rt_trans; [apply rt_step; exact P|exact S1].
    + intros j S1. apply clos_rt_rt1n in S1. inversion S1 as [|k ? S2 S3]; subst; [exact F1|]. unfold inherits in S2. rewrite P in S2. injection S2 as <-. apply IH. apply clos_rt1n_rt. exact S3.
  - intros j S1. apply clos_rt_rt1n in S1. inversion S1 as [|k ? S2 S3]; subst; [exact F1|]. unfold inherits in S2. congruence.
Qed.
Lemma proc_at_spec i x : match proc_at i x with Some p => pr_name p = x /\ has_proc i x | None => ~ has_proc i x end.
Proof using TD AC.
  unfold Exprs.proc_at, get_proc. destruct (search_fuel V D t TD AC (fun j => visible t j x) i size (le_n _)) as (r & E & N). rewrite E. apply nearest_sub in N. destruct r as [p|].
  - destruct N as (j & S1 & Fj). unfold visible in Fj. destruct (procs_of t j x) as [q|] eqn:Q; [|discriminate]. injection Fj as <-. split; [reflexivity|]. exists j, q. split; assumption.
  - intros (j & q & S1 & Q). specialize (N j S1). unfold visible in N. rewrite Q in N. discriminate.
Qed.
Lemma proc_at_iff i x : has_proc i x <-> exists p, proc_at i x = Some p.
Proof using TD AC. pose proof (proc_at_spec i x) as H. destruct (proc_at i x) as [p|]; split; [eauto|intros _; exact (proj2 H)|contradiction|intros (p & Q); discriminate]. Qed.
Lemma declares_has i x j : declares_proc i x j -> has_proc i x.
Proof using Type. intro H. apply nearest_sub in H. destruct H as (k & S1 & Fk). destruct (procs_of t k x) as [p|] eqn:Q; [|discriminate]. exists k, p. split; assumption. Qed.
Lemma flag_iff w : ReferencesSpec.flag w <-> existsb (text_eqb w) modifiers = true.
Proof using Type. unfold ReferencesSpec.flag, modifiers. apply iff_sym, mem_iff. Qed.
Lemma listed_plain w rest i : w <> lit "list" -> (at_ t i (w :: rest) <-> type_by_path t (w :: rest) = Some i).
Proof using TD.
  intro N. rewrite <- (listed_iff V D t TD). unfold listed. split; [intro H; right; split; [congruence|exact H]|]. intros [((r & Q) & _)|(_ & H)]; [congruence|exact H].
Qed.
Lemma written_is path : written path (stype path).
Proof using TD.
  induction path as [|w rest IH]; [constructor|]. cbn [References.stype]. destruct (existsb (text_eqb w) modifiers) eqn:M; [apply wr_flag; [apply flag_iff; exact M|exact IH]|].
  assert (N : ~ ReferencesSpec.flag w) by (rewrite flag_iff; congruence). destruct (text_eqb_spec w (lit "list")) as [->|Nl]; [apply wr_list; exact IH|].
  destruct (type_by_path t (w :: rest)) as [i|] eqn:E; [apply wr_type; [exact N|exact Nl|apply listed_plain; assumption]|].
  apply wr_unknown; [exact N|exact Nl|]. intros i H. apply listed_plain in H; [congruence|exact Nl].
Qed.
Lemma written_iff path s : written path s <-> stype path = s.
Proof using TD.
  split; [|intros <-; apply written_is].
  induction 1 as [|w rest s M _ IH|rest s _ IH|w rest i N Nl H|w rest N Nl H]; [reflexivity| | | |]; cbn [References.stype].
  - apply flag_iff in M. rewrite M. exact IH.
  - replace (existsb (text_eqb (lit "list")) modifiers) with false by reflexivity. rewrite text_eqb_refl, IH. reflexivity.
  - rewrite flag_iff in N. destruct (existsb (text_eqb w) modifiers); [congruence|]. destruct (text_eqb_spec w (lit "list")) as [Q|_]; [contradiction|]. apply listed_plain in H; [|exact Nl]. rewrite H. reflexivity.
  - rewrite flag_iff in N. destruct (existsb (text_eqb w) modifiers); [congruence|]. destruct (text_eqb_spec w (lit "list")) as [Q|_]; [contradiction|]. destruct (type_by_path t (w :: rest)) as [i|] eqn:E; [|reflexivity]. destruct (H i). apply listed_plain; assumption.
Qed.
Lemma mentions_iff (at_ : spot) s u : In u (use_type at_ s) <-> exists i, mentions s i /\ u = (STyp i, at_).
Proof using Type.
  induction s as [|i|l k IH|]; cbn [use_type].
  - split; [intros []|intros (i & H & _); inversion H].
  - split; [intros [<-|[]]; exists i; split; [constructor|reflexivity]|intros (j & H & ->); inversion H; left; reflexivity].
  - cbn [In]. rewrite IH. split.
    + intros [<-|(i & H & ->)]; [exists l; split; [constructor|reflexivity]|exists i; split; [constructor 3; exact H|reflexivity]].
    + intros (i & H & ->). inversion H; subst; [left; reflexivity|right; exists i; split; [assumption|reflexivity]].
  - split; [intros []|intros (i & H & _); inversion H].
Qed.

(** ** Expressions *)
Section EXPR.
Variable ty : nat.
Variable proc : option procref.
Variable locals : scope.
Notation part := (part F).
Notation visit := (visit t vars ty proc locals).
Notation visit_term := (visit_term t vars ty proc locals).
Notation visit_follow := (visit_follow t vars ty proc locals).
Notation refers := (refers F V D t vars ty locals).
Notation member := (member F V D t vars).
Notation fields := (ReferencesSpec.fields F V D t vars ty locals).
Notation leads := (leads V D t ty).
Notation leads_to_type := (leads_to_type V D t ty).
Notation leads_to_proc := (leads_to_proc V D t ty).
Notation gives := (gives F V D t vars ty locals).
Notation looks := (looks F V D t vars ty proc locals).
Notation called := (called F V D t ty proc).
Notation uses := (uses F V D t vars ty proc locals).
Notation looked_at := (looked_at F V D t vars ty proc locals).
Notation expr_uses := (expr_uses F V D t vars ty proc locals).
Notation var_use := (@References.var_use F V D t).
Notation proc_use := (@References.proc_use F V D t).
Notation out := (out F).

Definition see (n : part) : out := match n with E h e => visit h e | T h x => visit_term h x | W s f => visit_follow s f end.
Definition see_arg (e : expr) : list use := snd (visit None (arg_value e)).
Fixpoint follows (s : sty) (fs : list follow) : out :=
  match fs with [] => (s, []) | f :: fs' => let '(s1, u1) := visit_follow s f in let '(s2, u2) := follows s1 fs' in (s2, u1 ++ u2) end.
Lemma see_base h x fs : see (E h (Base x fs)) =
  (fst (follows (fst (see (T match fs with [] => h | _ => None end x))) fs), snd (see (T match fs with [] => h | _ => None end x)) ++ snd (follows (fst (see (T match fs with [] => h | _ => None end x))) fs)).
Proof using Type.
  transitivity (let '(s, us) := visit_term match fs with [] => h | _ => None end x in (fun r : out => (fst r, us ++ snd r)) (follows s fs)); [reflexivity|].
  cbn [see]. destruct (visit_term match fs with [] => h | _ => None end x). reflexivity.
Qed.
Lemma see_bin h op l r : see (E h (Bin op l r)) = let k := match op with BOr => h | _ => None end in (SNone, snd (see (E k l)) ++ snd (see (E k r))).
Proof using Type. reflexivity. Qed.
Lemma see_assign h op l r : see (E h (Assign op l r)) = let s := fst (see (E None l)) in (fst (see (E (basic_type s) r)), snd (see (E None l)) ++ snd (see (E (basic_type s) r))).
Proof using Type.
  transitivity (let '(s1, u1) := visit None l in let '(s2, u2) := visit (basic_type s1) r in (s2, u1 ++ u2)); [reflexivity|].
  cbn [see]. cbv zeta. destruct (visit None l) as [s ?]. cbn [fst]. destruct (visit (basic_type s) r). reflexivity.
Qed.
Lemma see_tern h c a b : see (E h (Tern c a b)) = (fst (see (E h a)), snd (see (E None c)) ++ snd (see (E h a)) ++ snd (see (E h b))).
Proof using Type. transitivity (let '(s, u2) := visit h a in (s, snd (visit None c) ++ u2 ++ snd (visit h b))); [reflexivity|]. cbn [see]. destruct (visit h a). reflexivity. Qed.
Lemma arg_eq e : match keyword e with Some _ => match e with Assign _ _ r => snd (visit None r) | _ => [] end | None => snd (visit None e) end = see_arg e.
Proof using Type. unfold see_arg, arg_value. destruct (keyword e) eqn:K; [|reflexivity]. destruct e; try discriminate K. reflexivity. Qed.
Definition see_args (l : list expr) : list use := flat_map see_arg l.
Definition maybe (o : option expr) : list use := match o with Some e => snd (visit None e) | None => [] end.
Definition with_vars (at_ : spot) (vs : list (text * expr)) (i : nat) : list use :=
  flat_map (fun v => let d := var_use at_ (var_decl_at i (fst v)) (fst v) in snd d ++ snd (visit (basic_type (fst d)) (snd v))) vs.
Definition prefab (at_ : spot) (path : list (pathop * text)) (vs : list (text * expr)) : option nat * list use :=
  match navigate_path t size ty path with
  | Some (Some (NProc p _)) => (Some (pr_ty p), proc_use at_ (pr_ty p) (pr_name p))
  | Some (Some (NType i)) | Some (Some (NGroup i _)) => (Some i, (STyp i, at_) :: with_vars at_ vs i)
  | _ => (None, [])
  end.
Definition term_body (h : option nat) (x : term) : out :=
  let at_ := AtTerm x in
  match x with
  | MNull | MInt _ | MFloat _ | MString _ | MResource _ | MAs _ => (SNone, [])
  | MExpr e => visit h e
  | MPrefab path vs => (SNone, snd (prefab at_ path vs))
  | MInterp _ parts => (SNone, flat_map (fun p => maybe (fst p)) parts)
  | MIdent name => visit_ident t vars ty locals at_ name
  | MCall name l => (SNone, match proc_at ty name with Some p => visit_call t at_ ty p false (see_args l) | None => [] end)
  | MSelfCall l => (SNone, match proc with Some p => visit_call t at_ ty p true (see_args l) | None => [] end)
  | MParentCall l => (SNone, match proc with Some p => match parent_proc t size p with Some (Some q) => visit_call t at_ ty q true (see_args l) | _ => [] end | None => [] end)
  | MNewImplicit l => visit_new t at_ h (match l with Some l => see_args l | None => [] end)
  | MNewPrefab path vs l => let p := prefab at_ path vs in let r := visit_new t at_ (fst p) (match l with Some l => see_args l | None => [] end) in (fst r, snd p ++ snd r)
  | MNewMini name fs _ => let r := visit_ident t vars ty locals at_ name in (SNone, snd r ++ visit_fields t vars at_ (fst r) fs)
  | MList l => (SList list_type SNone, see_args l)
  | MLocate l o => (SNone, see_args l ++ maybe o)
  | MInput l _ o => (SNone, see_args l ++ maybe o)
  | MPick cs => (SNone, flat_map (fun c => maybe (fst c) ++ snd (visit None (snd c))) cs)
  | MDynCall a b => (SNone, see_args a ++ see_args b)
  | MExtCall library function l => (SNone, maybe library ++ snd (visit None function) ++ see_args l)
  | MGlobalCall name l => (SNone, match proc_at 0 name with Some p => visit_call t at_ 0 p false (see_args l) | None => see_args l end)
  | MGlobalIdent name => var_use at_ (var_decl_at 0 name) name
  | MType => (SNone, [(STyp ty, at_)])
  | MProc => (SNone, match proc with Some p => proc_use at_ ty (pr_name p) | None => [] end)
  | MImplied => match h with Some i => (SType i, [(STyp i, at_)]) | None => (SNone, []) end
  end.
Lemma args_eq l : flat_map (fun e => match keyword e with Some _ => match e with Assign _ _ r => snd (visit None r) | _ => [] end | None => snd (visit None e) end) l = see_args l.
Proof using Type. apply flat_map_ext. exact arg_eq. Qed.
Lemma see_term h y : see (T h y) = term_body h y.
Proof using Type.
  cbn [see]. destruct y as [ | | | | | | | | | | |path vs| |x args|args|args|[args|]|path vs [args|]|i fs args|args|args it l|args l|cs|ca cb|l f args|i|i args]; try reflexivity;
  unfold term_body; cbv zeta; rewrite <- ?args_eq; try reflexivity.
  - unfold prefab. unfold with_vars. cbn [References.visit_term]. destruct (navigate_path t size ty path) as [[[i|i b|p b]|]|]; reflexivity.
  - unfold prefab. unfold with_vars. cbn [References.visit_term]. destruct (navigate_path t size ty path) as [[[i|i b|p b]|]|]; reflexivity.
Qed.
Definition follow_body (s : sty) (f : follow) : out :=
  let at_ := AtFollow f in
  match f with
  | FUnary _ => (SNone, [])
  | FIndex _ e => (match s with SList _ keys => keys | _ => SNone end, snd (visit None e))
  | FField _ x | FStaticField x => visit_field t vars at_ s x
  | FCall _ x l =>
      (SNone, match basic_type s with
              | Some i => match proc_at i x with Some p => visit_call t at_ i p false (see_args l) | None => see_args l end
              | None => see_args l
              end)
  | FProcRef x => (SNone, match basic_type s with Some i => proc_use at_ i x | None => [] end)
  end.
Lemma see_follow s f : see (W s f) = follow_body s f.
Proof using Type. cbn [see]. destruct f; try reflexivity. unfold follow_body. rewrite <- args_eq. reflexivity. Qed.
Lemma follows_app s fs1 fs2 : follows s (fs1 ++ fs2) = (fst (follows (fst (follows s fs1)) fs2), snd (follows s fs1) ++ snd (follows (fst (follows s fs1)) fs2)).
Proof using Type.
  revert s. induction fs1 as [|f fs1 IH]; intro s; cbn [app follows]; [apply surjective_pairing|]. destruct (visit_follow s f) as [b u1]. rewrite IH.
  destruct (follows b fs1) as [c u2]. cbn [fst snd]. rewrite app_assoc. reflexivity.
Qed.
Lemma follows_one s f : follows s [f] = see (W s f).
Proof using Type. cbn [follows see]. destruct (visit_follow s f). rewrite app_nil_r. reflexivity. Qed.
Lemma base_none y fs : fst (see (E None (Base y fs))) = fst (follows (fst (see (T None y))) fs).
Proof using Type. rewrite see_base. cbn [fst]. destruct fs; reflexivity. Qed.
Lemma base_snoc h y fs f : fst (see (E h (Base y (fs ++ [f])))) = fst (see (W (fst (see (E None (Base y fs)))) f)).
Proof using Type.
  rewrite base_none, see_base. cbn [fst]. replace (match fs ++ [f] with [] => h | _ => None end) with (@None nat) by (destruct fs; reflexivity). rewrite follows_app, follows_one. reflexivity.
Qed.
Lemma follows_in s fs (u : use) : In u (snd (follows s fs)) <-> exists fs1 f fs2, fs = fs1 ++ f :: fs2 /\ In u (snd (see (W (fst (follows s fs1)) f))).
Proof using Type.
  split.
  - revert s. induction fs as [|f fs IH]; intros s; [intros []|]. change (f :: fs) with ([f] ++ fs). rewrite follows_app, follows_one. cbn [snd]. rewrite in_app_iff. intros [H|H].
    + exists [], f, fs. split; [reflexivity|exact H].
    + apply IH in H. destruct H as (fs1 & g & fs2 & -> & H). exists (f :: fs1), g, fs2. split; [reflexivity|]. change (f :: fs1) with ([f] ++ fs1). rewrite follows_app, follows_one. exact H.
  - intros (fs1 & f & fs2 & -> & H). rewrite follows_app. cbn [snd]. apply in_app_iff. right. change (f :: fs2) with ([f] ++ fs2). rewrite follows_app, follows_one. cbn [snd]. apply in_app_iff. left. exact H.
Qed.

(** ** The helpers say what the rules say *)
Lemma var_use_eq at_ i x j path s : declares i x j path -> written path s -> var_use at_ (var_decl_at i x) x = (s, [(SVar j x, at_)]).
Proof using TD AC. intros H W. apply declares_iff in H. apply written_iff in W. rewrite H, <- W. reflexivity. Qed.
Lemma var_use_none at_ i x : (forall j path, ~ declares i x j path) -> var_use at_ (var_decl_at i x) x = (SNone, []).
Proof using TD AC. intros H. apply declares_none in H. rewrite H. reflexivity. Qed.
Lemma declares_dec i x : (exists j path s, declares i x j path /\ written path s) \/ (forall j path, ~ declares i x j path).
Proof using TD AC.
  destruct (var_decl_at i x) as [[j path]|] eqn:E; [left; exists j, path, (stype path); split; [apply declares_iff; exact E|apply written_is]|right; apply declares_none; exact E].
Qed.
Lemma proc_use_iff at_ i x (u : use) : In u (proc_use at_ i x) <-> exists j, declares_proc i x j /\ u = (SProcDecl j x, at_).
Proof using TD AC.
  unfold References.proc_use. destruct (proc_decl_at i x) as [j|] eqn:E.
  - split; [intros [<-|[]]; exists j; split; [apply declares_proc_iff; exact E|reflexivity]|]. intros (k & H & ->). apply declares_proc_iff in H. left. congruence.
  - split; [intros []|]. intros (k & H & _). apply declares_proc_iff in H. congruence.
Qed.
Lemma ident_eq at_ x s sym : refers x s sym -> visit_ident t vars ty locals at_ x = (s, [(sym, at_)]).
Proof using TD AC. unfold visit_ident. intros [s' sym' H|j path s' H Hd Hw]; rewrite H; [reflexivity|]. eapply var_use_eq; eassumption. Qed.
Lemma ident_dec x : (exists s sym, refers x s sym) \/ (forall s sym, ~ refers x s sym).
Proof using TD AC.
  destruct (get x locals) as [[s sym]|] eqn:G; [left; exists s, sym; constructor; exact G|].
  destruct (declares_dec ty x) as [(j & path & s & Hd & Hw)|N]; [left; exists s, (SVar j x); econstructor 2; eassumption|right].
  intros s sym [s' sym' H|j path s' H Hd Hw]; [congruence|exact (N _ _ Hd)].
Qed.
Lemma ident_none at_ x : (forall s sym, ~ refers x s sym) -> visit_ident t vars ty locals at_ x = (SNone, []).
Proof using TD AC.
  intros N. unfold visit_ident. destruct (get x locals) as [[s sym]|] eqn:G; [destruct (N s sym); constructor; exact G|]. apply var_use_none. intros j path H. apply (N (stype path) (SVar j x)). econstructor 2; [exact G|exact H|apply written_is].
Qed.
Lemma refers_fun x s sym s' sym' : refers x s sym -> refers x s' sym' -> s = s' /\ sym = sym'.
Proof using TD AC. intros H1 H2. apply (ident_eq AtProc) in H1. apply (ident_eq AtProc) in H2. rewrite H1 in H2. injection H2 as -> ->. split; reflexivity. Qed.
Lemma field_eq at_ s x s' sym : member s x s' sym -> visit_field t vars at_ s x = (s', [(sym, at_)]).
Proof using TD AC. unfold visit_field. intros [i j path s'' Hb Hd Hw]. rewrite Hb. eapply var_use_eq; eassumption. Qed.
Lemma member_dec s x : (exists s' sym, member s x s' sym) \/ (forall s' sym, ~ member s x s' sym).
Proof using TD AC.
  destruct (basic_type s) as [i|] eqn:B; [|right; intros s' sym [i j path s'' Hb Hd Hw]; congruence].
  destruct (declares_dec i x) as [(j & path & s' & Hd & Hw)|N]; [left; exists s', (SVar j x); econstructor; eassumption|right]. intros s' sym [i' j path s'' Hb Hd Hw]. replace i' with i in Hd by congruence. exact (N _ _ Hd).
Qed.
Lemma field_none at_ s x : (forall s' sym, ~ member s x s' sym) -> visit_field t vars at_ s x = (SNone, []).
Proof using TD AC.
  intros N. unfold visit_field. destruct (basic_type s) as [i|] eqn:B; [|reflexivity]. apply var_use_none. intros j path H. apply (N (stype path) (SVar j x)). econstructor; [exact B|exact H|apply written_is].
Qed.
Lemma member_fun s x s1 sym1 s2 sym2 : member s x s1 sym1 -> member s x s2 sym2 -> s1 = s2 /\ sym1 = sym2.
Proof using TD AC. intros H1 H2. apply (field_eq AtProc) in H1. apply (field_eq AtProc) in H2. rewrite H1 in H2. injection H2 as -> ->. split; reflexivity. Qed.
Lemma fields_fun x fs s s' : fields x fs s -> fields x fs s' -> s = s'.
Proof using TD AC.
  intros H. revert s'. induction H as [s sym H|fs s k y s1 sym H IH M]; intros s' H'.
  - remember (@nil (propkind * text)) as l eqn:El. destruct H' as [s2 sym2 H2|fs2 s2 k2 y2 s3 sym3 H2 M2]; [exact (proj1 (refers_fun _ _ _ _ _ H H2))|destruct fs2; discriminate El].
  - remember (fs ++ [(k, y)]) as l eqn:El. destruct H' as [s2 sym2 H2|fs2 s2 k2 y2 s3 sym3 H2 M2]; [destruct fs; discriminate El|].
    apply app_inj_tail in El. destruct El as [-> El]. injection El as -> ->. rewrite (IH _ H2) in M. exact (proj1 (member_fun _ _ _ _ _ _ M M2)).
Qed.
Lemma fields_nowhere at_ s fs : basic_type s = None -> visit_fields t vars at_ s fs = [].
Proof using Type. revert s. induction fs as [|[k y] fs IH]; intros s B; [reflexivity|]. cbn [visit_fields]. unfold visit_field. rewrite B. cbn [fst snd app]. apply IH. reflexivity. Qed.
Lemma fields_in at_ x fs0 s fs (u : use) : fields x fs0 s ->
  (In u (visit_fields t vars at_ s fs) <-> exists fs1 k y fs2 s1 s2 sym, fs = fs1 ++ (k, y) :: fs2 /\ fields x (fs0 ++ fs1) s1 /\ member s1 y s2 sym /\ u = (sym, at_)).
Proof using TD AC.
  revert fs0 s. induction fs as [|[k y] fs IH]; intros fs0 s H; cbn [visit_fields].
  - split; [intros []|]. intros (fs1 & k & y & fs2 & s1 & s2 & sym & Q & _). destruct fs1; discriminate Q.
  - destruct (member_dec s y) as [(s' & sym & M)|N].
    + rewrite (field_eq _ _ _ _ _ M). cbn [fst snd app]. cbn [In]. rewrite (IH (fs0 ++ [(k, y)]) s' (fl_snoc _ _ _ _ _ _ _ x fs0 s k y s' sym H M)). split.
      * intros [<-|(fs1 & k' & y' & fs2 & s1 & s2 & sym' & -> & H1 & M' & ->)].
        -- exists [], k, y, fs, s, s', sym. rewrite app_nil_r. repeat split; assumption.
        -- exists ((k, y) :: fs1), k', y', fs2, s1, s2, sym'. rewrite <- app_assoc in H1. repeat split; assumption.
      * intros (fs1 & k' & y' & fs2 & s1 & s2 & sym' & Q & H1 & M' & ->). destruct fs1 as [|g fs1].
        -- injection Q as <- <- <-. rewrite app_nil_r in H1. rewrite <- (fields_fun _ _ _ _ H H1) in M'. left. rewrite (proj2 (member_fun _ _ _ _ _ _ M M')). reflexivity.
        -- injection Q as <- ->. right. exists fs1, k', y', fs2, s1, s2, sym'. rewrite <- app_assoc. repeat split; assumption.
    + rewrite (field_none _ _ _ N). cbn [fst snd app]. rewrite fields_nowhere by reflexivity. split; [intros []|].
      intros (fs1 & k' & y' & fs2 & s1 & s2 & sym' & Q & H1 & M' & _). destruct fs1 as [|g fs1].
      * injection Q as <- <- _. rewrite app_nil_r in H1. rewrite <- (fields_fun _ _ _ _ H H1) in M'. exact (N _ _ M').
      * injection Q as <- _. exfalso. assert (P : forall l s2, fields x l s2 -> forall a b, l = fs0 ++ (k, y) :: a ++ b -> exists s3, fields x (fs0 ++ (k, y) :: a) s3).
        { intros l s3 Hl. induction Hl as [s3 sym3 H3|l s3 k3 y3 s4 sym3 Hl IHl M3]; intros a b Q; [destruct fs0; discriminate Q|]. destruct b as [|b0 b] using rev_ind.
          - rewrite app_nil_r in Q. exists s4. rewrite <- Q. econstructor; eassumption.
          - apply (IHl a b). replace (fs0 ++ (k, y) :: a ++ b ++ [b0]) with ((fs0 ++ (k, y) :: a ++ b) ++ [b0]) in Q by (rewrite <- app_assoc; cbn [app]; rewrite <- app_assoc; reflexivity).
            apply app_inj_tail in Q. exact (proj1 Q). }
        destruct (P _ _ H1 [] fs1 eq_refl) as (s3 & H3). remember (fs0 ++ [(k, y)]) as l eqn:El. destruct H3 as [s4 sym4 H4|l s4 k4 y4 s5 sym5 H4 M5]; [destruct fs0; discriminate El|].
        apply app_inj_tail in El. destruct El as [-> El]. injection El as -> ->. rewrite <- (fields_fun _ _ _ _ H H4) in M5. exact (N _ _ M5).
Qed.
Lemma prefab_type at_ path vs i : leads_to_type path i -> prefab at_ path vs = (Some i, (STyp i, at_) :: with_vars at_ vs i).
Proof using Type. unfold prefab. intros [H|(b & H)]; rewrite H; reflexivity. Qed.
Lemma prefab_proc at_ path vs p : leads_to_proc path p -> prefab at_ path vs = (Some (pr_ty p), proc_use at_ (pr_ty p) (pr_name p)).
Proof using Type. unfold prefab. intros (b & H). rewrite H. reflexivity. Qed.
Lemma prefab_leads at_ path vs i : leads path i -> fst (prefab at_ path vs) = Some i.
Proof using Type. intros [H|(p & H & <-)]; [rewrite (prefab_type _ _ _ _ H)|rewrite (prefab_proc _ _ _ _ H)]; reflexivity. Qed.
Lemma prefab_dec path : (exists i, leads_to_type path i) \/ (exists p, leads_to_proc path p) \/ ((forall i, ~ leads path i) /\ forall at_ vs, prefab at_ path vs = (None, [])).
Proof using Type.
  unfold prefab, ReferencesSpec.leads, ReferencesSpec.leads_to_type, ReferencesSpec.leads_to_proc. destruct (navigate_path t size ty path) as [[[i|i b|p b]|]|].
  - left. exists i. left. reflexivity.
  - left. exists i. right. exists b. reflexivity.
  - right. left. exists p, b. reflexivity.
  - right. right. split; [|reflexivity]. intros i [[Q|(b & Q)]|(p & (b & Q) & _)]; discriminate.
  - right. right. split; [|reflexivity]. intros i [[Q|(b & Q)]|(p & (b & Q) & _)]; discriminate.
Qed.
Lemma prefab_nowhere at_ path vs : (forall i, ~ leads path i) -> prefab at_ path vs = (None, []).
Proof using Type. intro N. destruct (prefab_dec path) as [(i & H)|[(p & H)|[_ H]]]; [destruct (N i); left; exact H|destruct (N (pr_ty p)); right; exists p; split; [exact H|reflexivity]|apply H]. Qed.
Lemma leads_dec path : (exists i, leads path i) \/ (forall i, ~ leads path i).
Proof using vars proc locals F. destruct (prefab_dec path) as [(i & H)|[(p & H)|[H _]]]; [left; exists i; left; exact H|left; exists (pr_ty p); right; exists p; split; [exact H|reflexivity]|right; exact H]. Qed.

(** ** Types *)
Lemma gives_eq n s : gives n s -> fst (see n) = s.
Proof using TD AC.
  induction 1 as [h x s _ IH|h x fs f s s' _ IH1 _ IH2|h op l r|h op l r s s' _ IH1 _ IH2|h c a b s _ IH|h x s sym H|h x H|h x j path s H W|h x H|h e s _ IH|h l|i l|l|h path vs l i H|h path vs l H|i| |h x H|s f x s' sym K H|s f x K H|k l keys e|s k e H|s op|s k x l|s x].
  - rewrite see_base. exact IH.
  - rewrite base_snoc, IH1. exact IH2.
  - reflexivity.
  - rewrite see_assign. cbv zeta. cbn [fst]. rewrite IH1. exact IH2.
  - rewrite see_tern. exact IH.
  - rewrite see_term. unfold term_body. rewrite (ident_eq _ _ _ _ H). reflexivity.
  - rewrite see_term. unfold term_body. rewrite (ident_none _ _ H). reflexivity.
  - rewrite see_term. unfold term_body. cbv zeta. rewrite (var_use_eq _ _ _ _ _ _ H W). reflexivity.
  - rewrite see_term. unfold term_body. cbv zeta. rewrite (var_use_none _ _ _ H). reflexivity.
  - rewrite see_term. exact IH.
  - rewrite see_term. reflexivity.
  - rewrite see_term. reflexivity.
  - rewrite see_term. reflexivity.
  - rewrite see_term. unfold term_body. cbv zeta. cbn [fst]. rewrite (prefab_leads _ _ _ _ H). reflexivity.
  - rewrite see_term. unfold term_body. cbv zeta. cbn [fst]. rewrite (prefab_nowhere _ _ _ H). reflexivity.
  - reflexivity.
  - reflexivity.
  - rewrite see_term. destruct H; reflexivity.
  - rewrite see_follow. destruct K as [(k & ->)| ->]; unfold follow_body; cbv zeta; rewrite (field_eq _ _ _ _ _ H); reflexivity.
  - rewrite see_follow. destruct K as [(k & ->)| ->]; unfold follow_body; cbv zeta; rewrite (field_none _ _ _ H); reflexivity.
  - rewrite see_follow. reflexivity.
  - rewrite see_follow. unfold follow_body. destruct s as [|i|l keys|]; try reflexivity. destruct (H l keys eq_refl).
  - rewrite see_follow. reflexivity.
  - rewrite see_follow. reflexivity.
  - rewrite see_follow. reflexivity.
Qed.
Lemma field_gives s f x : (exists k, f = FField k x) \/ f = FStaticField x -> gives (W s f) (fst (see (W s f))).
Proof using TD AC.
  intro K. destruct (member_dec s x) as [(s' & sym & H)|N].
  - assert (G : gives (W s f) s') by (eapply gv_field; eassumption). rewrite (gives_eq _ _ G). exact G.
  - assert (G : gives (W s f) SNone) by (eapply gv_no_field; eassumption). rewrite (gives_eq _ _ G). exact G.
Qed.
Lemma gives_is n : gives n (fst (see n)).
Proof using TD AC.
  induction n as [n IH] using (well_founded_induction (well_founded_ltof _ zpart)). unfold ltof in IH.
  assert (R : forall s, gives n s -> gives n (fst (see n))) by (intros s G; rewrite (gives_eq _ _ G); exact G).
  destruct n as [h e|h y|s f].
  - destruct e as [y fs|op l r|op l r|c a b].
    + destruct fs as [|f fs] using rev_ind; eapply R.
      * eapply gv_base. apply IH. cbn [zpart]; rewrite z_base. lia.
      * eapply gv_follow; apply IH; cbn [zpart]; rewrite !z_base, ?sum_app, ?sum_one; lia.
    + eapply R. apply gv_binary.
    + eapply R. eapply gv_assign; apply IH; cbn [zpart zexpr]; lia.
    + eapply R. eapply gv_ternary; apply IH; cbn [zpart zexpr]; lia.
  - destruct y as [ |z|f|x|s|s|k| | | |e|path vs|s ps|x args|args|args|args|path vs args|i fs args|args|args it l|args l|cs|ca cb|l f args|x|x args]; try (apply (R SNone); apply gv_untyped; constructor; fail).
    + destruct (ident_dec x) as [(s & sym & H)|N]; [apply (R s); eapply gv_name; exact H|apply (R SNone); apply gv_unknown; exact N].
    + destruct h as [i|]; [apply (R (SType i)); apply gv_implied|apply (R SNone); apply gv_not_implied].
    + apply (R (fst (see (E h e)))). apply gv_paren. apply IH. change (zpart (E h e) < S (zpart (E h e))). lia.
    + destruct h as [i|]; [apply (R (SType i)); apply gv_new|apply (R SNone); apply gv_new_unknown].
    + destruct (leads_dec path) as [(i & H)|N]; [apply (R (SType i)); apply gv_new_path; exact H|apply (R SNone); apply gv_new_nowhere; exact N].
    + apply (R (SList list_type SNone)). apply gv_list.
    + destruct (declares_dec 0 x) as [(j & path & s & H & W)|N]; [apply (R s); eapply gv_global; eassumption|apply (R SNone); apply gv_no_global; exact N].
  - destruct f as [k e|k x|k x args|op|x|x].
    + destruct s as [|i|l keys|]; try (apply (R SNone); apply gv_no_index; discriminate). apply (R keys). apply gv_index.
    + apply (field_gives _ _ x). left. exists k. reflexivity.
    + apply (R SNone). constructor.
    + apply (R SNone). constructor.
    + apply (field_gives _ _ x). right. reflexivity.
    + apply (R SNone). constructor.
Qed.
Lemma gives_iff n s : gives n s <-> fst (see n) = s.
Proof using TD AC. split; [apply gives_eq|intros <-; apply gives_is]. Qed.

(** ** Symbols *)
Lemma maybe_in o (u : use) : In u (maybe o) <-> exists e, o = Some e /\ In u (snd (see (E None e))).
Proof using Type. destruct o as [e|]; cbn [maybe]; [split; [intro H; exists e; split; [reflexivity|exact H]|intros (e' & Q & H); injection Q as <-; exact H]|split; [intros []|intros (e & Q & _); discriminate]]. Qed.
Lemma args_in l (u : use) : In u (see_args l) <-> exists e k v, In e l /\ arg_of e k v /\ In u (snd (see (E None v))).
Proof using Type.
  unfold see_args. rewrite in_flat_map. split.
  - intros (e & He & Hu). exists e, (keyword e), (arg_value e). split; [exact He|split; [apply arg_of_is|exact Hu]].
  - intros (e & k & v & He & Ha & Hu). exists e. split; [exact He|]. apply arg_of_fun in Ha. destruct Ha as [_ ->]. exact Hu.
Qed.
Lemma call_in at_ src p exact us (u : use) : In u (visit_call t at_ src p exact us) <-> (exact = false /\ exists j, declares_proc src (pr_name p) j /\ u = (SProcDecl j (pr_name p), at_)) \/ In u us.
Proof using TD AC.
  unfold visit_call. rewrite in_app_iff. destruct exact; cbn [In]; [|rewrite proc_use_iff].
  - split; [intros [[]|H]; right; exact H|intros [[Q _]|H]; [discriminate|right; exact H]].
  - split; [intros [H|H]; [left; split; [reflexivity|exact H]|right; exact H]|intros [[_ H]|H]; [left; exact H|right; exact H]].
Qed.
Lemma with_vars_in at_ vs i (u : use) : In u (with_vars at_ vs i) <->
  exists y e, In (y, e) vs /\ ((exists j p, declares i y j p /\ u = (SVar j y, at_)) \/ exists s, ((exists j p, declares i y j p /\ written p s) \/ (forall j p, ~ declares i y j p) /\ s = SNone) /\ In u (snd (see (E (basic_type s) e)))).
Proof using TD AC.
  unfold with_vars. rewrite in_flat_map. split.
  - intros ((y & e) & Hi & Hu). cbn [fst snd] in Hu. cbv zeta in Hu. exists y, e. split; [exact Hi|]. destruct (declares_dec i y) as [(j & p & s & Hd & Hw)|N].
    + rewrite (var_use_eq _ _ _ _ _ _ Hd Hw) in Hu. cbn [fst snd] in Hu. apply in_app_iff in Hu. destruct Hu as [[<-|[]]|Hu].
      * left. exists j, p. split; [exact Hd|reflexivity].
      * right. exists s. split; [left; exists j, p; split; assumption|exact Hu].
    + rewrite (var_use_none _ _ _ N) in Hu. right. exists SNone. split; [right; split; [exact N|reflexivity]|exact Hu].
  - intros (y & e & Hi & H). exists (y, e). split; [exact Hi|]. cbn [fst snd]. cbv zeta. apply in_app_iff. destruct H as [(j & p & Hd & ->)|(s & Hs & Hu)].
    + left. rewrite (var_use_eq _ _ _ _ _ _ Hd (written_is p)). left. reflexivity.
    + right. destruct Hs as [(j & p & Hd & Hw)|[N ->]]; [rewrite (var_use_eq _ _ _ _ _ _ Hd Hw)|rewrite (var_use_none _ _ _ N)]; exact Hu.
Qed.
Lemma prefab_path h x path vs at_ : has_path F x path vs -> at_ = AtTerm x -> incl (snd (prefab at_ path vs)) (snd (see (T h x))).
Proof using Type. intros H ->. rewrite see_term. destruct H as [path vs|path vs args]; unfold term_body; cbv zeta; cbn [snd]; [apply incl_refl|apply incl_appl, incl_refl]. Qed.
Lemma uses_in n sym sp : uses n sym -> spot_of F n = Some sp -> In (sym, sp) (snd (see n)).
Proof using TD AC.
  intros H Q. destruct H as [h x s sym H|h x fs l s sym H|h x fs k y fs' l s s' sym H M|s f x s' sym K M|h x j path H|h x l j H|h x l j H|s k x l i j B H|s x i j B H|h x path vs i K H|h x path vs i y e j p K H Hi Hd|h x path vs p j K H Hd|h|h p j Hp H|i];
    cbn [spot_of] in Q; injection Q as <-.
  - rewrite see_term. unfold term_body. rewrite (ident_eq _ _ _ _ H). left. reflexivity.
  - rewrite see_term. unfold term_body. rewrite (ident_eq _ _ _ _ H). left. reflexivity.
  - rewrite see_term. unfold term_body. cbv zeta. destruct (ident_dec x) as [(s0 & sym0 & H0)|N].
    + rewrite (ident_eq _ _ _ _ H0). cbn [fst snd]. apply in_app_iff. right. apply (fields_in _ x [] s0); [apply (fl_nil _ _ _ _ _ _ _ x s0 sym0 H0)|]. exists fs, k, y, fs', s, s', sym. repeat split; assumption.
    + exfalso. clear M. induction H as [s1 sym1 H1|fs s1 k1 y1 s2 sym2 H1 IH M1]; [exact (N _ _ H1)|exact IH].
  - rewrite see_follow. destruct K as [(k & ->)| ->]; unfold follow_body; cbv zeta; rewrite (field_eq _ _ _ _ _ M); left; reflexivity.
  - rewrite see_term. unfold term_body. cbv zeta. rewrite (var_use_eq _ _ _ _ _ _ H (written_is path)). left. reflexivity.
  - rewrite see_term. unfold term_body. cbv zeta. cbn [snd]. pose proof (proc_at_spec ty x) as S. destruct (proc_at ty x) as [p|]; [|destruct (S (declares_has _ _ _ H))].
    apply call_in. left. split; [reflexivity|]. destruct S as [-> _]. exists j. split; [exact H|reflexivity].
  - rewrite see_term. unfold term_body. cbv zeta. cbn [snd]. pose proof (proc_at_spec 0 x) as S. destruct (proc_at 0 x) as [p|]; [|destruct (S (declares_has _ _ _ H))].
    apply call_in. left. split; [reflexivity|]. destruct S as [-> _]. exists j. split; [exact H|reflexivity].
  - rewrite see_follow. unfold follow_body. cbv zeta. cbn [snd]. rewrite B. pose proof (proc_at_spec i x) as S. destruct (proc_at i x) as [p|]; [|destruct (S (declares_has _ _ _ H))].
    apply call_in. left. split; [reflexivity|]. destruct S as [-> _]. exists j. split; [exact H|reflexivity].
  - rewrite see_follow. unfold follow_body. cbv zeta. cbn [snd]. rewrite B. apply proc_use_iff. exists j. split; [exact H|reflexivity].
  - apply (prefab_path h x path vs _ K eq_refl). rewrite (prefab_type _ _ _ _ H). left. reflexivity.
  - apply (prefab_path h x path vs _ K eq_refl). rewrite (prefab_type _ _ _ _ H). right. apply with_vars_in. exists y, e. split; [exact Hi|]. left. exists j, p. split; [exact Hd|reflexivity].
  - apply (prefab_path h x path vs _ K eq_refl). rewrite (prefab_proc _ _ _ _ H). apply proc_use_iff. exists j. split; [exact Hd|reflexivity].
  - left. reflexivity.
  - rewrite see_term. unfold term_body. cbv zeta. rewrite Hp. apply proc_use_iff. exists j. split; [exact H|reflexivity].
  - left. reflexivity.
Qed.
Lemma new_in at_ i us (u : use) : In u (snd (visit_new t at_ (Some i) us)) <-> has_proc i (lit "New") /\ In u us.
Proof using TD AC.
  cbn [visit_new snd]. pose proof (proc_at_spec i (lit "New")) as S. destruct (proc_at i (lit "New")) as [p|].
  - rewrite call_in. split; [intros [[Q _]|H]; [discriminate|split; [exact (proj2 S)|exact H]]|intros [_ H]; right; exact H].
  - split; [intros []|intros [H _]; exact (S H)].
Qed.
Lemma called_in n l e k v (u : use) : called n l -> In e l -> arg_of e k v -> In u (snd (see (E None v))) -> In u (snd (see n)).
Proof using TD AC.
  intros H He Ha Hu. assert (A : In u (see_args l)) by (apply args_in; exists e, k, v; repeat split; assumption).
  destruct H as [h x l H|h l p H|h l p q Hp Hq|h x l|i l H|h path vs l i Hl H|h l|h l o|h l n o|h a b|h a b|h o f l|s k' x l]; rewrite ?see_term, ?see_follow; unfold term_body, follow_body; cbv zeta; cbn [snd].
  - apply proc_at_iff in H. destruct H as (p & ->). apply call_in. right. exact A.
  - rewrite H. apply call_in. right. exact A.
  - rewrite Hp, Hq. apply call_in. right. exact A.
  - destruct (proc_at 0 x); [apply call_in; right; exact A|exact A].
  - apply new_in. split; assumption.
  - apply in_app_iff. right. rewrite (prefab_leads _ _ _ _ Hl). apply new_in. split; assumption.
  - exact A.
  - apply in_app_iff. left. exact A.
  - apply in_app_iff. left. exact A.
  - apply in_app_iff. left. exact A.
  - apply in_app_iff. right. exact A.
  - rewrite !in_app_iff. right. right. exact A.
  - destruct (basic_type s) as [i|]; [|exact A]. destruct (proc_at i x); [apply call_in; right; exact A|exact A].
Qed.
Lemma looks_in n m (u : use) : looks n m -> In u (snd (see m)) -> In u (snd (see n)).
Proof using TD AC.
  intros H Hu. destruct H as [h x|h x f fs|h x fs f fs' s G|h l r e K|h op l r e No K|h op l r|h op l r s G|h c a b|h c a b e K|h e|h s ps e s' Hi|n l e k v C He Ha
    |h x path vs i y e j p s K L Hi Hd Hw|h x path vs i y e K L Hi N|h l e|h l n e|h cs w e Hi|h cs w e Hi|h e f l|h o f l|s k e].
  - rewrite see_base. cbn [snd]. apply in_app_iff. left. exact Hu.
  - rewrite see_base. cbn [snd]. apply in_app_iff. left. exact Hu.
  - rewrite see_base. cbn [snd]. apply in_app_iff. right. apply follows_in. exists fs, f, fs'. split; [reflexivity|]. replace (match fs ++ f :: fs' with [] => h | _ => None end) with (@None nat) by (destruct fs; reflexivity).
    rewrite <- base_none, (gives_eq _ _ G). exact Hu.
  - rewrite see_bin. cbn [snd]. apply in_app_iff. destruct K as [-> | ->]; [left|right]; exact Hu.
  - rewrite see_bin. cbv zeta. cbn [snd]. replace (match op with BOr => h | _ => None end) with (@None nat) by (destruct op; congruence). apply in_app_iff. destruct K as [-> | ->]; [left|right]; exact Hu.
  - rewrite see_assign. cbv zeta. cbn [snd]. apply in_app_iff. left. exact Hu.
  - rewrite see_assign. cbv zeta. cbn [snd]. apply in_app_iff. right. rewrite (gives_eq _ _ G). exact Hu.
  - rewrite see_tern. cbn [snd]. apply in_app_iff. left. exact Hu.
  - rewrite see_tern. cbn [snd]. rewrite !in_app_iff. right. destruct K as [-> | ->]; [left|right]; exact Hu.
  - rewrite see_term. exact Hu.
  - rewrite see_term. unfold term_body. cbv zeta. cbn [snd]. apply in_flat_map. exists (Some e, s'). split; [exact Hi|exact Hu].
  - eapply called_in; eassumption.
  - apply (prefab_path h x path vs _ K eq_refl). rewrite (prefab_type _ _ _ _ L). right. apply with_vars_in. exists y, e. split; [exact Hi|]. right. exists s. split; [left; exists j, p; split; assumption|exact Hu].
  - apply (prefab_path h x path vs _ K eq_refl). rewrite (prefab_type _ _ _ _ L). right. apply with_vars_in. exists y, e. split; [exact Hi|]. right. exists SNone. split; [right; split; [exact N|reflexivity]|exact Hu].
  - rewrite see_term. unfold term_body. cbv zeta. cbn [snd]. apply in_app_iff. right. exact Hu.
  - rewrite see_term. unfold term_body. cbv zeta. cbn [snd]. apply in_app_iff. right. exact Hu.
  - rewrite see_term. unfold term_body. cbv zeta. cbn [snd]. apply in_flat_map. exists (Some w, e). split; [exact Hi|]. apply in_app_iff. left. exact Hu.
  - rewrite see_term. unfold term_body. cbv zeta. cbn [snd]. apply in_flat_map. exists (w, e). split; [exact Hi|]. apply in_app_iff. right. exact Hu.
  - rewrite see_term. unfold term_body. cbv zeta. cbn [snd]. apply in_app_iff. left. exact Hu.
  - rewrite see_term. unfold term_body. cbv zeta. cbn [snd]. rewrite !in_app_iff. right. left. exact Hu.
  - rewrite see_follow. exact Hu.
Qed.
(** what is seen: used here, or in a part that is looked at *)
Definition from_part (n : part) (u : use) : Prop := (uses n (fst u) /\ spot_of F n = Some (snd u)) \/ exists m, looks n m /\ In u (snd (see m)).
Lemma here_use n sym sp : spot_of F n = Some sp -> uses n sym -> from_part n (sym, sp).
Proof using Type. intros Q H. left. split; assumption. Qed.
Lemma there n m (u : use) : looks n m -> In u (snd (see m)) -> from_part n u.
Proof using Type. intros H Hu. right. exists m. split; assumption. Qed.
Lemma there_arg n l (u : use) : called n l -> In u (see_args l) -> from_part n u.
Proof using Type. intros H A. apply args_in in A. destruct A as (e & k & v & He & Ha & Hu). apply (there n (E None v)); [|exact Hu]. eapply lk_arg; eassumption. Qed.
Lemma there_path h x path vs (u : use) : has_path F x path vs -> In u (snd (prefab (AtTerm x) path vs)) -> from_part (T h x) u.
Proof using TD AC.
  intros K Hu. destruct (prefab_dec path) as [(i & L)|[(p & L)|[_ N]]].
  - rewrite (prefab_type _ _ _ _ L) in Hu. cbn [snd] in Hu. destruct Hu as [<-|Hu]; [apply here_use; [reflexivity|eapply us_path; eassumption]|].
    apply with_vars_in in Hu. destruct Hu as (y & e & Hi & [(j & p & Hd & ->)|(s & [(j & p & Hd & Hw)|[N ->]] & Hu)]).
    + apply here_use; [reflexivity|]. eapply us_set; eassumption.
    + apply (there _ (E (basic_type s) e)); [|exact Hu]. eapply lk_set; eassumption.
    + apply (there _ (E None e)); [|exact Hu]. eapply lk_set_unknown; eassumption.
  - rewrite (prefab_proc _ _ _ _ L) in Hu. apply proc_use_iff in Hu. destruct Hu as (j & Hd & ->). apply here_use; [reflexivity|]. eapply us_proc_path; eassumption.
  - rewrite N in Hu. destruct Hu.
Qed.
Lemma there_maybe n o (u : use) : (forall e, o = Some e -> looks n (E None e)) -> In u (maybe o) -> from_part n u.
Proof using Type. intros H Hu. apply maybe_in in Hu. destruct Hu as (e & Q & Hu). exact (there n _ u (H e Q) Hu). Qed.
Lemma in_says n (u : use) : In u (snd (see n)) -> from_part n u.
Proof using TD AC.
  intro Hu. destruct n as [h e|h y|s f].
  - destruct e as [y fs|op l r|op l r|c a b].
    + rewrite see_base in Hu. cbn [snd] in Hu. apply in_app_iff in Hu. destruct Hu as [Hu|Hu].
      * destruct fs as [|f fs]; [apply (there _ (T h y)); [constructor|exact Hu]|apply (there _ (T None y)); [constructor|exact Hu]].
      * apply follows_in in Hu. destruct Hu as (fs1 & f & fs2 & -> & Hu). replace (match fs1 ++ f :: fs2 with [] => h | _ => None end) with (@None nat) in Hu by (destruct fs1; reflexivity).
        rewrite <- base_none in Hu. eapply there; [|exact Hu]. apply lk_follow. apply gives_is.
    + rewrite see_bin in Hu. cbv zeta in Hu. cbn [snd] in Hu. apply in_app_iff in Hu.
      assert (K : op = BOr \/ op <> BOr) by (clear; destruct op; (left; reflexivity) || (right; discriminate)). destruct K as [-> |N].
      * destruct Hu as [Hu|Hu]; (eapply there; [apply lk_or|exact Hu]); [left|right]; reflexivity.
      * replace (match op with BOr => h | _ => None end) with (@None nat) in Hu by (destruct op; congruence). destruct Hu as [Hu|Hu]; (eapply there; [apply lk_binary; [exact N|]|exact Hu]); [left|right]; reflexivity.
    + rewrite see_assign in Hu. cbv zeta in Hu. cbn [snd] in Hu. apply in_app_iff in Hu. destruct Hu as [Hu|Hu]; (eapply there; [|exact Hu]); [apply lk_assign_left|apply lk_assign_right, gives_is].
    + rewrite see_tern in Hu. cbn [snd] in Hu. rewrite !in_app_iff in Hu. destruct Hu as [Hu|[Hu|Hu]]; (eapply there; [|exact Hu]); [apply lk_cond|apply lk_branch; left; reflexivity|apply lk_branch; right; reflexivity].
  - rewrite see_term in Hu. destruct y as [ |z|f|x|s|s|k| | | |e|path vs|s ps|x args|args|args|args|path vs args|x fs args|args|args it l|args l|cs|ca cb|l f args|x|x args]; unfold term_body in Hu; cbv zeta in Hu; cbn [snd] in Hu; try (destruct Hu; fail).
    + destruct (ident_dec x) as [(s & sym & H)|N]; [rewrite (ident_eq _ _ _ _ H) in Hu|rewrite (ident_none _ _ N) in Hu]; [destruct Hu as [<-|[]]|destruct Hu]. apply here_use; [reflexivity|]. eapply us_name. exact H.
    + destruct proc as [p|] eqn:Hp; [|destruct Hu]. apply proc_use_iff in Hu. destruct Hu as (j & Hd & ->). apply here_use; [reflexivity|]. apply us_proc; [exact Hp|exact Hd].
    + destruct Hu as [<-|[]]. apply here_use; [reflexivity|constructor].
    + destruct h as [i|]; [destruct Hu as [<-|[]]|destruct Hu]. apply here_use; [reflexivity|constructor].
    + apply (there _ (E h e)); [constructor|exact Hu].
    + apply (there_path h _ path vs); [constructor|exact Hu].
    + apply in_flat_map in Hu. destruct Hu as ((o & s') & Hi & Hu). cbn [fst] in Hu. revert Hu. apply there_maybe. intros e ->. eapply lk_interp. exact Hi.
    + pose proof (proc_at_spec ty x) as S. destruct (proc_at ty x) as [p|]; [|destruct Hu]. destruct S as [Ex Hx]. apply call_in in Hu. destruct Hu as [(_ & j & Hd & ->)|Hu].
      * rewrite Ex in *. apply here_use; [reflexivity|]. apply us_call. exact Hd.
      * apply (there_arg _ args); [constructor; exact Hx|exact Hu].
    + destruct proc as [p|] eqn:Hp; [|destruct Hu]. apply call_in in Hu. destruct Hu as [[Q _]|Hu]; [discriminate|]. apply (there_arg _ args); [eapply cl_self; exact Hp|exact Hu].
    + destruct proc as [p|] eqn:Hp; [|destruct Hu]. destruct (parent_proc t size p) as [[q|]|] eqn:Hq; try (destruct Hu; fail). apply call_in in Hu. destruct Hu as [[Q _]|Hu]; [discriminate|]. apply (there_arg _ args); [eapply cl_parent; eassumption|exact Hu].
    + destruct h as [i|]; [|destruct Hu]. apply new_in in Hu. destruct Hu as [Hn Hu]. destruct args as [args|]; [|destruct Hu]. apply (there_arg _ args); [constructor; exact Hn|exact Hu].
    + apply in_app_iff in Hu. destruct Hu as [Hu|Hu]; [apply (there_path h _ path vs); [constructor|exact Hu]|]. destruct (leads_dec path) as [(i & L)|N].
      * rewrite (prefab_leads _ _ _ _ L) in Hu. apply new_in in Hu. destruct Hu as [Hn Hu]. destruct args as [args|]; [|destruct Hu]. apply (there_arg _ args); [eapply cl_new_path; eassumption|exact Hu].
      * rewrite (prefab_nowhere _ _ _ N) in Hu. destruct Hu.
    + destruct (ident_dec x) as [(s & sym & H)|N].
      * rewrite (ident_eq _ _ _ _ H) in Hu. cbn [fst snd] in Hu. apply in_app_iff in Hu. destruct Hu as [[<-|[]]|Hu]; [apply here_use; [reflexivity|eapply us_mini; exact H]|].
        apply (fields_in _ x [] s fs u (fl_nil _ _ _ _ _ _ _ x s sym H)) in Hu. destruct Hu as (fs1 & k & y & fs2 & s1 & s2 & sym' & -> & Hf & M & ->). apply here_use; [reflexivity|]. eapply us_mini_field; [exact Hf|exact M].
      * rewrite (ident_none _ _ N) in Hu. cbn [fst snd app] in Hu. rewrite fields_nowhere in Hu by reflexivity. destruct Hu.
    + apply (there_arg _ args); [constructor|exact Hu].
    + apply in_app_iff in Hu. destruct Hu as [Hu|Hu]; [apply (there_arg _ args); [constructor|exact Hu]|]. revert Hu. apply there_maybe. intros e ->. constructor.
    + apply in_app_iff in Hu. destruct Hu as [Hu|Hu]; [apply (there_arg _ args); [constructor|exact Hu]|]. revert Hu. apply there_maybe. intros e ->. constructor.
    + apply in_flat_map in Hu. destruct Hu as ((o & e) & Hi & Hu). cbn [fst snd] in Hu. apply in_app_iff in Hu. destruct Hu as [Hu|Hu].
      * revert Hu. apply there_maybe. intros w ->. eapply lk_weight. exact Hi.
      * apply (there _ (E None e)); [eapply lk_choice; exact Hi|exact Hu].
    + apply in_app_iff in Hu. destruct Hu as [Hu|Hu]; [apply (there_arg _ ca)|apply (there_arg _ cb)]; try exact Hu; constructor.
    + rewrite !in_app_iff in Hu. destruct Hu as [Hu|[Hu|Hu]].
      * revert Hu. apply there_maybe. intros e ->. constructor.
      * apply (there _ (E None f)); [constructor|exact Hu].
      * apply (there_arg _ args); [constructor|exact Hu].
    + destruct (declares_dec 0 x) as [(j & path & s & H & W)|N]; [rewrite (var_use_eq _ _ _ _ _ _ H W) in Hu|rewrite (var_use_none _ _ _ N) in Hu]; [destruct Hu as [<-|[]]|destruct Hu]. apply here_use; [reflexivity|]. eapply us_global. exact H.
    + pose proof (proc_at_spec 0 x) as S. destruct (proc_at 0 x) as [p|]; [|apply (there_arg _ args); [constructor|exact Hu]]. destruct S as [Ex Hx]. apply call_in in Hu. destruct Hu as [(_ & j & Hd & ->)|Hu].
      * rewrite Ex in *. apply here_use; [reflexivity|]. apply us_global_call. exact Hd.
      * apply (there_arg _ args); [constructor|exact Hu].
  - rewrite see_follow in Hu. destruct f as [k e|k x|k x args|op|x|x]; unfold follow_body in Hu; cbv zeta in Hu; cbn [snd] in Hu; try (destruct Hu; fail).
    + apply (there _ (E None e)); [constructor|exact Hu].
    + destruct (member_dec s x) as [(s' & sym & M)|N]; [rewrite (field_eq _ _ _ _ _ M) in Hu|rewrite (field_none _ _ _ N) in Hu]; [destruct Hu as [<-|[]]|destruct Hu]. apply here_use; [reflexivity|]. eapply us_field; [left; exists k; reflexivity|exact M].
    + destruct (basic_type s) as [i|] eqn:B; [|apply (there_arg _ args); [constructor|exact Hu]]. pose proof (proc_at_spec i x) as S. destruct (proc_at i x) as [p|]; [|apply (there_arg _ args); [constructor|exact Hu]].
      destruct S as [Ex Hx]. apply call_in in Hu. destruct Hu as [(_ & j & Hd & ->)|Hu].
      * rewrite Ex in *. apply here_use; [reflexivity|]. eapply us_method; eassumption.
      * apply (there_arg _ args); [constructor|exact Hu].
    + destruct (member_dec s x) as [(s' & sym & M)|N]; [rewrite (field_eq _ _ _ _ _ M) in Hu|rewrite (field_none _ _ _ N) in Hu]; [destruct Hu as [<-|[]]|destruct Hu]. apply here_use; [reflexivity|]. eapply us_field; [right; reflexivity|exact M].
    + destruct (basic_type s) as [i|] eqn:B; [|destruct Hu]. apply proc_use_iff in Hu. destruct Hu as (j & Hd & ->). apply here_use; [reflexivity|]. eapply us_ref; eassumption.
Qed.
Lemma called_size n l e : called n l -> In e l -> zexpr e < zpart n.
Proof using Type.
  assert (A : forall l : list expr, In e l -> S (zexpr e) <= sum (fun e => S (zexpr e)) l) by (intros l0 Hl; exact (sum_in (fun e => S (zexpr e)) l0 e Hl)).
  intros H He. specialize (A l He). destruct H; cbn [zpart]; rewrite ?z_term_is, ?z_follow_is; cbn [opt]; lia.
Qed.
Lemma arg_size (e : expr) : zexpr (arg_value e) <= zexpr e.
Proof using Type. unfold arg_value. destruct (keyword e); [|lia]. destruct e; try lia. rewrite (z_expr_is F (Assign _ _ _)). lia. Qed.
Lemma looks_size n m : looks n m -> zpart m < zpart n.
Proof using Type.
  assert (B : forall (y : text) e vs, In (y, e) vs -> S (zexpr e) <= sum (fun v => S (zexpr (snd v))) vs) by (intros y e vs Hi; exact (sum_in (fun v : text * expr => S (zexpr (snd v))) vs (y, e) Hi)).
  assert (B' : forall y e x path vs h, has_path F x path vs -> In (y, e) vs -> zexpr e < zpart (T h x)) by (intros y e x path vs h K Hi; apply B in Hi; destruct K; cbn [zpart]; rewrite z_term_is; lia).
  intro H. destruct H as [h x|h x f fs|h x fs f fs' s G|h l r e K|h op l r e No K|h op l r|h op l r s G|h c a b|h c a b e K|h e|h s ps e s' Hi|n l e k v C He Ha
    |h x path vs i y e j p s K L Hi Hd Hw|h x path vs i y e K L Hi N|h l e|h l n e|h cs w e Hi|h cs w e Hi|h e f l|h o f l|s k e]; try (cbn [zpart]; eapply (B' y e x path vs h); eassumption); cbn [zpart]; try destruct K as [-> | ->]; rewrite ?(z_expr_is F (Base _ _)), ?(z_expr_is F (Bin _ _ _)), ?(z_expr_is F (Assign _ _ _)), ?(z_expr_is F (Tern _ _ _)), ?sum_app, ?sum_cons; try lia; rewrite ?z_term_is, ?z_follow_is; cbn [opt]; try lia.
  - pose proof (sum_in (fun p : option expr * text => S (opt zexpr (fst p))) ps (Some e, s') Hi) as Hs. cbn [fst opt] in Hs. lia.
  - apply (called_size _ _ _ C) in He. apply arg_of_fun in Ha. destruct Ha as [_ ->]. pose proof (arg_size e). lia.
  - pose proof (sum_in (fun c : option expr * expr => S (opt zexpr (fst c) + zexpr (snd c))) cs (Some w, e) Hi) as Hs. cbn [fst snd opt] in Hs. lia.
  - pose proof (sum_in (fun c : option expr * expr => S (opt zexpr (fst c) + zexpr (snd c))) cs (w, e) Hi) as Hs. cbn [fst snd] in Hs. lia.
Qed.
Lemma part_uses n sym sp : In (sym, sp) (snd (see n)) <-> exists m, looked_at n m /\ spot_of F m = Some sp /\ uses m sym.
Proof using TD AC.
  split.
  - induction n as [n IH] using (well_founded_induction (well_founded_ltof _ zpart)). unfold ltof in IH. intro H. apply in_says in H. destruct H as [[H Q]|(m & H & Hu)].
    + exists n. split; [constructor|split; assumption].
    + destruct (IH m (looks_size _ _ H) Hu) as (k & L & R). exists k. split; [econstructor 2; eassumption|exact R].
  - intros (m & L & Q & H). induction L as [n|n k m Hk L IH]; [apply uses_in; assumption|]. eapply looks_in; [exact Hk|apply IH; assumption].
Qed.
Lemma expr_is h e sym sp : In (sym, sp) (snd (visit h e)) <-> expr_uses h e sym sp.
Proof using TD AC. apply (part_uses (E h e)). Qed.
End EXPR.
End C73.
