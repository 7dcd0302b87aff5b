(** C68: return types of procedures. *)
From Coq Require Import List Arith NArith Bool String Lia.
From Verif Require Import Common.Text Objtree.Ispath Objtree.Model Objtree.Lemmas Objtree.Spec Objtree.PathsProps Objtree.Demo Parse.Ast Checker.TypeExpr.
Import ListNotations.
Open Scope nat_scope.

(** ** Specification *)
Section SPEC.
Variables F V D : Type.
Variable t : objtree V D.
Variable list_type : nat.
Notation sty := sty.
Notation expr := (expr F).
(** a list of lists ... of something *)
Fixpoint lists (n : nat) (s : sty) : sty := match n with O => s | S n' => SList list_type (lists n' s) end.
(** [n] lists taken off *)
Inductive stripped : nat -> sty -> sty -> Prop :=
  | strip_end s : stripped 0 s s
  | strip_next n l s s' : stripped n s s' -> stripped (S n) (SList l s) s'
  | strip_other n s : (forall l k, s <> SList l k) -> stripped (S n) s SNone.

Section EXPRESSIONS.
Variable params : list text.
(** [X[_]] *)
Inductive index : follow F -> Prop := index_intro k : index (FIndex k (Base (MIdent (lit "_")) [])).
(** a parameter with so many indices, with parentheses anywhere *)
Inductive parameter : expr -> text -> nat -> Prop :=
  | par_name x fs : In x params -> Forall index fs -> parameter (Base (MIdent x) fs) x (List.length fs)
  | par_paren e x n fs : parameter e x n -> Forall index fs -> parameter (Base (MExpr e) fs) x (n + List.length fs).
(** the same with [.type] *)
Inductive type_of : expr -> text -> nat -> Prop :=
  | ty_here b fs k x n : parameter (Base b fs) x n -> type_of (Base b (fs ++ [FField k (lit "type")])) x n
  | ty_paren e x n : type_of e x n -> type_of (Base (MExpr e) []) x n.
(** What can be written *)
Inductive allowed : expr -> Prop :=
  | al_null : allowed (Base MNull [])
  | al_path path vars s : static_type t list_type (map snd path) = Good s -> allowed (Base (MPrefab path vars) [])
  | al_param e x n : parameter e x n -> allowed e
  | al_type e x n : type_of e x n -> allowed e
  | al_paren e : allowed e -> allowed (Base (MExpr e) [])
  | al_or a b : allowed a -> allowed b -> allowed (Bin BOr a b)
  | al_and a b : allowed a -> allowed b -> allowed (Bin BAnd a b)
  | al_tern c a b : allowed c -> allowed a -> allowed b -> allowed (Tern c a b).

(** The argument for a parameter: the last one with its name, or else the one at its place among those without a name *)
Variable args : list (option text * analysis).
Definition supplies (x : text) (a : analysis) : Prop :=
  (exists l1 l2, args = l1 ++ (Some x, a) :: l2 /\ forall b, ~ In (Some x, b) l2) \/
  ((forall b, ~ In (Some x, b) args) /\ exists i, nth_error params i = Some x /\ (forall j, j < i -> nth_error params j <> Some x) /\
     nth_error (map snd (filter (fun e => match fst e with None => true | Some _ => false end) args)) i = Some a).
(** The type, or the problem, that an expression stands for *)
Inductive value : expr -> res sty -> Prop :=
  | v_null : value (Base MNull []) (Good SNone)
  | v_path path vars : value (Base (MPrefab path vars) []) (static_type t list_type (map snd path))
  | v_param e x n a p : parameter e x n -> supplies x a -> a_path a = Some p -> value e (static_type t list_type p)
  | v_param_unknown e x n : parameter e x n -> (forall a, supplies x a -> a_path a = None) -> value e (Good SNone)
  | v_type e x n a s : type_of e x n -> supplies x a -> stripped n (a_type a) s -> value e (Good s)
  | v_type_unknown e x n : type_of e x n -> (forall a, ~ supplies x a) -> value e (Good SNone)
  | v_paren e r : value e r -> value (Base (MExpr e) []) r
  | v_or_left a b s : value a (Good s) -> s <> SNone -> value (Bin BOr a b) (Good s)
  | v_or_right a b r : value a (Good SNone) -> value b r -> value (Bin BOr a b) r
  | v_or_bad a b p : value a (Bad p) -> value (Bin BOr a b) (Bad p)
  | v_and_left a b : value a (Good SNone) -> value (Bin BAnd a b) (Good SNone)
  | v_and_right a b s r : value a (Good s) -> s <> SNone -> value b r -> value (Bin BAnd a b) r
  | v_and_bad a b p : value a (Bad p) -> value (Bin BAnd a b) (Bad p)
  | v_tern_true c a b s r : value c (Good s) -> s <> SNone -> value a r -> value (Tern c a b) r
  | v_tern_false c a b r : value c (Good SNone) -> value b r -> value (Tern c a b) r
  | v_tern_bad c a b p : value c (Bad p) -> value (Tern c a b) (Bad p).
End EXPRESSIONS.
End SPEC.
Arguments parameter {F}. Arguments type_of {F}. Arguments allowed {F V D}. Arguments value {F V D}. Arguments index {F}.

Section C68.
Variables F V D : Type.
Variable t : objtree V D.
Variable list_type : nat.
Notation static_type := (static_type t list_type).
Notation compile := (compile (F := F) t list_type).
Notation evaluate := (evaluate t list_type).

(** The words of a variable's path that are not part of the type *)
Definition skipped : list text := map lit ["static"; "global"; "const"; "tmp"; "final"; "SpacemanDMM_final"; "SpacemanDMM_private"; "SpacemanDMM_protected"]%string.
(** C68: the type that a path stands for, as in [var/static/list/list/obj/item/x]. *)
Theorem C68_static : forall before core, tree t -> names core ->
  (forall w, In w before -> In w skipped \/ w = lit "list") -> (forall w rest, core = w :: rest -> ~ In w skipped /\ w <> lit "list") ->
  let n := List.length (filter (fun w => text_eqb w (lit "list")) before) in
  match core with
  | [] => static_type (before ++ core) = Good (lists list_type n SNone)
  | _ => match find t (render core) with
         | Some i => static_type (before ++ core) = Good (lists list_type n (SType i))
         | None => static_type (before ++ core) = Bad (Undefined core)
         end
  end.
Proof using Type.
  intros before core T Hn Hb Hc n.
  assert (M : forall w, existsb (text_eqb w) modifiers = true <-> In w skipped).
  { intro w. rewrite existsb_exists. split; [intros (x & H & E); apply text_eqb_eq in E; subst; exact H|intro H; exists w; split; [exact H|apply text_eqb_refl]]. }
  assert (Base : static_type core = match core with [] => Good SNone | _ => match find t (render core) with Some i => Good (SType i) | None => Bad (Undefined core) end end).
  { destruct core as [|w rest]; [reflexivity|]. destruct (Hc w rest eq_refl) as [H1 H2]. cbn [TypeExpr.static_type]. destruct (existsb (text_eqb w) modifiers) eqn:E; [apply M in E; contradiction|]. destruct (text_eqb_spec w (lit "list")) as [->|_]; [contradiction|].
    destruct (C49_type_by_path V D t (w :: rest) T Hn) as [_ Q]. destruct (Q (fun r E2 => H2 ltac:(congruence))) as [Q1 _]. rewrite Q1. reflexivity. }
  assert (Lists : forall s, static_type core = s -> static_type (before ++ core) = match s with Good s' => Good (lists list_type n s') | Bad p => Bad p end).
  { intros s Es. unfold n. clear n. induction before as [|w before IH]; [cbn [app filter List.length lists]; rewrite Es; destruct s; reflexivity|]. cbn [app TypeExpr.static_type filter]. specialize (IH (fun x Hx => Hb x (or_intror Hx))). destruct (existsb (text_eqb w) modifiers) eqn:E.
    - rewrite IH. assert (text_eqb w (lit "list") = false) as ->; [|reflexivity]. destruct (text_eqb_spec w (lit "list")) as [->|]; [vm_compute in E; discriminate|reflexivity].
    - destruct (text_eqb_spec w (lit "list")) as [->|Nw]; [|destruct (Hb w (or_introl eq_refl)) as [Q|Q]; [apply M in Q; congruence|contradiction]]. rewrite IH. destruct s; reflexivity. }
  specialize (Lists _ Base). destruct core as [|w rest]; [exact Lists|]. destruct (find t (render (w :: rest))); exact Lists.
Qed.
(** Every path is of this form. *)
Lemma C68_split : forall path, exists before core, path = before ++ core /\ (forall w, In w before -> In w skipped \/ w = lit "list") /\ (forall w rest, core = w :: rest -> ~ In w skipped /\ w <> lit "list").
Proof using Type.
  clear. induction path as [|w path IH]; [exists [], []; split; [reflexivity|]; split; [intros w []|discriminate]|].
  destruct (in_dec (list_eq_dec N.eq_dec) w (lit "list" :: skipped)) as [H|H].
  - destruct IH as (before & core & -> & H1 & H2). exists (w :: before), core. split; [reflexivity|]. split; [|exact H2]. intros x [<-|Hx]; [|auto]. destruct H as [<-|H]; [right; reflexivity|left; exact H].
  - exists [], (w :: path). split; [reflexivity|]. split; [intros x []|]. intros x rest E. injection E as <- _. split; intro Q; apply H; [right; exact Q|left; symmetry; exact Q].
Qed.

(** ** Compiling *)
Section PARAMS.
Variable params : list text.
Notation parameter := (parameter (F := F) params).
Notation type_of := (type_of (F := F) params).
Notation allowed := (allowed (F := F) t list_type params).

Lemma position_iff x i : position x params 0 = Some i <-> nth_error params i = Some x /\ forall j, j < i -> nth_error params j <> Some x.
Proof using Type.
  assert (G : forall l k, position x l k = Some (k + i) <-> nth_error l i = Some x /\ forall j, j < i -> nth_error l j <> Some x).
  { clear. revert i. assert (Ge : forall l k m, position x l k = Some m -> k <= m). { induction l as [|p l IH]; intros k m; cbn [position]; [discriminate|]. destruct (text_eqb x p); [intros [= <-]; lia|]. intro H. apply IH in H. lia. }
    intros i l. revert i. induction l as [|p l IH]; intros i k; cbn [position]; [split; [discriminate|intros [H _]; destruct i; discriminate]|]. destruct (text_eqb_spec x p) as [->|N].
    - split; [intros [= E]; assert (i = 0) as -> by lia; split; [reflexivity|lia]|]. intros [_ H]. destruct i as [|i]; [f_equal; lia|]. exfalso. apply (H 0); [lia|reflexivity].
    - destruct i as [|i].
      + cbn [nth_error]. split; [intro H; apply Ge in H; lia|]. intros [[= E] _]. congruence.
      + replace (k + S i) with (S k + i) by lia. rewrite IH. cbn [nth_error]. split; intros [H1 H2]; (split; [exact H1|]).
        * intros [|j] Hj; cbn [nth_error]; [congruence|apply H2; lia].
        * intros j Hj. apply (H2 (S j)). lia. }
  apply (G params 0).
Qed.
Lemma position_in x : In x params -> exists i, position x params 0 = Some i.
Proof using Type.
  assert (G : forall l k, In x l -> exists i, position x l k = Some i). { clear. induction l as [|p l IH]; intros k H; [destruct H|]. cbn [position]. destruct (text_eqb_spec x p) as [->|N]; [eauto|]. destruct H as [->|H]; [contradiction|]. apply IH. exact H. }
  apply G.
Qed.
Lemma in_position x i : position x params 0 = Some i -> In x params.
Proof using Type. intro H. apply position_iff in H. destruct H as [H _]. eapply nth_error_In. exact H. Qed.

Lemma follow_index f x i n : index f -> visit_follow (F := F) (ParamTypepath x i n) f = Good (ParamTypepath x i (S n)).
Proof using Type. intros [k]. reflexivity. Qed.
Lemma follows_app ty fs gs : visit_follows (F := F) ty (fs ++ gs) = then_ (visit_follows ty fs) (fun ty' => visit_follows ty' gs).
Proof using Type. revert ty. induction fs as [|f fs IH]; intro ty; [reflexivity|]. cbn [app visit_follows]. destruct (visit_follow ty f); [|reflexivity]. cbn [then_]. apply IH. Qed.
Lemma follows_index fs x i n : Forall index fs -> visit_follows (F := F) (ParamTypepath x i n) fs = Good (ParamTypepath x i (n + List.length fs)).
Proof using Type.
  intro H. revert n. induction H as [|f fs Hf _ IH]; intro n; [cbn [visit_follows List.length]; rewrite Nat.add_0_r; reflexivity|]. cbn [visit_follows List.length]. rewrite (follow_index f x i n Hf). cbn [then_]. rewrite IH. f_equal. f_equal. lia.
Qed.
Lemma follow_inv f ty te : visit_follow (F := F) ty f = Good te -> exists x i n, ty = ParamTypepath x i n /\ ((index f /\ te = ParamTypepath x i (S n)) \/ ((exists k, f = FField k (lit "type")) /\ te = ParamStaticType x i n)).
Proof using Type.
  destruct f as [k e|k nm|k nm args|op|nm|nm]; cbn [visit_follow]; try discriminate.
  - destruct e as [x [|]| | |]; try discriminate; destruct x; try discriminate. destruct (text_eqb_spec i (lit "_")) as [->|]; [|discriminate]. destruct ty; try discriminate. intros [= <-]. eexists _, _, _. split; [reflexivity|]. left. split; [constructor|reflexivity].
  - destruct (text_eqb_spec nm (lit "type")) as [->|]; [|discriminate]. destruct ty; try discriminate. intros [= <-]. eexists _, _, _. split; [reflexivity|]. right. split; [eauto|reflexivity].
Qed.
Lemma follows_inv fs : forall ty te, visit_follows (F := F) ty fs = Good te -> (fs = [] /\ te = ty) \/
  exists x i n, ty = ParamTypepath x i n /\ ((Forall index fs /\ te = ParamTypepath x i (n + List.length fs)) \/ exists gs k, fs = gs ++ [FField k (lit "type")] /\ Forall index gs /\ te = ParamStaticType x i (n + List.length gs)).
Proof using Type.
  induction fs as [|f fs IH]; intros ty te; cbn [visit_follows]; [intros [= <-]; left; auto|]. destruct (visit_follow ty f) as [ty'|] eqn:E; [|discriminate]. cbn [then_]. intro H. right. apply follow_inv in E. destruct E as (x & i & n & -> & [[Hf ->]|[[k ->] ->]]); exists x, i, n; (split; [reflexivity|]).
  - apply IH in H. destruct H as [[-> ->]|(x' & i' & n' & Q & H)].
    + left. split; [constructor; [exact Hf|constructor]|]. cbn [List.length]. f_equal. lia.
    + injection Q as <- <- <-. destruct H as [[H ->]|(gs & k & -> & H & ->)].
      * left. split; [constructor; assumption|]. cbn [List.length]. f_equal. lia.
      * right. exists (f :: gs), k. split; [reflexivity|]. split; [constructor; assumption|]. cbn [List.length]. f_equal. lia.
  - apply IH in H. destruct H as [[-> ->]|(x' & i' & n' & Q & _)]; [|discriminate]. right. exists [], k. split; [reflexivity|]. split; [constructor|]. cbn [List.length]. f_equal. lia.
Qed.

Lemma compile_parameter e x n : parameter e x n -> exists i, position x params 0 = Some i /\ compile params e = Good (ParamTypepath x i n).
Proof using Type.
  induction 1 as [x fs Hx Hf|e x n fs _ (i & P & IH) Hf].
  - destruct (position_in x Hx) as (i & P). exists i. split; [exact P|]. cbn [TypeExpr.compile visit_leaf]. rewrite P. cbn [then_]. rewrite follows_index by exact Hf. reflexivity.
  - exists i. split; [exact P|]. cbn [TypeExpr.compile]. rewrite IH. cbn [then_]. apply follows_index. exact Hf.
Qed.
Lemma compile_type e x n : type_of e x n -> exists i, position x params 0 = Some i /\ compile params e = Good (ParamStaticType x i n).
Proof using Type.
  induction 1 as [b fs k x n H|e x n _ (i & P & IH)].
  - apply compile_parameter in H. destruct H as (i & P & H). exists i. split; [exact P|]. cbn [TypeExpr.compile] in *. destruct (match b with MExpr e' => compile params e' | _ => visit_leaf t list_type params b end) as [ty|]; [|discriminate]. cbn [then_] in *. rewrite follows_app, H. cbn [then_ visit_follows visit_follow]. rewrite text_eqb_refl. reflexivity.
  - exists i. split; [exact P|]. cbn [TypeExpr.compile]. rewrite IH. reflexivity.
Qed.

(** what the result tells about the expression *)
Definition classified (e : expr F) (te : texpr) : Prop :=
  match te with
  | ParamTypepath x i n => parameter e x n /\ position x params 0 = Some i
  | ParamStaticType x i n => type_of e x n /\ position x params 0 = Some i
  | _ => True
  end.
Definition induct (P : expr F -> Prop) (Hb : forall x fs, (forall e, x = MExpr e -> P e) -> P (Base x fs)) (Hbin : forall op l r, P l -> P r -> P (Bin op l r)) (Has : forall op l r, P (Assign op l r))
  (Ht : forall c a b, P c -> P a -> P b -> P (Tern c a b)) : forall e, P e :=
  fix go e := match e with
  | Base x fs => Hb x fs match x with MExpr e' => fun e Q => match Q in _ = y return match y with MExpr e0 => P e0 | _ => True end with eq_refl => go e' end | _ => fun e Q => match Q in _ = y return match y with MExpr e0 => P e0 | _ => True end with eq_refl => I end end
  | Bin op l r => Hbin op l r (go l) (go r)
  | Assign op l r => Has op l r
  | Tern c a b => Ht c a b (go c) (go a) (go b)
  end.
Lemma compile_inv : forall e te, compile params e = Good te -> classified e te /\ allowed e.
Proof using Type.
  induction e as [x fs IH|op l r IHl IHr|op l r|c a b IHc IHa IHb] using induct; intros te.
  - cbn [TypeExpr.compile]. assert (Hx : (exists e', x = MExpr e') \/ (forall e', x <> MExpr e')) by (destruct x; try (right; intros e' Q; discriminate); left; eauto). destruct Hx as [(e' & ->)|Nx].
    + specialize (IH e' eq_refl). destruct (compile params e') as [ty|]; [|discriminate]. cbn [then_]. intro H. destruct (IH ty eq_refl) as [C A]. apply follows_inv in H. destruct H as [[-> ->]|(y & i & n & -> & H)].
      * split; [|apply al_paren; exact A]. destruct ty; cbn [classified] in *; try exact I; destruct C as [C P]; (split; [|exact P]).
        -- replace index_ct with (index_ct + @List.length (follow F) []) by (cbn; lia). apply par_paren; [exact C|constructor].
        -- apply ty_paren. exact C.
      * destruct C as [C P]. destruct H as [[H ->]|(gs & k & -> & H & ->)]; cbn [classified].
        -- assert (Q : parameter (Base (MExpr e') fs) y (n + List.length fs)) by (apply par_paren; assumption). split; [split; [exact Q|exact P]|eapply al_param; exact Q].
        -- assert (Q : type_of (Base (MExpr e') (gs ++ [FField k (lit "type")])) y (n + List.length gs)) by (apply ty_here, par_paren; assumption). split; [split; [exact Q|exact P]|eapply al_type; exact Q].
    + clear IH. replace (match x with MExpr e' => compile params e' | _ => visit_leaf t list_type params x end) with (visit_leaf t list_type params x) by (destruct x; try reflexivity; exfalso; eapply Nx; reflexivity).
      destruct (visit_leaf t list_type params x) as [ty|] eqn:L; [|discriminate]. cbn [then_]. intro H. apply follows_inv in H. destruct x; cbn [visit_leaf] in L; try discriminate.
      * injection L as <-. destruct H as [[-> ->]|(y & i & n & Q & _)]; [|discriminate]. split; [exact I|constructor].
      * destruct (position i params 0) as [k|] eqn:P; [|discriminate]. injection L as <-. pose proof (in_position i k P) as Hin. destruct H as [[-> ->]|(y & j & n & Q & H)].
        -- cbn [classified]. assert (Q : parameter (Base (MIdent i) []) i (@List.length (follow F) [])) by (apply par_name; [exact Hin|constructor]). split; [split; [exact Q|exact P]|eapply al_param; exact Q].
        -- injection Q as <- <- <-. destruct H as [[H ->]|(gs & k' & -> & H & ->)]; cbn [classified]; rewrite Nat.add_0_l.
           ++ assert (Q : parameter (Base (MIdent i) fs) i (List.length fs)) by (apply par_name; assumption). split; [split; [exact Q|exact P]|eapply al_param; exact Q].
           ++ assert (Q : type_of (Base (MIdent i) (gs ++ [FField k' (lit "type")])) i (List.length gs)) by (apply ty_here, par_name; assumption). split; [split; [exact Q|exact P]|eapply al_type; exact Q].
      * destruct (static_type (map snd path)) as [s|] eqn:Es; [|discriminate]. injection L as <-. destruct H as [[-> ->]|(y & i & n & Q & _)]; [|discriminate]. split; [exact I|]. eapply al_path. exact Es.
  - cbn [TypeExpr.compile]. destruct op; try discriminate; destruct (compile params l) as [lt|]; try discriminate; cbn [then_]; destruct (compile params r) as [rt|]; try discriminate; cbn [then_]; intros [= <-]; (split; [exact I|]); constructor; first [apply (IHl _ eq_refl)|apply (IHr _ eq_refl)].
  - discriminate.
  - cbn [TypeExpr.compile]. destruct (compile params c) as [ct|]; [|discriminate]. cbn [then_]. destruct (compile params a) as [ta|]; [|discriminate]. cbn [then_]. destruct (compile params b) as [tb|]; [|discriminate]. cbn [then_]. intros [= <-]. split; [exact I|].
    constructor; [apply (IHc _ eq_refl)|apply (IHa _ eq_refl)|apply (IHb _ eq_refl)].
Qed.
(** C68: what is accepted. *)
Theorem C68_accepted : forall e, (exists te, compile params e = Good te) <-> allowed e.
Proof using Type.
  intro e. split; [intros (te & H); apply compile_inv in H; tauto|]. induction 1 as [|path vars s H|e x n H|e x n H|e _ (te & IH)|a b _ (ta & IHa) _ (tb & IHb)|a b _ (ta & IHa) _ (tb & IHb)|c a b _ (tc & IHc) _ (ta & IHa) _ (tb & IHb)].
  - eexists. reflexivity.
  - cbn [TypeExpr.compile visit_leaf]. rewrite H. eexists. reflexivity.
  - apply compile_parameter in H. destruct H as (i & _ & H). eauto.
  - apply compile_type in H. destruct H as (i & _ & H). eauto.
  - cbn [TypeExpr.compile]. rewrite IH. eexists. reflexivity.
  - cbn [TypeExpr.compile]. rewrite IHa, IHb. eexists. reflexivity.
  - cbn [TypeExpr.compile]. rewrite IHa, IHb. eexists. reflexivity.
  - cbn [TypeExpr.compile]. rewrite IHc, IHa, IHb. eexists. reflexivity.
Qed.

(** ** Arguments *)
Definition positional (args : list (option text * analysis)) : list analysis := map snd (filter (fun e => match fst e with None => true | Some _ => false end) args).
Lemma context_idx args : next_idx (context_of args) = List.length (positional args) /\ forall i, match List.find (fun e => fst e =? i) (by_idx (context_of args)) with Some e => Some (snd e) | None => None end = nth_error (positional args) i.
Proof using Type.
  unfold context_of, positional. induction args as [|[[x|] a] args [IH1 IH2]] using rev_ind.
  - split; [reflexivity|]. intro i. destruct i; reflexivity.
  - rewrite fold_left_app, filter_app, map_app. cbn [fold_left add_arg fst snd filter map by_idx next_idx]. rewrite app_nil_r. split; [exact IH1|exact IH2].
  - rewrite fold_left_app, filter_app, map_app. cbn [fold_left add_arg fst snd filter map by_idx next_idx]. rewrite app_length. cbn [List.length]. rewrite IH1. split; [lia|]. intro i. specialize (IH2 i).
    assert (Fa : forall (A : Type) (g : A -> bool) l1 l2, List.find g (l1 ++ l2) = match List.find g l1 with Some y => Some y | None => List.find g l2 end) by (clear; intros A g l1 l2; induction l1 as [|y l1 IH]; [reflexivity|]; cbn [app List.find]; destruct (g y); [reflexivity|exact IH]).
    rewrite Fa. destruct (List.find _ (by_idx _)) as [e|].
    + rewrite IH2. symmetry. apply nth_error_app1. apply nth_error_Some. rewrite <- IH2. discriminate.
    + symmetry in IH2. apply nth_error_None in IH2. cbn [List.find fst snd]. rewrite nth_error_app2 by exact IH2. destruct (Nat.eqb_spec (List.length (map snd (filter (fun e => match fst e with None => true | Some _ => false end) args))) i) as [<-|N].
      * rewrite Nat.sub_diag. reflexivity.
      * symmetry. apply nth_error_None. cbn [List.length]. lia.
Qed.
Lemma context_name args x : match get x (by_name (context_of args)) with
  | Some a => exists l1 l2, args = l1 ++ (Some x, a) :: l2 /\ forall b, ~ In (Some x, b) l2
  | None => forall b, ~ In (Some x, b) args end.
Proof using Type.
  unfold context_of. induction args as [|[[y|] a] args IH] using rev_ind; [intros b []| |]; rewrite fold_left_app; cbn [fold_left add_arg fst snd by_name].
  - rewrite get_ix. destruct (text_eqb_spec y x) as [->|N]; [exists args, []; split; [reflexivity|intros b []]|]. destruct (get x (by_name _)) as [c|].
    + destruct IH as (l1 & l2 & -> & H). exists l1, (l2 ++ [(Some y, a)]). split; [rewrite <- app_assoc; reflexivity|]. intros b Q. apply in_app_or in Q. destruct Q as [Q|[Q|[]]]; [exact (H b Q)|congruence].
    + intros b Q. apply in_app_or in Q. destruct Q as [Q|[Q|[]]]; [exact (IH b Q)|congruence].
  - destruct (get x (by_name _)) as [c|].
    + destruct IH as (l1 & l2 & -> & H). exists l1, (l2 ++ [(None, a)]). split; [rewrite <- app_assoc; reflexivity|]. intros b Q. apply in_app_or in Q. destruct Q as [Q|[Q|[]]]; [exact (H b Q)|discriminate].
    + intros b Q. apply in_app_or in Q. destruct Q as [Q|[Q|[]]]; [exact (IH b Q)|discriminate].
Qed.
Lemma last_one x a b (l1 l2 m1 m2 : list (option text * analysis)) : l1 ++ (Some x, a) :: l2 = m1 ++ (Some x, b) :: m2 -> (forall c, ~ In (Some x, c) l2) -> (forall c, ~ In (Some x, c) m2) -> a = b.
Proof using Type.
  revert m1. induction l1 as [|y l1 IH]; intros [|z m1] E H1 H2; cbn [app] in E.
  - congruence.
  - injection E as _ E. exfalso. apply (H1 b). rewrite E. apply in_or_app. right. left. reflexivity.
  - injection E as _ E. exfalso. apply (H2 a). rewrite <- E. apply in_or_app. right. left. reflexivity.
  - injection E as _ E. exact (IH m1 E H1 H2).
Qed.
Lemma lookup_supplies args x i a : position x params 0 = Some i -> (lookup (context_of args) x i = Some a <-> supplies params args x a).
Proof using Type.
  intro P. apply position_iff in P. unfold lookup, supplies. pose proof (context_name args x) as Cn. destruct (context_idx args) as [_ Ci]. destruct (get x (by_name (context_of args))) as [c|].
  - destruct Cn as (l1 & l2 & E & H). split.
    + intros [= <-]. left. exists l1, l2. auto.
    + intros [(m1 & m2 & E' & H')|[H' _]]; [f_equal; rewrite E in E'; eapply last_one; eassumption|]. exfalso. apply (H' c). rewrite E. apply in_or_app. right. left. reflexivity.
  - rewrite (Ci i). fold (positional args). split.
    + intro H. right. split; [exact Cn|]. exists i. destruct P. auto.
    + intros [(m1 & m2 & E' & H')|(_ & j & H1 & H2 & H3)]; [exfalso; apply (Cn a); rewrite E'; apply in_or_app; right; left; reflexivity|]. destruct P as [P1 P2]. destruct (Nat.lt_trichotomy i j) as [Q|[<-|Q]]; [exfalso; exact (H2 i Q P1)|exact H3|exfalso; exact (P2 j Q H1)].
Qed.
Lemma stripped_iff n s s' : stripped n s s' <-> s' = strip_lists s n.
Proof using Type.
  assert (None_ : forall n, strip_lists SNone n = SNone) by (clear; induction n as [|n IH]; [reflexivity|exact IH]). split.
  - induction 1 as [s|n l s s' _ IH|n s H]; [reflexivity|exact IH|]. cbn [strip_lists]. destruct s; cbn [strip_list]; try (symmetry; apply None_). exfalso. eapply H. reflexivity.
  - intros ->. revert s. induction n as [|n IH]; intro s; [constructor|]. cbn [strip_lists]. destruct s; cbn [strip_list]; try (rewrite None_; apply strip_other; intros l k Q; discriminate). apply strip_next. apply IH.
Qed.

(** C68: what an accepted expression stands for in a call. *)
Theorem C68_value : forall args e te r, compile params e = Good te -> (evaluate (context_of args) te = r <-> value t list_type params args e r).
Proof using Type.
  intros args e te r Hc. split.
  - intros <-. revert te Hc. induction e as [x fs IH|op l r0 IHl IHr|op l r0|c a b IHc IHa IHb] using induct; intros te Hc.
    + destruct te as [s|y i n|y i n|]; cbn [TypeExpr.evaluate].
      * cbn [TypeExpr.compile] in Hc. destruct (match x with MExpr e' => compile params e' | _ => visit_leaf t list_type params x end) as [ty|] eqn:L; [|discriminate]. cbn [then_] in Hc. apply follows_inv in Hc. destruct Hc as [[-> <-]|(y & i & n & -> & [[_ Q]|(gs & k & _ & _ & Q)])]; try discriminate.
        destruct x; cbn [visit_leaf] in L; try discriminate.
        -- injection L as <-. constructor.
        -- destruct (position i params 0); discriminate.
        -- apply v_paren. apply (IH e eq_refl _ L).
        -- destruct (static_type (map snd path)) as [s'|] eqn:Es; [|discriminate]. injection L as ->. rewrite <- Es. constructor.
      * apply compile_inv in Hc. destruct Hc as [[Hp P] _]. pose proof (fun a => lookup_supplies args y i a P) as S. destruct (lookup (context_of args) y i) as [a|].
        -- assert (Sa : supplies params args y a) by (apply S; reflexivity). destruct (a_path a) as [p|] eqn:Ep; [eapply v_param; eassumption|]. eapply v_param_unknown; [exact Hp|]. intros a' Sa'. apply S in Sa'. congruence.
        -- eapply v_param_unknown; [exact Hp|]. intros a' Sa'. apply S in Sa'. discriminate.
      * apply compile_inv in Hc. destruct Hc as [[Hp P] _]. pose proof (fun a => lookup_supplies args y i a P) as S. destruct (lookup (context_of args) y i) as [a|].
        -- eapply v_type; [exact Hp|apply S; reflexivity|apply stripped_iff; reflexivity].
        -- eapply v_type_unknown; [exact Hp|]. intros a' Sa'. apply S in Sa'. discriminate.
      * cbn [TypeExpr.compile] in Hc. destruct (match x with MExpr e' => compile params e' | _ => visit_leaf t list_type params x end) as [ty|] eqn:L; [|discriminate]. cbn [then_] in Hc. apply follows_inv in Hc. destruct Hc as [[-> <-]|(y & i & n & -> & [[_ Q]|(gs & k & _ & _ & Q)])]; try discriminate.
        destruct x; cbn [visit_leaf] in L; try discriminate.
        -- destruct (position i params 0); discriminate.
        -- apply v_paren. apply (IH e eq_refl _ L).
        -- destruct (static_type (map snd path)) as [s'|]; discriminate.
    + cbn [TypeExpr.compile] in Hc. destruct op; try discriminate; destruct (compile params l) as [lt|]; try discriminate; cbn [then_] in Hc; destruct (compile params r0) as [rt|]; try discriminate; cbn [then_] in Hc; injection Hc as <-; specialize (IHl _ eq_refl); specialize (IHr _ eq_refl); cbn [TypeExpr.evaluate]; destruct (evaluate (context_of args) lt) as [s|p]; cbn [then_].
      * destruct s; cbn [is_truthy]; [apply v_and_left; exact IHl| | |]; (eapply v_and_right; [exact IHl|discriminate|exact IHr]).
      * apply v_and_bad. exact IHl.
      * destruct s; cbn [is_truthy]; [apply v_or_right; assumption| | |]; (apply v_or_left; [exact IHl|discriminate]).
      * apply v_or_bad. exact IHl.
    + discriminate.
    + cbn [TypeExpr.compile] in Hc. destruct (compile params c) as [ct|]; [|discriminate]. cbn [then_] in Hc. destruct (compile params a) as [ta|]; [|discriminate]. cbn [then_] in Hc. destruct (compile params b) as [tb|]; [|discriminate]. cbn [then_] in Hc. injection Hc as <-.
      specialize (IHc _ eq_refl). specialize (IHa _ eq_refl). specialize (IHb _ eq_refl). cbn [TypeExpr.evaluate]. destruct (evaluate (context_of args) ct) as [s|p]; cbn [then_]; [|apply v_tern_bad; exact IHc].
      destruct s; cbn [is_truthy]; [apply v_tern_false; assumption| | |]; (eapply v_tern_true; [exact IHc|discriminate|exact IHa]).
  - intro Hv. revert te Hc. induction Hv as [|path vars|e x n a p Hp Sa Ea|e x n Hp Hn|e x n a s Hp Sa Hs|e x n Hp Hn|e r _ IH|a b s _ IHa Hs|a b r _ IHa _ IHb|a b p _ IHa|a b _ IHa|a b s r _ IHa Hs _ IHb|a b p _ IHa|c a b s r _ IHc Hs _ IHa|c a b r _ IHc _ IHb|c a b p _ IHc]; intros te Hc.
    + injection Hc as <-. reflexivity.
    + cbn [TypeExpr.compile visit_leaf] in Hc. destruct (static_type (map snd path)) as [s|]; [|discriminate]. injection Hc as <-. reflexivity.
    + apply compile_parameter in Hp. destruct Hp as (i & P & E). rewrite E in Hc. injection Hc as <-. cbn [TypeExpr.evaluate]. apply (lookup_supplies args x i a P) in Sa. rewrite Sa, Ea. reflexivity.
    + apply compile_parameter in Hp. destruct Hp as (i & P & E). rewrite E in Hc. injection Hc as <-. cbn [TypeExpr.evaluate]. destruct (lookup (context_of args) x i) as [a|] eqn:El; [|reflexivity]. rewrite (Hn a); [reflexivity|]. apply (lookup_supplies args x i a P). exact El.
    + apply compile_type in Hp. destruct Hp as (i & P & E). rewrite E in Hc. injection Hc as <-. cbn [TypeExpr.evaluate]. apply (lookup_supplies args x i a P) in Sa. rewrite Sa. apply stripped_iff in Hs. rewrite Hs. reflexivity.
    + apply compile_type in Hp. destruct Hp as (i & P & E). rewrite E in Hc. injection Hc as <-. cbn [TypeExpr.evaluate]. destruct (lookup (context_of args) x i) as [a|] eqn:El; [|reflexivity]. exfalso. apply (Hn a). apply (lookup_supplies args x i a P). exact El.
    + apply IH. cbn [TypeExpr.compile] in Hc. destruct (compile params e); [exact Hc|discriminate].
    + cbn [TypeExpr.compile] in Hc. destruct (compile params a) as [ta|]; [|discriminate]. cbn [then_] in Hc. destruct (compile params b) as [tb|]; [|discriminate]. injection Hc as <-. cbn [TypeExpr.evaluate]. rewrite (IHa _ eq_refl). cbn [then_]. destruct s; [contradiction| | |]; reflexivity.
    + cbn [TypeExpr.compile] in Hc. destruct (compile params a) as [ta|]; [|discriminate]. cbn [then_] in Hc. destruct (compile params b) as [tb|]; [|discriminate]. injection Hc as <-. cbn [TypeExpr.evaluate]. rewrite (IHa _ eq_refl). cbn [then_ is_truthy]. exact (IHb _ eq_refl).
    + cbn [TypeExpr.compile] in Hc. destruct (compile params a) as [ta|]; [|discriminate]. cbn [then_] in Hc. destruct (compile params b) as [tb|]; [|discriminate]. injection Hc as <-. cbn [TypeExpr.evaluate]. rewrite (IHa _ eq_refl). reflexivity.
    + cbn [TypeExpr.compile] in Hc. destruct (compile params a) as [ta|]; [|discriminate]. cbn [then_] in Hc. destruct (compile params b) as [tb|]; [|discriminate]. injection Hc as <-. cbn [TypeExpr.evaluate]. rewrite (IHa _ eq_refl). cbn [then_ is_truthy]. reflexivity.
    + cbn [TypeExpr.compile] in Hc. destruct (compile params a) as [ta|]; [|discriminate]. cbn [then_] in Hc. destruct (compile params b) as [tb|]; [|discriminate]. injection Hc as <-. cbn [TypeExpr.evaluate]. rewrite (IHa _ eq_refl). cbn [then_]. destruct s; [contradiction| | |]; exact (IHb _ eq_refl).
    + cbn [TypeExpr.compile] in Hc. destruct (compile params a) as [ta|]; [|discriminate]. cbn [then_] in Hc. destruct (compile params b) as [tb|]; [|discriminate]. injection Hc as <-. cbn [TypeExpr.evaluate]. rewrite (IHa _ eq_refl). reflexivity.
    + cbn [TypeExpr.compile] in Hc. destruct (compile params c) as [ct|]; [|discriminate]. cbn [then_] in Hc. destruct (compile params a) as [ta|]; [|discriminate]. cbn [then_] in Hc. destruct (compile params b) as [tb|]; [|discriminate]. injection Hc as <-. cbn [TypeExpr.evaluate]. rewrite (IHc _ eq_refl). cbn [then_]. destruct s; [contradiction| | |]; exact (IHa _ eq_refl).
    + cbn [TypeExpr.compile] in Hc. destruct (compile params c) as [ct|]; [|discriminate]. cbn [then_] in Hc. destruct (compile params a) as [ta|]; [|discriminate]. cbn [then_] in Hc. destruct (compile params b) as [tb|]; [|discriminate]. injection Hc as <-. cbn [TypeExpr.evaluate]. rewrite (IHc _ eq_refl). cbn [then_ is_truthy]. exact (IHb _ eq_refl).
    + cbn [TypeExpr.compile] in Hc. destruct (compile params c) as [ct|]; [|discriminate]. cbn [then_] in Hc. destruct (compile params a) as [ta|]; [|discriminate]. cbn [then_] in Hc. destruct (compile params b) as [tb|]; [|discriminate]. injection Hc as <-. cbn [TypeExpr.evaluate]. rewrite (IHc _ eq_refl). reflexivity.
Qed.

(** ** Which one is taken *)
Definition plain (v : expr F) : Prop := exists path vars, v = Base (MPrefab path vars) [].
Lemma setting_plain path (vars : list (text * expr F)) before : setting t list_type params before (Base (MPrefab path vars) []) =
  match static_type (map snd path) with Good s => (Some (Static s), snd before) | Bad e => (Some (Static SNone), snd before ++ [e]) end.
Proof using Type. reflexivity. Qed.
Lemma setting_other v before : ~ plain v -> setting t list_type params before v = match compile params v with Good e => (Some e, snd before) | Bad e => (fst before, snd before ++ [e]) end.
Proof using Type. intro N. destruct v as [x fs| | |]; try reflexivity. destruct x; try reflexivity. destruct fs; [|reflexivity]. exfalso. apply N. unfold plain. eauto. Qed.
Lemma plain_dec v : plain v \/ ~ plain v.
Proof using Type. unfold plain. destruct v as [x fs| | |]; try (right; intros (p & w & Q); discriminate). destruct x; try (right; intros (p & w & Q); discriminate). destruct fs; [left; eauto|right; intros (p & w & Q); discriminate]. Qed.
Lemma setting_problem v before : (allowed v -> snd (setting t list_type params before v) = snd before) /\ (~ allowed v -> exists p, snd (setting t list_type params before v) = snd before ++ [p]).
Proof using Type.
  pose proof (C68_accepted v) as A. destruct (plain_dec v) as [(path & vars & ->)|N].
  - rewrite setting_plain. cbn [TypeExpr.compile visit_leaf] in A. destruct (static_type (map snd path)) as [s|e].
    + split; [reflexivity|]. intro H. exfalso. apply H. apply A. eexists. reflexivity.
    + split; [|intros _; exists e; reflexivity]. intro H. apply A in H. destruct H as (te & H). discriminate.
  - rewrite (setting_other v before N). destruct (compile params v) as [te|e].
    + split; [reflexivity|]. intro H. exfalso. apply H. apply A. eauto.
    + split; [|intros _; exists e; reflexivity]. intro H. apply A in H. destruct H as (te & H). discriminate.
Qed.

(** C68: a procedure has the type of its declaration unless it is set; the last setting that is a path or accepted counts.  A call then has
    the type that the setting stands for, or none and a problem; an undefined path is a problem of the setting only. *)
Definition counts (v : expr F) : Prop := allowed v \/ plain v.
Theorem C68_return : forall d ss args,
  ((forall v, In v ss -> ~ counts v) ->
     call_type t list_type (fst (return_type t list_type params d ss)) args =
       match d with Some (DInput (Some i)) => (SType i, []) | Some (DPath bits) => match static_type bits with Good s => (s, []) | Bad _ => (SNone, []) end | _ => (SNone, []) end) /\
  (forall a v b, ss = a ++ v :: b -> counts v -> (forall w, In w b -> ~ counts w) ->
     forall s ps, call_type t list_type (fst (return_type t list_type params d ss)) args = (s, ps) <->
       (value t list_type params args v (Good s) /\ ps = []) \/ (exists p, value t list_type params args v (Bad p) /\ s = SNone /\ (allowed v -> ps = [p]) /\ (~ allowed v -> ps = []))) /\
  exists per, snd (return_type t list_type params d ss) = List.concat per /\ Forall2 (fun v l => (allowed v -> l = []) /\ (~ allowed v -> exists p, l = [p])) ss per.
Proof using Type.
  intros d ss args.
  assert (Skip : forall l start, (forall w, In w l -> ~ counts w) -> fst (fold_left (setting t list_type params) l start) = fst start).
  { induction l as [|w l IH]; intros start H; [reflexivity|]. cbn [fold_left]. rewrite IH by (intros; apply H; right; assumption). assert (Nw := H w (or_introl eq_refl)). rewrite setting_other by (intro Q; apply Nw; right; exact Q).
    destruct (compile params w) as [te|e] eqn:E; [|reflexivity]. exfalso. apply Nw. left. apply C68_accepted. eauto. }
  split; [|split].
  - intro H. unfold return_type. rewrite Skip by exact H. cbn [fst]. unfold declared_type. destruct d as [[[i|]|bits]|]; try reflexivity. destruct (static_type bits); reflexivity.
  - intros a v b -> Cv Hb s ps. unfold return_type. rewrite fold_left_app. cbn [fold_left]. rewrite Skip by exact Hb. set (start := fold_left (setting t list_type params) a (declared_type t list_type d, [])). clearbody start.
    destruct (plain_dec v) as [(path & vars & ->)|N].
    + rewrite setting_plain. pose proof (C68_accepted (Base (MPrefab path vars) [])) as A. cbn [TypeExpr.compile visit_leaf] in A.
      assert (Vu : forall r, value t list_type params args (Base (MPrefab path vars) []) r <-> r = static_type (map snd path)).
      { intro r. split; [|intros ->; constructor]. intro Hv. inversion Hv as [|? ?|? ? ? ? ? Hp|? ? ? Hp|? ? ? ? ? Hp|? ? ? Hp| | | | | | | | | |]; subst; try reflexivity; try (inversion Hp; fail). all: inversion Hp as [? ? ? ? ? Hq|]; subst; inversion Hq. }
      destruct (static_type (map snd path)) as [s'|e] eqn:Es; cbn [fst call_type TypeExpr.evaluate].
      * rewrite Vu. split; [intros [= <- <-]; left; auto|]. intros [[Q ->]|(p & Q & _)]; [congruence|]. apply Vu in Q. discriminate.
      * assert (Na : ~ allowed (Base (MPrefab path vars) [])) by (intro H; apply A in H; destruct H as (te & H); discriminate).
        split; [intros [= <- <-]; right; exists e; split; [apply Vu; reflexivity|]; split; [reflexivity|]; split; [intro; contradiction|reflexivity]|]. intros [[Q ->]|(p & Q & -> & _ & H)]; [apply Vu in Q; discriminate|]. rewrite (H Na). reflexivity.
    + rewrite (setting_other v start N). assert (Av : allowed v) by (destruct Cv as [Cv|Cv]; [exact Cv|contradiction]). pose proof (proj2 (C68_accepted v) Av) as (te & E). rewrite E. cbn [fst call_type].
      pose proof (fun r => C68_value args v te r E) as Vu. destruct (evaluate (context_of args) te) as [s'|e].
      * split; [intros [= <- <-]; left; split; [apply Vu; reflexivity|reflexivity]|]. intros [[Q ->]|(p & Q & _)]; apply Vu in Q; congruence.
      * split; [intros [= <- <-]; right; exists e; split; [apply Vu; reflexivity|]; split; [reflexivity|]; split; [reflexivity|intro; contradiction]|]. intros [[Q ->]|(p & Q & -> & H & _)]; apply Vu in Q; [discriminate|]. injection Q as <-. rewrite (H Av). reflexivity.
  - unfold return_type. assert (G : forall l start, exists per, snd (fold_left (setting t list_type params) l start) = snd start ++ List.concat per /\ Forall2 (fun v l => (allowed v -> l = []) /\ (~ allowed v -> exists p, l = [p])) l per).
    { induction l as [|v l IH]; intro start; [exists []; split; [cbn; rewrite app_nil_r; reflexivity|constructor]|]. cbn [fold_left]. destruct (IH (setting t list_type params start v)) as (per & E & H). destruct (setting_problem v start) as [S1 S2].
      assert (Dec : allowed v \/ ~ allowed v). { pose proof (C68_accepted v) as A. destruct (compile params v) as [te|e]; [left; apply A; eauto|right]. intro Q. apply A in Q. destruct Q as (te & Q). discriminate. }
      destruct Dec as [Av|Nv].
      - exists ([] :: per). rewrite E, (S1 Av). split; [reflexivity|]. constructor; [split; [reflexivity|intro; contradiction]|exact H].
      - destruct (S2 Nv) as (p & Ep). exists ([p] :: per). rewrite E, Ep. split; [cbn [List.concat app]; rewrite <- app_assoc; reflexivity|]. constructor; [split; [intro; contradiction|eauto]|exact H]. }
    destruct (G ss (declared_type t list_type d, [])) as (per & E & H). exists per. split; [exact E|exact H].
Qed.
End PARAMS.
End C68.

(** ** An example *)
(** /datum, /datum/a, /list; the procedure has the parameters [kind], [things]. *)
Definition te_ops : list op := [OType 0 "datum"; OType 1 "a"; OType 0 "list"].
Definition te_tree0 : objtree nat nat := match run_ops te_ops (empty_tree nat nat) with Some t => t | None => empty_tree nat nat end.
Definition te_tree : objtree nat nat := match assign_parent_types te_tree0 with Some (t, _) => t | None => te_tree0 end.
Lemma te_finished : finished te_tree [].
Proof.
  exists te_tree0. split.
  - apply (run_ops_built te_ops (empty_tree nat nat)); [constructor|]. unfold te_tree0. destruct (run_ops te_ops (empty_tree nat nat)) as [t|] eqn:E; [reflexivity|]. vm_compute in E. discriminate.
  - unfold te_tree. destruct (assign_parent_types te_tree0) as [[t out]|] eqn:E; [|vm_compute in E; discriminate]. f_equal. f_equal. vm_compute in E. injection E as _ <-. reflexivity.
Qed.
Definition te_params : list text := [lit "kind"; lit "things"].
Definition ident (s : String.string) : expr nat := Base (MIdent (lit s)) [].
Definition under : follow nat := FIndex LNormal (ident "_").
(** [kind || (things[_].type ? /list/datum : null)] *)
Definition te_expr : expr nat :=
  Bin BOr (ident "kind") (Base (MExpr (Tern (Base (MIdent (lit "things")) [under; FField KDot (lit "type")]) (Base (MPrefab [(PathSlash, lit "list"); (PathSlash, lit "datum")] []) []) (Base MNull []))) []).
Definition arg_path (p : list String.string) : analysis := {| a_path := Some (map lit p); a_type := SNone |}.
Definition arg_type (s : sty) : analysis := {| a_path := None; a_type := s |}.
Definition te_call (args : list (option text * analysis)) : sty * list problem := call_type te_tree 3 (fst (return_type te_tree 3 te_params None [te_expr])) args.
Example C68_demo : tree te_tree /\ allowed te_tree 3 te_params te_expr /\
  static_type te_tree 3 (map lit ["static"; "list"; "list"; "datum"; "a"]%string) = Good (SList 3 (SList 3 (SType 2))) /\
  te_call [(None, arg_path ["datum"; "a"]%string)] = (SType 2, []) /\
  te_call [(None, arg_path ["datum"; "b"]%string)] = (SNone, [Undefined (map lit ["datum"; "b"]%string)]) /\
  te_call [(Some (lit "things"), arg_type (SList 3 (SType 1)))] = (SList 3 (SType 1), []) /\
  te_call [(None, arg_type SNone); (None, arg_type (SType 1))] = (SNone, []) /\
  te_call [] = (SNone, []).
Proof. split; [right; exists []; exact te_finished|]. split; [apply C68_accepted; eexists; vm_compute; reflexivity|]. vm_compute. repeat split. Qed.
(** An index without [.type] is accepted and means nothing. *)
Example C68_index_ignored : forall args r, value te_tree 3 te_params args (Base (MIdent (lit "kind")) [under]) r <-> value te_tree 3 te_params args (ident "kind") r.
Proof.
  intros args r. rewrite <- (C68_value nat nat nat te_tree 3 te_params args _ (ParamTypepath (lit "kind") 0 1) r) by (vm_compute; reflexivity). rewrite <- (C68_value nat nat nat te_tree 3 te_params args (ident "kind") (ParamTypepath (lit "kind") 0 0) r) by (vm_compute; reflexivity). reflexivity.
Qed.

Print Assumptions C68_static.
Print Assumptions C68_split.
Print Assumptions C68_accepted.
Print Assumptions C68_value.
Print Assumptions C68_return.
Print Assumptions C68_demo.
Print Assumptions C68_index_ignored.
