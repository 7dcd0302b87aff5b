(** Proofs about the workspace's symbols and the object tree explorer (C76). *)
From Coq Require Import List Arith NArith Bool String Lia Sorted Permutation.
From Verif Require Import Common.Text Objtree.Ispath Objtree.Model Objtree.Lemmas Objtree.Spec Objtree.Wf Objtree.Assign Objtree.Paths Lsp.Explorer Lsp.ExplorerSpec.
From Verif Require Lsp.SymbolSearch.
Import ListNotations.
Open Scope nat_scope.

(** ** Lists *)
Fixpoint enum {A : Type} (j : nat) (l : list A) : list (nat * A) := match l with [] => [] | x :: l' => (j, x) :: enum (S j) l' end.
Lemma enum_combine {A : Type} (l : list A) : forall j, combine (seq j (List.length l)) l = enum j l.
Proof. induction l as [|x l IH]; intro j; [reflexivity|]. cbn [List.length seq combine enum]. rewrite IH. reflexivity. Qed.
Lemma enum_in {A : Type} (l : list A) : forall j k x, In (k, x) (enum j l) <-> exists d, k = j + d /\ nth_error l d = Some x.
Proof.
  induction l as [|y l IH]; intros j k x; cbn [enum In].
  - split; [intros []|]. intros (d & _ & E). destruct d; discriminate E.
  - split.
    + intros [E|E].
      * injection E as <- <-. exists 0. split; [lia|reflexivity].
      * apply IH in E. destruct E as (d & -> & E). exists (S d). split; [lia|exact E].
    + intros (d & -> & E). destruct d as [|d]; cbn [nth_error] in E.
      * left. injection E as ->. f_equal. lia.
      * right. apply IH. exists d. split; [lia|exact E].
Qed.
Lemma enum_at {A : Type} (l : list A) k x : In (k, x) (enum 0 l) <-> nth_error l k = Some x.
Proof. rewrite enum_in. split; [intros (d & -> & E); exact E|]. intro E. exists k. auto. Qed.
Lemma sorted_join {A : Type} (R : A -> A -> Prop) (a b : list A) : StronglySorted R a -> StronglySorted R b -> (forall x y, In x a -> In y b -> R x y) -> StronglySorted R (a ++ b).
Proof.
  intros Ha Hb H. induction a as [|x a IH]; [exact Hb|]. inversion Ha as [|? ? H1 H2]; subst. cbn [app]. constructor; [apply IH; [exact H1|intros; apply H; [right|]; assumption]|].
  apply Forall_forall. intros y Hy. apply in_app_or in Hy. destruct Hy as [Hy|Hy]; [rewrite Forall_forall in H2; auto|apply H; [left; reflexivity|exact Hy]].
Qed.
Lemma sorted_enum {A B : Type} (R : B -> B -> Prop) (f : nat * A -> list B) (l : list A) : forall j,
  (forall e, StronglySorted R (f e)) -> (forall i x i' x' a b, i < i' -> In a (f (i, x)) -> In b (f (i', x')) -> R a b) -> StronglySorted R (flat_map f (enum j l)).
Proof.
  induction l as [|x l IH]; intros j H1 H2; [constructor|]. cbn [enum flat_map]. apply sorted_join; [apply H1|apply IH; assumption|].
  intros a b Ha Hb. apply in_flat_map in Hb. destruct Hb as ([k y] & Hk & Hb). apply enum_in in Hk. destruct Hk as (d & -> & _). eapply (H2 j x (S j + d) y); [lia|exact Ha|exact Hb].
Qed.
Lemma sorted_filter {A : Type} (R : A -> A -> Prop) (f : A -> bool) l : StronglySorted R l -> StronglySorted R (filter f l).
Proof.
  induction 1 as [|x l H1 IH H2]; [constructor|]. cbn [filter]. destruct (f x); [|exact IH]. constructor; [exact IH|]. rewrite Forall_forall in *. intros y Hy. apply filter_In in Hy. apply H2, Hy.
Qed.
Lemma sorted_map {A B : Type} (R : B -> B -> Prop) (f : A -> B) l : StronglySorted (fun a b => R (f a) (f b)) l -> StronglySorted R (map f l).
Proof. induction 1 as [|x l H1 IH H2]; [constructor|]. cbn [map]. constructor; [exact IH|]. rewrite Forall_forall in *. intros y Hy. apply in_map_iff in Hy. destruct Hy as (z & <- & Hz). auto. Qed.

(** ** Sorting *)
Section SORTING.
Variable A : Type.
Variable key : A -> text.
Lemma sort_in_perm x l : Permutation (sort_in key x l) (x :: l).
Proof.
  induction l as [|y l IH]; cbn [sort_in]; [apply Permutation_refl|]. destruct (text_ltb (key y) (key x)); [|apply Permutation_refl].
  eapply perm_trans; [apply perm_skip, IH|apply perm_swap].
Qed.
Lemma sort_perm l : Permutation (sort_by key l) l.
Proof. induction l as [|x l IH]; [apply Permutation_refl|]. cbn [sort_by]. eapply perm_trans; [apply sort_in_perm|apply perm_skip, IH]. Qed.
Definition le (a b : A) : Prop := key a = key b \/ before (key a) (key b).
Lemma le_trans a b c : le a b -> le b c -> le a c.
Proof.
  unfold le. intros [E|H1] [E'|H2]; [left; congruence|rewrite E; auto|rewrite <- E'; auto|]. right. apply before_tlt. apply before_tlt in H1, H2. eapply tlt_trans; eassumption.
Qed.
Lemma le_cases x y : text_ltb (key y) (key x) = false -> le x y.
Proof. intro H. unfold le. destruct (text_eqb_spec (key x) (key y)) as [E|N]; [auto|right]. apply before_tlt. apply (tlt_total (key y) (key x)); [congruence|exact H]. Qed.
Lemma sort_in_sorted x l : by_name key l -> by_name key (sort_in key x l).
Proof.
  unfold by_name. induction l as [|y l IH]; intro H; cbn [sort_in]; [repeat constructor|]. inversion H as [|? ? H1 H2]; subst. destruct (text_ltb (key y) (key x)) eqn:E.
  - constructor; [apply IH, H1|]. apply Forall_forall. intros z Hz. apply (Permutation_in _ (sort_in_perm x l)) in Hz. destruct Hz as [<-|Hz]; [right; apply before_tlt; exact E|]. rewrite Forall_forall in H2. apply H2, Hz.
  - constructor; [exact H|]. pose proof (le_cases x y E) as Q. constructor; [exact Q|]. rewrite Forall_forall in *. intros z Hz. exact (le_trans x y z Q (H2 z Hz)).
Qed.
Lemma sort_sorted l : by_name key (sort_by key l).
Proof. induction l as [|x l IH]; [constructor|]. cbn [sort_by]. apply sort_in_sorted, IH. Qed.
(** stable *)
Lemma sort_in_stable (Q : A -> A -> Prop) x l : Forall (fun y => key x = key y -> Q x y) l -> ForallOrdPairs (fun a b => key a = key b -> Q a b) l ->
  ForallOrdPairs (fun a b => key a = key b -> Q a b) (sort_in key x l).
Proof.
  induction l as [|y l IH]; intros H1 H2; cbn [sort_in]; [repeat constructor|]. inversion H1 as [|? ? H3 H4]; subst. inversion H2 as [|? ? H5 H6]; subst. destruct (text_ltb (key y) (key x)) eqn:E.
  - constructor; [|apply IH; assumption]. apply Forall_forall. intros z Hz. apply (Permutation_in _ (sort_in_perm x l)) in Hz. destruct Hz as [<-|Hz]; [|rewrite Forall_forall in H5; apply H5, Hz].
    intro K. exfalso. rewrite K in E. exact (tlt_irrefl _ E).
  - constructor; [exact H1|exact H2].
Qed.
Lemma sort_stable (Q : A -> A -> Prop) l : ForallOrdPairs (fun a b => key a = key b -> Q a b) l -> ForallOrdPairs (fun a b => key a = key b -> Q a b) (sort_by key l).
Proof.
  induction 1 as [|x l H1 H2 IH]; [constructor|]. cbn [sort_by]. apply sort_in_stable; [|exact IH]. rewrite Forall_forall in *. intros y Hy. apply H1. apply (Permutation_in _ (sort_perm l)), Hy.
Qed.
End SORTING.
Lemma sort_in_map {A B : Type} (key : B -> text) (f : A -> B) x l : map f (sort_in (fun a => key (f a)) x l) = sort_in key (f x) (map f l).
Proof. induction l as [|y l IH]; [reflexivity|]. cbn [sort_in map]. destruct (text_ltb (key (f y)) (key (f x))); cbn [map]; [rewrite IH|]; reflexivity. Qed.
Lemma sort_map {A B : Type} (key : B -> text) (f : A -> B) l : map f (sort_by (fun a => key (f a)) l) = sort_by key (map f l).
Proof. induction l as [|x l IH]; [reflexivity|]. cbn [sort_by map]. rewrite sort_in_map, IH. reflexivity. Qed.
Lemma sort_keyed {A : Type} (key : A -> text) l : by_name key l -> sort_by key l = l.
Proof.
  unfold by_name. induction 1 as [|x l H1 IH H2]; [reflexivity|]. cbn [sort_by]. rewrite IH. destruct l as [|y l]; [reflexivity|]. cbn [sort_in]. inversion H2 as [|? ? H3 _]; subst.
  destruct (text_ltb (key y) (key x)) eqn:E; [|reflexivity]. exfalso. destruct H3 as [Q|Q]; [rewrite Q in E; exact (tlt_irrefl _ E)|]. apply before_tlt in Q. exact (tlt_irrefl _ (tlt_trans _ _ _ Q E)).
Qed.

Section EXPLORER.
Variables V D Loc Doc Url : Type.
Variables (lower : chr -> list chr) (alphanumeric : chr -> bool) (str_lower : text -> text).
Variable t : objtree V D.
Variable type_site : nat -> Loc * Doc.
Variable value_site : V -> Loc * Doc.
Variable decl_loc : D -> Loc.
Variable is_verb : D -> bool.
Variable vars : nat -> list (text * tvar Loc Doc).
Variable builtin : Loc -> bool.
Variable hash : Doc -> option text.
Variable parse_url : text -> option Url.
Variable file_url : Loc -> option Url.
Notation convert := (convert_location Loc Doc Url builtin hash parse_url file_url).
Notation shown_at := (shown_at Loc Doc Url builtin hash parse_url file_url).
Notation wsym := (workspace_symbol V D Loc Doc Url lower alphanumeric str_lower t type_site value_site decl_loc vars).
Notation visit_d := (visit_define Loc Doc Url lower alphanumeric builtin hash parse_url file_url).
Notation visit_v := (visit_var V D Loc Doc Url lower alphanumeric builtin hash parse_url file_url).
Notation visit_p := (visit_proc V D Loc Doc Url lower alphanumeric value_site decl_loc builtin hash parse_url file_url).
Notation visit_t := (visit_type V D Loc Doc Url lower alphanumeric str_lower t type_site value_site decl_loc vars builtin hash parse_url file_url).
Notation about := (about Loc Doc).
Notation mk := (Build_about Loc Doc).
Notation symbol_is := (symbol_is V D Loc Doc t type_site value_site decl_loc vars).
Notation sent := (sent Loc Doc Url builtin hash parse_url file_url).
Notation push := (push Loc Url).

(** ** Places *)
Lemma convert_shown loc docs l : shown_at loc docs (List.concat l) (convert loc docs l).
Proof.
  unfold ExplorerSpec.shown_at, convert_location, placed, reference. destruct (builtin loc).
  - destruct (parse_url _) as [u|] eqn:E; [split; [reflexivity|auto]|]. intros u [[_ Q]|[Q _]]; [congruence|discriminate].
  - destruct (file_url loc) as [u|] eqn:E; [split; [reflexivity|auto]|]. intros u [[Q _]|[_ Q]]; [discriminate|congruence].
Qed.
Lemma shown_convert loc docs l path : path = List.concat l -> shown_at loc docs path (convert loc docs l).
Proof. intros ->. apply convert_shown. Qed.
Lemma convert_one loc docs l : convert loc docs [List.concat l] = convert loc docs l.
Proof. unfold convert_location. cbn [List.concat]. rewrite app_nil_r. reflexivity. Qed.

(** ** Names *)
Section TREE.
Hypothesis W : wf V D t.
Notation at_n i := (nth_error (graph t) i).
Lemma node_path i n cs : at_n i = Some n -> at_ t i cs -> n_path n = render cs.
Proof using Type. intros H (_ & m & Hm & P). rewrite H in Hm. injection Hm as <-. exact P. Qed.
Lemma last_slash_at i n cs x : at_n i = Some n -> at_ t i (cs ++ [x]) -> last_slash V D t n = List.length (render cs) /\ n_path n = render cs ++ SLASH :: x.
Proof using W.
  intros H A. pose proof (node_path i n _ H A) as P. rewrite render_snoc in P. split; [|exact P]. unfold last_slash.
  assert (N0 : i <> 0) by (intros ->; pose proof (proj2 (path_root V D t W 0 n H) eq_refl) as Q; rewrite P in Q; destruct (render cs); discriminate Q).
  destruct (wf_node V D t W i n H N0) as (p & m & y & -> & _ & Hm & Hy & Pm & _). unfold node_at. rewrite Hm. rewrite P in Pm. destruct A as (Hc & _).
  apply snoc_unique in Pm; [|apply Hc, in_or_app; right; left; reflexivity|exact Hy]. destruct Pm as [-> _]. reflexivity.
Qed.
Lemma is_root_at i n cs : at_n i = Some n -> at_ t i cs -> (is_root V D n = true <-> cs = []).
Proof using Type.
  intros H A. pose proof (node_path i n cs H A) as P. unfold is_root. rewrite P, <- (render_nil cs). destruct (render cs); split; intro Q; try reflexivity; discriminate Q.
Qed.
Lemma name_at i n cs x : at_n i = Some n -> at_ t i (cs ++ [x]) -> name_of V D t n = x /\ parent_path_str V D t n = render cs.
Proof using W.
  intros H A. destruct (last_slash_at i n cs x H A) as [E P]. unfold name_of, parent_path_str. rewrite E, P. split.
  - replace (is_root V D n) with false.
    + change (S (List.length (render cs))) with (1 + List.length (render cs)). rewrite Nat.add_comm. replace (render cs ++ SLASH :: x) with ((render cs ++ [SLASH]) ++ x) by (rewrite <- app_assoc; reflexivity).
      replace (List.length (render cs) + 1) with (List.length (render cs ++ [SLASH])) by (rewrite app_length; reflexivity). rewrite skipn_app, skipn_all, Nat.sub_diag. reflexivity.
    + symmetry. apply not_true_iff_false. intro Q. apply (is_root_at i n _ H A) in Q. destruct cs; discriminate Q.
  - rewrite firstn_app, Nat.sub_diag, firstn_all, app_nil_r. reflexivity.
Qed.
Lemma last_name_at i n cs : at_n i = Some n -> at_ t i cs -> last_name cs (name_of V D t n).
Proof using W.
  intros H A. destruct cs as [|x cs _] using rev_ind.
  - left. split; [reflexivity|]. unfold name_of. rewrite (proj2 (is_root_at i n [] H A) eq_refl). reflexivity.
  - right. exists cs. rewrite (proj1 (name_at i n cs x H A)). reflexivity.
Qed.
Lemma constructor_iff name : is_constructor_name name = true <-> In name constructor_names.
Proof using Type.
  unfold is_constructor_name, constructor_names. rewrite !orb_true_iff, !text_eqb_eq. cbn [map In]. split; [intros [[->| ->]| ->]|intros [<-|[<-|[<-|[]]]]]; auto.
Qed.
Lemma icon_iff i n cs name ic : at_n i = Some n -> at_ t i cs -> (right_icon cs name ic <-> ic = proc_icon V D n name).
Proof using Type.
  intros H A. pose proof (is_root_at i n cs H A) as R. pose proof (constructor_iff name) as C. unfold proc_icon. destruct (is_root V D n).
  - assert (cs = []) as -> by (apply R; reflexivity). split; [intro Q; destruct Q as [|N|N]; [reflexivity|congruence|congruence]|intros ->; constructor; reflexivity].
  - assert (N : cs <> []) by (intro Q; apply R in Q; discriminate Q). destruct (is_constructor_name name).
    + split; [intro Q; destruct Q as [|_ _|_ K]; [congruence|reflexivity|destruct K; apply C; reflexivity]|intros ->; constructor; [exact N|apply C; reflexivity]].
    + split; [intro Q; destruct Q as [|_ K|_ _]; [congruence|apply C in K; discriminate K|reflexivity]|intros ->; constructor; [exact N|intro K; apply C in K; discriminate K]].
Qed.

(** ** The symbols, with what they are about *)
Definition macro_about (e : nat * (Loc * text * Doc)) : list (subject * about) :=
  let '(k, (loc, name, docs)) := e in
  [(SMacro k, mk SymbolSearch.KDefine name name IConstant loc docs (lit "/DM/preprocessor/" ++ name) None)].
Definition type_about (e : nat * node V D) : list (subject * about) :=
  let '(i, n) := e in
  if is_root V D n then []
  else [(SType i, mk SymbolSearch.KType (name_of V D t n) (n_path n) IClass (fst (type_site i)) (snd (type_site i)) (n_path n) (Some (parent_path_str V D t n)))].
Definition var_about (i : nat) (n : node V D) (e : nat * (text * tvar Loc Doc)) : list (subject * about) :=
  let '(j, (name, tv)) := e in
  match v_decl tv with
  | Some (loc, _) => [(SVar i j, mk SymbolSearch.KVar name (n_path n) IField loc (snd (v_site tv)) (n_path n ++ lit "/var/" ++ name) (Some (n_path n)))]
  | None => []
  end.
Definition proc_about (i : nat) (n : node V D) (e : nat * (text * type_proc V D)) : list (subject * about) :=
  let '(j, (name, p)) := e in
  match p_decl p, rev (p_values p) with
  | Some d, v :: _ => [(SProc i j, mk SymbolSearch.KProc name (n_path n) (proc_icon V D n name) (decl_loc d) (snd (value_site v)) (n_path n ++ lit "/proc/" ++ name) (Some (n_path n)))]
  | _, _ => []
  end.
Definition of_type (e : nat * node V D) : list (subject * about) :=
  type_about e ++ flat_map (var_about (fst e) (snd e)) (enum 0 (vars (fst e))) ++ flat_map (proc_about (fst e) (snd e)) (enum 0 (n_procs (snd e))).
Definition all_symbols (macros : list (Loc * text * Doc)) : list (subject * about) :=
  flat_map macro_about (enum 0 macros) ++ flat_map of_type (enum 0 (graph t)).

(** every procedure has a value *)
Definition valued : Prop := forall i n e, at_n i = Some n -> In e (n_procs n) -> p_values (snd e) <> [].
Lemma all_symbols_in macros s a : valued -> (In (s, a) (all_symbols macros) <-> symbol_is macros s a).
Proof using W.
  intro Hv. unfold all_symbols. rewrite in_app_iff, !in_flat_map. split.
  - intros [([k [[loc name] docs]] & Hk & [E|[]])|([i n] & Hi & H)].
    + injection E as <- <-. apply enum_at in Hk. constructor. exact Hk.
    + apply enum_at in Hi. destruct (at_some V D t W i n Hi) as (cs & A). pose proof (node_path i n cs Hi A) as P. unfold of_type in H. cbn [fst snd] in H. rewrite !in_app_iff, !in_flat_map in H.
      destruct H as [H|[([j [name tv]] & Hj & H)|([j [name p]] & Hj & H)]].
      * unfold type_about in H. pose proof (is_root_at i n cs Hi A) as R. destruct (is_root V D n); [destruct H|]. destruct H as [E|[]]. injection E as <- <-.
        destruct cs as [|x cs _] using rev_ind; [assert (false = true) by (apply R; reflexivity); discriminate|]. destruct (name_at i n cs x Hi A) as [-> ->]. rewrite P. constructor; [exact A|]. destruct (type_site i); reflexivity.
      * apply enum_at in Hj. unfold var_about in H. destruct (v_decl tv) as [[loc c]|] eqn:Ed; [|destruct H]. destruct H as [E|[]]. injection E as <- <-. rewrite P. econstructor; eassumption.
      * apply enum_at in Hj. unfold proc_about in H. destruct (p_decl p) as [d|] eqn:Ed; [|destruct H]. destruct (rev (p_values p)) as [|v r] eqn:Er; [destruct H|]. destruct H as [E|[]]. injection E as <- <-. rewrite P.
        assert (Ev : p_values p = rev r ++ [v]) by (rewrite <- (rev_involutive (p_values p)), Er; reflexivity). econstructor; try eassumption. apply (icon_iff i n cs name _ Hi A). reflexivity.
  - intro H. destruct H as [k loc name docs E|i cs x loc docs A E|i cs j name tv loc c A Ej Ed|i cs n j name p d vs v ic A Hn Ej Ed Ev Ic].
    + left. exists (k, (loc, name, docs)). split; [apply enum_at; exact E|]. left. reflexivity.
    + right. pose proof A as (_ & n & Hn & P). exists (i, n). split; [apply enum_at; exact Hn|]. unfold of_type. apply in_or_app. left. unfold type_about.
      pose proof (is_root_at i n _ Hn A) as R. destruct (is_root V D n); [pose proof (proj1 R eq_refl) as Q; destruct cs; discriminate Q|]. destruct (name_at i n cs x Hn A) as [-> ->]. rewrite P, E. left. reflexivity.
    + right. pose proof A as (_ & n & Hn & P). exists (i, n). split; [apply enum_at; exact Hn|]. unfold of_type. apply in_or_app. right. apply in_or_app. left. apply in_flat_map. exists (j, (name, tv)). split; [apply enum_at; exact Ej|].
      cbn [fst snd]. unfold var_about. rewrite Ed, P. left. reflexivity.
    + right. pose proof (node_path i n cs Hn A) as P. exists (i, n). split; [apply enum_at; exact Hn|]. unfold of_type. apply in_or_app. right. apply in_or_app. right. apply in_flat_map. exists (j, (name, p)). split; [apply enum_at; exact Ej|].
      cbn [fst snd]. unfold proc_about. rewrite Ed, Ev, rev_app_distr, P. cbn [rev app]. apply (icon_iff i n cs name _ Hn A) in Ic. subst ic. left. reflexivity.
Qed.
Definition sooner2 (a b : subject * about) : Prop := sooner (fst a) (fst b).
Lemma var_subjects i n l s a : In (s, a) (flat_map (var_about i n) l) -> exists j x, In (j, x) l /\ s = SVar i j.
Proof using Type.
  rewrite in_flat_map. intros ([j [name tv]] & Hj & H). unfold var_about in H. destruct (v_decl tv) as [[loc c]|]; [|destruct H]. destruct H as [E|[]]. injection E as <- _. eauto.
Qed.
Lemma proc_subjects i n l s a : In (s, a) (flat_map (proc_about i n) l) -> exists j x, In (j, x) l /\ s = SProc i j.
Proof using Type.
  rewrite in_flat_map. intros ([j [name p]] & Hj & H). unfold proc_about in H. destruct (p_decl p) as [d|]; [|destruct H]. destruct (rev (p_values p)) as [|v r]; [destruct H|]. destruct H as [E|[]]. injection E as <- _. eauto.
Qed.
Lemma of_type_subjects i n s a : In (s, a) (of_type (i, n)) -> s = SType i \/ (exists j, s = SVar i j) \/ (exists j, s = SProc i j).
Proof using Type.
  unfold of_type. cbn [fst snd]. rewrite !in_app_iff. intros [H|[H|H]].
  - unfold type_about in H. destruct (is_root V D n); [destruct H|]. destruct H as [E|[]]. injection E as <- _. auto.
  - apply var_subjects in H. destruct H as (j & x & _ & ->). eauto.
  - apply proc_subjects in H. destruct H as (j & x & _ & ->). eauto.
Qed.
Lemma all_symbols_sorted macros : StronglySorted sooner2 (all_symbols macros).
Proof using Type.
  unfold all_symbols. apply sorted_join.
  - apply sorted_enum; [intros [k [[loc name] docs]]; repeat constructor|]. intros i [[l1 n1] d1] i' [[l2 n2] d2] a b L [<-|[]] [<-|[]]. exact L.
  - apply sorted_enum.
    + intros [i n]. unfold of_type. cbn [fst snd]. apply sorted_join; [unfold type_about; destruct (is_root V D n); repeat constructor|apply sorted_join|].
      * apply sorted_enum; [intros [j [name tv]]; unfold var_about; destruct (v_decl tv) as [[loc c]|]; repeat constructor|].
        intros j x j' x' [s a] [s' a'] L Ha Hb. assert (Qa : In (s, a) (flat_map (var_about i n) [(j, x)])) by (cbn [flat_map]; rewrite app_nil_r; exact Ha).
        assert (Qb : In (s', a') (flat_map (var_about i n) [(j', x')])) by (cbn [flat_map]; rewrite app_nil_r; exact Hb).
        apply var_subjects in Qa, Qb. destruct Qa as (? & ? & [E|[]] & ->), Qb as (? & ? & [E'|[]] & ->). injection E as <- _. injection E' as <- _. unfold sooner2. cbn. auto.
      * apply sorted_enum; [intros [j [name p]]; unfold proc_about; destruct (p_decl p); [destruct (rev (p_values p))|]; repeat constructor|].
        intros j x j' x' [s a] [s' a'] L Ha Hb. assert (Qa : In (s, a) (flat_map (proc_about i n) [(j, x)])) by (cbn [flat_map]; rewrite app_nil_r; exact Ha).
        assert (Qb : In (s', a') (flat_map (proc_about i n) [(j', x')])) by (cbn [flat_map]; rewrite app_nil_r; exact Hb).
        apply proc_subjects in Qa, Qb. destruct Qa as (? & ? & [E|[]] & ->), Qb as (? & ? & [E'|[]] & ->). injection E as <- _. injection E' as <- _. unfold sooner2. cbn. auto.
      * intros [s a] [s' a'] Ha Hb. apply var_subjects in Ha. apply proc_subjects in Hb. destruct Ha as (j & x & _ & ->), Hb as (j' & x' & _ & ->). unfold sooner2. cbn. lia.
      * intros [s a] [s' a'] Ha Hb. unfold type_about in Ha. destruct (is_root V D n); [destruct Ha|]. destruct Ha as [E|[]]. injection E as <- _. apply in_app_or in Hb. destruct Hb as [Hb|Hb]; [apply var_subjects in Hb|apply proc_subjects in Hb]; destruct Hb as (j & x & _ & ->); unfold sooner2; cbn; lia.
    + intros i n i' n' [s a] [s' a'] L Ha Hb. apply of_type_subjects in Ha, Hb. unfold sooner2. cbn [fst].
      destruct Ha as [->|[(j & ->)|(j & ->)]], Hb as [->|[(j' & ->)|(j' & ->)]]; cbn; lia.
  - intros [s a] [s' a'] Ha Hb. apply in_flat_map in Ha, Hb. destruct Ha as ([k [[loc name] docs]] & _ & [E|[]]), Hb as ([i n] & _ & Hb). injection E as <- _. apply of_type_subjects in Hb. unfold sooner2. cbn [fst].
    destruct Hb as [->|[(j' & ->)|(j' & ->)]]; exact I.
Qed.

(** ** The loops *)
Notation finds := (SymbolSearch.finds lower alphanumeric str_lower).
Definition wantb (q : SymbolSearch.query) (e : subject * about) : bool :=
  finds q (a_kind _ _ (snd e)) (a_name _ _ (snd e)) (a_path _ _ (snd e)).
Definition push_about (r : outcome (list (symbol Loc Url))) (e : subject * about) : outcome (list (symbol Loc Url)) :=
  push r (a_name _ _ (snd e)) (a_icon _ _ (snd e)) (convert (a_loc _ _ (snd e)) (a_docs _ _ (snd e)) [a_ref _ _ (snd e)]) (a_in _ _ (snd e)).
Lemma fold_pieces {A : Type} (f : outcome (list (symbol Loc Url)) -> A -> outcome (list (symbol Loc Url))) (g : nat * A -> list (subject * about)) q (l : list A) : forall j r,
  (forall r j x, In x l -> f r x = fold_left push_about (filter (wantb q) (g (j, x))) r) -> fold_left f l r = fold_left push_about (filter (wantb q) (flat_map g (enum j l))) r.
Proof using Type.
  induction l as [|x l IH]; intros j r H; [reflexivity|]. cbn [fold_left enum flat_map]. rewrite filter_app, fold_left_app, <- (H r j x (or_introl eq_refl)). apply IH. intros r' j' x' Hx. apply H. right. exact Hx.
Qed.
Lemma defines_loop q macros r : fold_left (visit_d q) macros r = fold_left push_about (filter (wantb q) (flat_map macro_about (enum 0 macros))) r.
Proof using Type.
  apply fold_pieces. intros r' j [[loc name] docs] _. unfold macro_about, visit_define. cbn [filter]. change (wantb q (SMacro j, mk SymbolSearch.KDefine name name IConstant loc docs (lit "/DM/preprocessor/" ++ name) None)) with (SymbolSearch.matches_define lower alphanumeric q name).
  destruct (SymbolSearch.matches_define lower alphanumeric q name); [|reflexivity]. cbn [fold_left]. unfold push_about. cbn [snd a_name a_icon a_loc a_docs a_ref a_in].
  rewrite <- (convert_one loc docs [lit "/DM/preprocessor/"; name]). cbn [List.concat]. rewrite app_nil_r. reflexivity.
Qed.
Lemma filter_none {A : Type} (f : A -> bool) l : (forall x, In x l -> f x = false) -> filter f l = [].
Proof using Type. induction l as [|x l IH]; intro H; [reflexivity|]. cbn [filter]. rewrite (H x (or_introl eq_refl)). apply IH. intros y Hy. apply H. right. exact Hy. Qed.
Lemma vars_loop q i n r : SymbolSearch.matches_on_type q = true ->
  fold_left (visit_v q n) (vars i) r = fold_left push_about (filter (wantb q) (flat_map (var_about i n) (enum 0 (vars i)))) r.
Proof using Type.
  intro M. apply fold_pieces. intros r' j [name tv] _. unfold var_about, visit_var. destruct (v_decl tv) as [[loc c]|]; [|reflexivity]. cbn [filter]. unfold wantb. cbn [snd a_kind a_name a_path SymbolSearch.finds]. rewrite M. cbn [andb].
  destruct (SymbolSearch.matches_var lower alphanumeric q name); [|reflexivity]. cbn [fold_left]. unfold push_about. cbn [snd a_name a_icon a_loc a_docs a_ref a_in].
  rewrite <- (convert_one loc (snd (v_site tv)) [n_path n; lit "/var/"; name]). cbn [List.concat]. rewrite app_nil_r. reflexivity.
Qed.
Lemma procs_loop q i n r : at_n i = Some n -> valued -> SymbolSearch.matches_on_type q = true ->
  fold_left (visit_p q n) (n_procs n) r = fold_left push_about (filter (wantb q) (flat_map (proc_about i n) (enum 0 (n_procs n)))) r.
Proof using Type.
  intros Hn Hv M. apply fold_pieces. intros r' j [name p] Hp. pose proof (Hv i n _ Hn Hp) as Q. cbn [snd] in Q. unfold proc_about, visit_proc. destruct (p_decl p) as [d|]; [|reflexivity].
  destruct (rev (p_values p)) as [|v vs] eqn:Er; [destruct Q; rewrite <- (rev_involutive (p_values p)), Er; reflexivity|]. cbn [filter]. unfold wantb. cbn [snd a_kind a_name a_path SymbolSearch.finds]. rewrite M. cbn [andb].
  destruct (SymbolSearch.matches_proc lower alphanumeric q name); [|reflexivity]. cbn [fold_left]. unfold push_about. cbn [snd a_name a_icon a_loc a_docs a_ref a_in].
  rewrite <- (convert_one (decl_loc d) (snd (value_site v)) [n_path n; lit "/proc/"; name]). cbn [List.concat]. rewrite app_nil_r. destruct r'; reflexivity.
Qed.
Lemma types_loop q r : valued -> fold_left (visit_t q) (iter_types V D t) r = fold_left push_about (filter (wantb q) (flat_map of_type (enum 0 (graph t)))) r.
Proof using Type.
  intro Hv. unfold iter_types. rewrite enum_combine. assert (G : forall e, In e (enum 0 (graph t)) -> at_n (fst e) = Some (snd e)) by (intros [i n] H; apply enum_at; exact H).
  revert r G. generalize (enum 0 (graph t)). induction l as [|[i n] l IH]; intros r G; [reflexivity|]. pose proof (G _ (or_introl eq_refl)) as Hn. cbn [fst snd] in Hn. cbn [fold_left flat_map]. rewrite filter_app, fold_left_app, IH; [|intros; apply G; right; assumption]. f_equal.
  unfold visit_type, of_type. cbn [fst snd]. rewrite !filter_app, !fold_left_app.
  assert (E1 : (if SymbolSearch.matches_type lower alphanumeric str_lower q (name_of V D t n) (n_path n) && negb (is_root V D n)
      then push r (name_of V D t n) IClass (convert (fst (type_site i)) (snd (type_site i)) [n_path n]) (Some (parent_path_str V D t n)) else r) =
      fold_left push_about (filter (wantb q) (type_about (i, n))) r).
  { unfold type_about. destruct (is_root V D n); [rewrite andb_false_r; reflexivity|]. rewrite andb_true_r. cbn [filter]. unfold wantb. cbn [snd a_kind a_name a_path SymbolSearch.finds].
    destruct (SymbolSearch.matches_type lower alphanumeric str_lower q (name_of V D t n) (n_path n)); reflexivity. }
  rewrite E1. destruct (SymbolSearch.matches_on_type q) eqn:M; cbn [negb].
  - rewrite (vars_loop q i n _ M), (procs_loop q i n _ Hn Hv M). reflexivity.
  - rewrite (filter_none (wantb q) (flat_map (var_about i n) _)), (filter_none (wantb q) (flat_map (proc_about i n) _)); [reflexivity| |].
    + intros [s a] H. apply in_flat_map in H. destruct H as ([j [name p]] & _ & H). unfold proc_about in H. destruct (p_decl p) as [d|]; [|destruct H]. destruct (rev (p_values p)) as [|v vs]; [destruct H|]. destruct H as [E|[]]. injection E as _ <-. unfold wantb. cbn [snd a_kind a_name a_path SymbolSearch.finds]. rewrite M. reflexivity.
    + intros [s a] H. apply in_flat_map in H. destruct H as ([j [name tv]] & _ & H). unfold var_about in H. destruct (v_decl tv) as [[loc c]|]; [|destruct H]. destruct H as [E|[]]. injection E as _ <-. unfold wantb. cbn [snd a_kind a_name a_path SymbolSearch.finds]. rewrite M. reflexivity.
Qed.
Lemma push_refused l : fold_left push_about l Refused = Refused.
Proof using Type. induction l as [|e l IH]; [reflexivity|exact IH]. Qed.
Lemma push_all l : forall acc,
  (exists out, fold_left push_about l (Done acc) = Done (acc ++ out) /\ Forall2 (fun e => sent (snd e)) l out) \/
  (fold_left push_about l (Done acc) = Refused /\ exists e, In e l /\ shown_at (a_loc _ _ (snd e)) (a_docs _ _ (snd e)) (a_ref _ _ (snd e)) None).
Proof using Type.
  induction l as [|[s a] l IH]; intro acc; [left; exists []; rewrite app_nil_r; split; [reflexivity|constructor]|]. cbn [fold_left].
  pose proof (shown_convert (a_loc _ _ a) (a_docs _ _ a) [a_ref _ _ a] (a_ref _ _ a) (eq_sym (app_nil_r _))) as S. unfold push_about at 2 4. cbn [snd]. unfold Explorer.push. destruct (convert _ _ _) as [p|].
  - match goal with |- context [fold_left push_about l (Done ?x)] => destruct (IH x) as [(out & -> & F)|(-> & e & He & H)] end.
    + left. eexists. rewrite <- app_assoc. split; [reflexivity|]. cbn [app]. constructor; [|exact F]. unfold ExplorerSpec.sent. cbn [s_name s_icon s_in s_place snd]. auto.
    + right. split; [reflexivity|]. exists e. split; [right; exact He|exact H].
  - right. rewrite push_refused. split; [reflexivity|]. exists (s, a). split; [left; reflexivity|exact S].
Qed.
End TREE.

(** ** The search for symbols *)
Lemma sooner_irrefl s : ~ sooner s s.
Proof using Type. destruct s; cbn; lia. Qed.
Notation wanted := (wanted Loc Doc lower alphanumeric str_lower).
Notation rejected := (rejected lower alphanumeric).
Theorem symbols defines q ks q' by_path : wf V D t -> valued -> SymbolSearch.meaning q ks q' by_path ->
  let macros := match defines with Some l => l | None => [] end in
  let answer := wsym defines builtin hash parse_url file_url q in
  (rejected ks q q' by_path -> answer = Done None) /\
  (~ rejected ks q q' by_path ->
   exists subjects abouts, StronglySorted sooner subjects /\
     (forall s, In s subjects <-> exists a, symbol_is macros s a /\ wanted ks q' by_path a) /\
     Forall2 (fun s a => symbol_is macros s a /\ wanted ks q' by_path a) subjects abouts /\
     ((exists l, answer = Done (Some l) /\ Forall2 sent abouts l) \/
      (answer = Refused /\ exists a, In a abouts /\ forall u, ~ placed Loc Doc Url builtin hash parse_url file_url (a_loc _ _ a) (a_docs _ _ a) (a_ref _ _ a) u))).
Proof using Type.
  intros W Hv M. cbv zeta. set (macros := match defines with Some l => l | None => [] end). destruct (SymbolSearch.C30_queries lower alphanumeric str_lower q) as [_ G]. destruct (G ks q' by_path M) as [G1 G2].
  unfold workspace_symbol. destruct (SymbolSearch.parse lower alphanumeric str_lower q) as [pq|].
  - split; [intro R; exfalso; assert (Q : Some pq = None) by (apply G1; exact R); discriminate Q|]. intros _.
    assert (Hw : forall e, wantb pq e = true <-> wanted ks q' by_path (snd e)) by (intros [s a]; exact (G2 pq _ _ _ eq_refl)). clear G1 G2 G.
    set (l := filter (wantb pq) (all_symbols macros)). exists (map fst l), (map snd l).
    assert (Hl : forall s a, In (s, a) l <-> symbol_is macros s a /\ wanted ks q' by_path a) by (intros s a; unfold l; rewrite filter_In, (all_symbols_in W macros s a Hv), (Hw (s, a)); reflexivity).
    split; [apply sorted_map; apply sorted_filter; apply all_symbols_sorted|]. split; [|split].
    + intro s. rewrite in_map_iff. split; [intros ([s' a] & <- & H); exists a; apply Hl; exact H|]. intros (a & H). exists (s, a). split; [reflexivity|]. apply Hl. exact H.
    + assert (K : forall e, In e l -> symbol_is macros (fst e) (snd e) /\ wanted ks q' by_path (snd e)) by (intros [s a] H; apply Hl; exact H). clearbody l. clear - K. induction l as [|e l IH]; [constructor|]. cbn [map]. constructor; [apply K; left; reflexivity|]. apply IH. intros; apply K; right; assumption.
    + assert (E : fold_left (visit_t pq) (iter_types V D t) (match defines with Some l => fold_left (visit_d pq) l (Done []) | None => Done [] end) = fold_left push_about l (Done [])).
      { rewrite (types_loop pq _ Hv). unfold l, all_symbols. rewrite filter_app, fold_left_app. f_equal. unfold macros. destruct defines as [d|]; [apply defines_loop|reflexivity]. }
      rewrite E. destruct (push_all l []) as [(out & -> & F)|(-> & [s a] & He & H)].
      * left. exists out. split; [reflexivity|]. clear - F. induction F; constructor; auto.
      * right. split; [reflexivity|]. exists a. split; [apply in_map_iff; exists (s, a); auto|]. exact H.
  - split; [reflexivity|]. intro N. destruct N. apply G1. reflexivity.
Qed.

(** ** The explorer *)
Notation stub := (objtree_stub V D Loc Doc Url t type_site vars builtin hash parse_url file_url).
Notation row_v := (var_row V D Loc Doc Url builtin hash parse_url file_url).
Notation rows_p := (proc_rows V D Loc Doc Url value_site is_verb builtin hash parse_url file_url).
Notation rows_val := (value_rows V D Loc Doc Url value_site builtin hash parse_url file_url).
Notation base := (objtree_with_vars_and_procs V D Loc Doc Url t type_site value_site is_verb vars builtin hash parse_url file_url).
Notation recursed := (objtree_recurse V D Loc Doc Url t type_site value_site is_verb vars builtin hash parse_url file_url).
Notation holders := (objtree_with_placeholders V D Loc Doc Url t type_site value_site is_verb vars builtin hash parse_url file_url).
Notation heading := (heading V D Loc Doc Url t type_site vars builtin hash parse_url file_url).
Notation var_shown := (var_shown Loc Doc Url vars builtin hash parse_url file_url).
Notation proc_shown := (proc_shown V D Loc Doc Url t value_site is_verb builtin hash parse_url file_url).
Notation vars_shown := (vars_shown Loc Doc Url vars builtin hash parse_url file_url).
Notation procs_shown := (procs_shown V D Loc Doc Url t value_site is_verb builtin hash parse_url file_url).
Notation type_shown := (type_shown V D Loc Doc Url t type_site value_site is_verb vars builtin hash parse_url file_url).
Notation stub_shown := (stub_shown V D Loc Doc Url t type_site vars builtin hash parse_url file_url).
Notation opened := (opened V D Loc Doc Url t type_site value_site is_verb vars builtin hash parse_url file_url).
Notation whole := (whole V D Loc Doc Url t type_site value_site is_verb vars builtin hash parse_url file_url).
Notation names_in := (names_in V D t).
Section SHOWN.
Hypothesis W : wf V D t.
Notation at_n i := (nth_error (graph t) i).

Lemma kid_names i n cs : at_n i = Some n -> at_ t i cs -> forall x j, In (x, j) (n_children n) <-> at_ t j (cs ++ [x]).
Proof using W.
  intros Hn A x j. rewrite <- (at_child V D t W i cs x j A). unfold child, node_at. rewrite Hn. symmetry. apply get_iff. exact (wf_keys V D t W i n Hn).
Qed.
Lemma kids_in i n cs : at_n i = Some n -> at_ t i cs -> names_in cs (map fst (n_children n)).
Proof using W.
  intros Hn A. split.
  - intro x. rewrite in_map_iff. split; [intros ([y j] & <- & H); exists j; apply (kid_names i n cs Hn A); exact H|]. intros (j & H). exists (x, j). split; [reflexivity|]. apply (kid_names i n cs Hn A); exact H.
  - pose proof (wf_sorted V D t W i n Hn) as S. clear - S. induction S as [|x l H1 IH H2]; [constructor|]. constructor; [exact IH|]. rewrite Forall_forall in *. intros y Hy. apply before_tlt. exact (H2 y Hy).
Qed.
Lemma heading_stub i n cs : at_n i = Some n -> at_ t i cs -> heading i cs (stub i n).
Proof using W.
  intros Hn A. unfold objtree_stub. split; [exact (last_name_at W i n cs Hn A)|]. split.
  - cbn [et_place]. apply shown_convert. cbn [List.concat]. rewrite app_nil_r. symmetry. exact (node_path i n cs Hn A).
  - exists n, (map fst (n_children n)). split; [exact Hn|]. split; [exact (wf_keys V D t W i n Hn)|]. split; [exact (proj1 (kids_in i n cs Hn A))|]. cbn [et_counts]. rewrite map_length. reflexivity.
Qed.
Lemma map_snd_enum {A : Type} (l : list A) : forall j, map snd (enum j l) = l.
Proof using Type. induction l as [|x l IH]; intro j; [reflexivity|]. cbn [enum map snd]. rewrite IH. reflexivity. Qed.
Lemma map_fst_enum {A : Type} (l : list A) : forall j, map fst (enum j l) = seq j (List.length l).
Proof using Type. induction l as [|x l IH]; intro j; [reflexivity|]. cbn [enum map fst List.length seq]. rewrite IH. reflexivity. Qed.
Lemma vars_rows i n cs : at_n i = Some n -> at_ t i cs -> vars_shown i cs (sort_by ev_name (map (row_v n) (vars i))).
Proof using Type.
  intros Hn A. pose proof (node_path i n cs Hn A) as P.
  set (l := sort_by (fun e => ev_name (row_v n (snd e))) (enum 0 (vars i))).
  assert (E : sort_by ev_name (map (row_v n) (vars i)) = map (fun e => row_v n (snd e)) l).
  { unfold l. rewrite (sort_map ev_name (fun e : nat * _ => row_v n (snd e))). f_equal. rewrite <- (map_map snd (row_v n)), map_snd_enum. reflexivity. }
  assert (Hp : Permutation l (enum 0 (vars i))) by apply sort_perm.
  exists (map fst l). split; [|split].
  - eapply perm_trans; [apply Permutation_map, Hp|]. rewrite map_fst_enum. apply Permutation_refl.
  - rewrite E. assert (K : forall e, In e l -> nth_error (vars i) (fst e) = Some (snd e)) by (intros [j x] H; apply (Permutation_in _ Hp) in H; apply enum_at; exact H). clear E Hp. clearbody l.
    induction l as [|[j [name tv]] l IH]; [constructor|]. cbn [map]. constructor; [|apply IH; intros; apply K; right; assumption]. pose proof (K _ (or_introl eq_refl)) as Hj. cbn [fst snd] in Hj. cbn [fst snd].
    exists tv. cbn [var_row ev_name ev_icon ev_place ev_declared]. split; [exact Hj|]. split; [destruct (v_decl tv); split; congruence|]. split; [|split].
    + destruct (v_decl tv) as [[loc [|]]|]; split; try discriminate; try reflexivity; [intros _; exists loc; reflexivity|intros (? & Q); discriminate Q|intros (? & Q); discriminate Q].
    + destruct (v_decl tv) as [[loc [|]]|]; auto.
    + apply shown_convert. cbn [List.concat]. rewrite app_nil_r, P. reflexivity.
  - apply sort_sorted.
Qed.
(** the rows of the procedures, with the numbers of procedure and value *)
Definition jk_values (n : node V D) (j : nat) (name : text) (verb : option bool) (k : nat) (values : list V) : list (nat * nat * eproc Loc Url) :=
  map (fun e => (j, fst e, snd e)) (enum k (rows_val n name verb values)).
Definition jk_rows (n : node V D) (e : nat * (text * type_proc V D)) : list (nat * nat * eproc Loc Url) :=
  map (fun r => (fst e, fst r, snd r)) (enum 0 (rows_p n (snd e))).
Lemma value_row_at n name values : forall verb k r, nth_error (rows_val n name verb values) k = Some r <->
  exists v, nth_error values k = Some v /\ r = {| ep_name := name; ep_icon := proc_icon V D n name;
    ep_place := convert (fst (value_site v)) (snd (value_site v)) [n_path n; lit "/proc/"; name]; ep_verb := match k with 0 => verb | _ => None end |}.
Proof using Type.
  induction values as [|v values IH]; intros verb k r; cbn [value_rows].
  - split; [intro Q; destruct k; discriminate Q|intros (v & Q & _); destruct k; discriminate Q].
  - destruct k as [|k]; cbn [nth_error].
    + split; [intro Q; injection Q as <-; eauto|intros (w & Q & ->); injection Q as <-; reflexivity].
    + rewrite IH. split; intros (w & Hw & ->); exists w; (split; [exact Hw|]); destruct k; reflexivity.
Qed.
Lemma rows_flat n l : forall j, flat_map (rows_p n) l = map snd (flat_map (jk_rows n) (enum j l)).
Proof using Type.
  induction l as [|e l IH]; intro j; [reflexivity|]. cbn [flat_map enum]. rewrite map_app, <- IH. f_equal. unfold jk_rows. rewrite map_map. cbn [fst snd]. symmetry. apply map_snd_enum.
Qed.
Lemma jk_in n l j k r : In (j, k, r) (flat_map (jk_rows n) (enum 0 l)) <->
  exists name p v, nth_error l j = Some (name, p) /\ nth_error (p_values p) k = Some v /\
    r = {| ep_name := name; ep_icon := proc_icon V D n name; ep_place := convert (fst (value_site v)) (snd (value_site v)) [n_path n; lit "/proc/"; name];
           ep_verb := match k with 0 => option_map is_verb (p_decl p) | _ => None end |}.
Proof using Type.
  rewrite in_flat_map. split.
  - intros ([j' [name p]] & Hj & H). apply enum_at in Hj. unfold jk_rows in H. cbn [fst snd] in H. apply in_map_iff in H. destruct H as ([k' r'] & E & H). injection E as -> -> ->. cbn [fst snd] in H. apply enum_at in H. unfold proc_rows in H. cbn [fst snd] in H.
    apply value_row_at in H. destruct H as (v & Hv & ->). exists name, p, v. auto.
  - intros (name & p & v & Hj & Hv & ->). exists (j, (name, p)). split; [apply enum_at; exact Hj|]. unfold jk_rows. cbn [fst snd]. apply in_map_iff. eexists (k, _). split; [reflexivity|]. apply enum_at. unfold proc_rows. cbn [fst snd]. apply value_row_at. eauto.
Qed.
Definition jk_lt (a b : nat * nat * eproc Loc Url) : Prop := fst (fst a) < fst (fst b) \/ (fst (fst a) = fst (fst b) /\ snd (fst a) < snd (fst b)).
Lemma jk_sorted n l : StronglySorted jk_lt (flat_map (jk_rows n) (enum 0 l)).
Proof using Type.
  apply sorted_enum.
  - intros [j e]. unfold jk_rows. cbn [fst snd]. apply sorted_map. generalize (rows_p n e) as rs. intro rs. generalize 0 as k. induction rs as [|r rs IH]; intro k; [constructor|]. cbn [enum]. constructor; [apply IH|].
    apply Forall_forall. intros [k' r'] H. apply enum_in in H. destruct H as (d & -> & _). right. cbn [fst snd]. lia.
  - intros i x i' x' a b L Ha Hb. unfold jk_rows in Ha, Hb. apply in_map_iff in Ha, Hb. destruct Ha as (? & <- & _), Hb as (? & <- & _). left. exact L.
Qed.
Lemma procs_rows i n cs : at_n i = Some n -> at_ t i cs -> procs_shown i cs (sort_by ep_name (flat_map (rows_p n) (n_procs n))).
Proof using Type.
  intros Hn A. pose proof (node_path i n cs Hn A) as P.
  set (full := flat_map (jk_rows n) (enum 0 (n_procs n))). set (l := sort_by (fun e => ep_name (snd e)) full).
  assert (E : sort_by ep_name (flat_map (rows_p n) (n_procs n)) = map snd l) by (rewrite (rows_flat n (n_procs n) 0); unfold l; symmetry; apply (sort_map ep_name (fun e : nat * nat * eproc Loc Url => snd e))).
  assert (Hp : Permutation l full) by apply sort_perm. pose proof (jk_sorted n (n_procs n)) as S. fold full in S.
  assert (Hin : forall j k r, In (j, k, r) l <-> exists name p v, nth_error (n_procs n) j = Some (name, p) /\ nth_error (p_values p) k = Some v /\
    r = {| ep_name := name; ep_icon := proc_icon V D n name; ep_place := convert (fst (value_site v)) (snd (value_site v)) [n_path n; lit "/proc/"; name];
           ep_verb := match k with 0 => option_map is_verb (p_decl p) | _ => None end |}).
  { intros j k r. rewrite <- (jk_in n (n_procs n) j k r). fold full. split; apply Permutation_in; [exact Hp|apply Permutation_sym; exact Hp]. }
  exists (map fst l). split; [|split; [|split; [|split]]].
  - apply (Permutation_NoDup (l := map fst full)); [apply Permutation_map, Permutation_sym; exact Hp|]. clear - S. induction S as [|x m H1 IH H2]; [constructor|]. cbn [map]. constructor; [|exact IH].
    intro Q. apply in_map_iff in Q. destruct Q as (y & Ey & Hy). rewrite Forall_forall in H2. specialize (H2 y Hy). unfold jk_lt in H2. rewrite Ey in H2. lia.
  - intros j k. rewrite in_map_iff. split.
    + intros ([[j' k'] r] & Q & H). cbn [fst] in Q. injection Q as -> ->. apply Hin in H. destruct H as (name & p & v & Hj & Hk & _). exists n, name, p. split; [exact Hn|]. split; [exact Hj|]. apply nth_error_Some. congruence.
    + intros (m & name & p & Hm & Hj & Hk). rewrite Hn in Hm. injection Hm as <-. apply nth_error_Some in Hk. destruct (nth_error (p_values p) k) as [v|] eqn:Ev; [|congruence]. eexists (j, k, _). split; [reflexivity|]. apply Hin. exists name, p, v. split; [exact Hj|]. split; [exact Ev|reflexivity].
  - assert (Q : ForallOrdPairs (fun a b : nat * nat * eproc Loc Url => ep_name (snd a) = ep_name (snd b) -> jk_lt a b) full).
    { clear - S. induction S as [|x m H1 IH H2]; [constructor|]. constructor; [|exact IH]. rewrite Forall_forall in *. intros y Hy _. exact (H2 y Hy). }
    apply (sort_stable _ (fun e => ep_name (snd e))) in Q. fold l in Q.
    assert (G : forall e, In e l -> exists name p, nth_error (n_procs n) (fst (fst e)) = Some (name, p) /\ ep_name (snd e) = name).
    { intros [[j k] r] H. apply Hin in H. destruct H as (name & p & v & Hj & _ & ->). exists name, p. split; [exact Hj|reflexivity]. }
    clear - Q G. induction Q as [|x m H1 H2 IH]; [constructor|]. cbn [map]. constructor; [|apply IH; intros; apply G; right; assumption]. apply Forall_forall. intros b Hb. apply in_map_iff in Hb. destruct Hb as (y & <- & Hy). intro Ej.
    rewrite Forall_forall in H1. destruct (G x (or_introl eq_refl)) as (n1 & p1 & Q1 & E1). destruct (G y (or_intror Hy)) as (n2 & p2 & Q2 & E2). rewrite Ej in Q1. rewrite Q1 in Q2. injection Q2 as <- _. assert (L : jk_lt x y) by (apply (H1 y Hy); congruence). unfold jk_lt in L. lia.
  - rewrite E. assert (K : forall e, In e l -> proc_shown i cs (fst e) (snd e)).
    { intros [[j k] r] H. apply Hin in H. destruct H as (name & p & v & Hj & Hk & ->). exists n, p, v. cbn [fst snd ep_name ep_icon ep_place ep_verb]. split; [exact Hn|]. split; [exact Hj|]. split; [exact Hk|]. split; [apply (icon_iff i n cs name _ Hn A); reflexivity|]. split.
      - apply shown_convert. cbn [List.concat]. rewrite app_nil_r, P. reflexivity.
      - intro b. destruct k as [|k]; [|split; [discriminate|intros [Q _]; discriminate Q]]. destruct (p_decl p) as [d|]; cbn [option_map].
        + split; [intro Q; injection Q as <-; eauto|intros (_ & d' & Q & <-); injection Q as <-; reflexivity].
        + split; [discriminate|intros (_ & d' & Q & _); discriminate Q]. }
    clear - K. induction l as [|e l IH]; [constructor|]. cbn [map]. constructor; [apply K; left; reflexivity|]. apply IH. intros; apply K; right; assumption.
  - apply sort_sorted.
Qed.
Lemma base_shown i n cs kids : at_n i = Some n -> at_ t i cs -> type_shown i cs (with_children Loc Url (base i n) kids).
Proof using W.
  intros Hn A. split; [exact (heading_stub i n cs Hn A)|]. split; [exact (vars_rows i n cs Hn A)|exact (procs_rows i n cs Hn A)].
Qed.
Lemma base_kids i n kids : et_children (with_children Loc Url (base i n) kids) = kids.
Proof using Type. reflexivity. Qed.
(** entries that have the names of the types they stand for are in order already *)
Lemma kids_sorted cs xs (kids : list (etype Loc Url)) : Forall2 (fun x e => last_name (cs ++ [x]) (et_name e)) xs kids -> StronglySorted before xs -> sort_by et_name kids = kids.
Proof using Type.
  intros F S. apply sort_keyed. assert (E : map et_name kids = xs).
  { clear S. induction F as [|x e xs kids H F IH]; [reflexivity|]. cbn [map]. rewrite IH. f_equal. destruct H as [[Q _]|(ds & Q)]; [destruct cs; discriminate Q|]. apply app_inj_tail in Q. symmetry. apply Q. }
  subst xs. clear F. unfold by_name. induction kids as [|e kids IH]; [constructor|]. cbn [map] in S. inversion S as [|? ? S1 S2]; subst. constructor; [apply IH, S1|]. rewrite Forall_forall in *. intros e' He. right. apply S2. apply in_map. exact He.
Qed.
Lemma every_kids {B : Type} (f : nat -> option B) (R : text -> B -> Prop) (ch : list (text * nat)) :
  (forall x j, In (x, j) ch -> exists e, f j = Some e /\ R x e) -> exists kids, every (map f (map snd ch)) = Some kids /\ Forall2 R (map fst ch) kids.
Proof using Type.
  induction ch as [|[x j] ch IH]; intro H; [exists []; split; [reflexivity|constructor]|]. destruct (H x j (or_introl eq_refl)) as (e & E & Re). destruct IH as (kids & E' & F); [intros; apply H; right; assumption|].
  exists (e :: kids). cbn [map snd fst every]. rewrite E, E'. split; [reflexivity|]. constructor; assumption.
Qed.
Lemma name_of_heading i cs e : heading i cs e -> last_name cs (et_name e).
Proof using Type. intros (H & _). exact H. Qed.
Lemma placeholders_shown i n cs : at_n i = Some n -> at_ t i cs -> exists e, holders i = Some e /\ opened cs e.
Proof using W.
  intros Hn A. unfold objtree_with_placeholders, node_at, children, node_at. rewrite Hn.
  destruct (every_kids (fun j => option_map (stub j) (nth_error (graph t) j)) (fun x => stub_shown (cs ++ [x])) (n_children n)) as (kids & E & F).
  { intros x j H. apply (kid_names i n cs Hn A) in H. pose proof H as (_ & m & Hm & _). rewrite Hm. exists (stub j m). split; [reflexivity|]. exists j. split; [exact H|]. split; [exact (heading_stub j m _ Hm H)|]. repeat split. }
  rewrite E. cbn [option_map]. eexists. split; [reflexivity|]. destruct (kids_in i n cs Hn A) as [K1 K2].
  assert (Es : sort_by et_name kids = kids).
  { apply (kids_sorted cs (map fst (n_children n))); [|exact K2]. clear - F. induction F as [|x e xs l H F IH]; constructor; [destruct H as (j & _ & Hh & _); exact (name_of_heading j _ e Hh)|exact IH]. }
  exists i, (map fst (n_children n)). split; [exact A|]. split; [apply (base_shown i n cs _ Hn A)|]. split; [split; assumption|]. rewrite base_kids, Es. exact F.
Qed.
Lemma recurse_whole fuel : forall i cs, at_ t i cs -> List.length (graph t) - List.length cs <= fuel -> exists e, recursed fuel i = Some e /\ whole cs e.
Proof using W.
  induction fuel as [|fuel IH]; intros i cs A Hf; [pose proof (at_bound V D t W i cs A); lia|]. pose proof (at_bound V D t W i cs A) as Hb. pose proof A as (_ & n & Hn & _).
  cbn [objtree_recurse]. unfold children, node_at. rewrite Hn.
  destruct (every_kids (recursed fuel) (fun x => whole (cs ++ [x])) (n_children n)) as (kids & E & F).
  { intros x j H. apply (kid_names i n cs Hn A) in H. apply (IH j _ H). rewrite app_length. cbn [List.length]. lia. }
  rewrite E. cbn [option_map]. eexists. split; [reflexivity|]. destruct (kids_in i n cs Hn A) as [K1 K2].
  assert (Es : sort_by et_name kids = kids).
  { apply (kids_sorted cs (map fst (n_children n))); [|exact K2]. clear - F. induction F as [|x e xs l H F IH]; constructor; [destruct H as [cs' j e' ys _ (Hh & _) _ _]; exact (name_of_heading j _ e' Hh)|exact IH]. }
  apply (whole_type V D Loc Doc Url t type_site value_site is_verb vars builtin hash parse_url file_url cs i _ (map fst (n_children n)) A).
  - apply (base_shown i n cs _ Hn A).
  - split; assumption.
  - rewrite base_kids, Es. exact F.
Qed.
End SHOWN.
End EXPLORER.

(** ** All types are shown, each once *)
Section WALK.
Variables V D Loc Doc Url : Type.
Variable t : objtree V D.
Variable type_site : nat -> Loc * Doc.
Variable value_site : V -> Loc * Doc.
Variable is_verb : D -> bool.
Variable vars : nat -> list (text * tvar Loc Doc).
Variable builtin : Loc -> bool.
Variable hash : Doc -> option text.
Variable parse_url : text -> option Url.
Variable file_url : Loc -> option Url.
Notation whole := (whole V D Loc Doc Url t type_site value_site is_verb vars builtin hash parse_url file_url).
Notation walk := (paths_shown Loc Url).
Lemma walk_eq cs (e : etype Loc Url) : walk cs e = cs :: flat_map (fun k => walk (cs ++ [et_name k]) k) (et_children e).
Proof using Type. destruct e; reflexivity. Qed.
Lemma whole_name cs x e : whole (cs ++ [x]) e -> et_name e = x.
Proof using Type.
  intro H. remember (cs ++ [x]) as ds eqn:Ed. destruct H as [ds i e xs _ ((Q & _) & _) _ _]. subst ds. destruct Q as [[Q _]|(es & Q)]; [destruct cs; discriminate Q|]. apply app_inj_tail in Q. symmetry. apply Q.
Qed.
Lemma whole_paths (W : wf V D t) m : forall cs e, whole cs e -> List.length (graph t) - List.length cs <= m ->
  StronglySorted plt (walk cs e) /\ forall ds, In ds (walk cs e) <-> (exists j, at_ t j ds) /\ inside cs ds.
Proof using Type.
  induction m as [|m IH]; intros cs e H Hf; destruct H as [cs i e xs A _ [N1 N2] F]; pose proof (at_bound V D t W i cs A) as Hb; [lia|]. rewrite walk_eq.
  assert (L : forall ys kids, Forall2 (fun x => whole (cs ++ [x])) ys kids -> StronglySorted before ys ->
    StronglySorted plt (flat_map (fun k => walk (cs ++ [et_name k]) k) kids) /\
    forall ds, In ds (flat_map (fun k => walk (cs ++ [et_name k]) k) kids) <-> (exists j, at_ t j ds) /\ exists x es, In x ys /\ ds = cs ++ x :: es).
  { clear N1 N2 F. induction 1 as [|x k ys kids Hk F IHF]; intro S; [split; [constructor|]; intro ds; split; [intros []|intros (_ & ? & ? & [] & _)]|]. inversion S as [|? ? S1 S2]; subst. destruct (IHF S1) as [G1 G2]. cbn [flat_map].
    rewrite (whole_name cs x k Hk). destruct (IH (cs ++ [x]) k Hk) as [K1 K2]; [rewrite app_length; cbn [List.length]; lia|]. split.
    - apply sorted_join; [exact K1|exact G1|]. intros a b Ha Hb'. apply K2 in Ha. apply G2 in Hb'. destruct Ha as (_ & es & ->), Hb' as (_ & y & es' & Hy & ->). rewrite <- app_assoc. apply plt_app. cbn. left. rewrite Forall_forall in S2. exact (S2 y Hy).
    - intro ds. rewrite in_app_iff, K2, G2. cbn [In]. unfold inside. split.
      + intros [(Hj & es & ->)|(Hj & y & es & Hin & ->)]; (split; [exact Hj|]); [exists x, es|exists y, es]; (split; [auto|]); [rewrite <- app_assoc|]; reflexivity.
      + intros (Hj & y & es & [<-|Hin] & ->); [left; split; [exact Hj|]; exists es; rewrite <- app_assoc; reflexivity|right; split; [exact Hj|]; eauto]. }
  destruct (L xs (et_children e) F N2) as [G1 G2]. split.
  - constructor; [exact G1|]. apply Forall_forall. intros ds Hds. apply G2 in Hds. destruct Hds as (_ & x & es & _ & ->). apply plt_self.
  - intro ds. cbn [In]. rewrite G2. split.
    + intros [<-|(Hj & x & es & _ & ->)]; [split; [eauto|exists []; rewrite app_nil_r; reflexivity]|split; [exact Hj|]; exists (x :: es); reflexivity].
    + intros ((j & Hj) & es & ->). destruct es as [|x es]; [left; rewrite app_nil_r; reflexivity|right]. split; [eauto|]. exists x, es. split; [|reflexivity]. apply N1.
      clear - W Hj. revert j Hj. induction es as [|y es IHe] using rev_ind; intros j Hj; [eauto|]. rewrite app_comm_cons, app_assoc in Hj. apply (at_prefix V D t W) in Hj. destruct Hj as (p & Hp & _). eauto.
Qed.
End WALK.

(** ** Procedures have values *)
Section VALUED.
Variables V D : Type.
Notation valued := (valued V D).
Definition full (n : node V D) : Prop := forall e, In e (n_procs n) -> p_values (snd e) <> [].
Lemma valued_full (t : objtree V D) : valued t <-> forall i n, nth_error (graph t) i = Some n -> full n.
Proof using Type. unfold ExplorerProps.valued, full. split; intros H i n; [intros E e; apply (H i n e E)|intros e E; apply (H i n E)]. Qed.
Lemma full_set (l : list (node V D)) i n' : (forall k n, nth_error l k = Some n -> full n) -> full n' -> forall k n, nth_error (set_nth i n' l) k = Some n -> full n.
Proof using Type.
  intros H H'. revert i H. induction l as [|m l IH]; intros i H k n E; [destruct i, k; discriminate E|]. destruct i as [|i], k as [|k]; cbn [set_nth nth_error] in E.
  - injection E as <-. exact H'.
  - apply (H (S k)). exact E.
  - injection E as <-. apply (H 0). reflexivity.
  - apply (IH i) with (k := k); [intros k' m' E'; apply (H (S k')); exact E'|exact E].
Qed.
Lemma ix_insert_in {A : Type} k (v : A) l e : In e (ix_insert k v l) -> snd e = v \/ In e l.
Proof using Type.
  induction l as [|x l IH]; cbn [ix_insert]; [intros [<-|[]]; auto|]. destruct (text_eqb (fst x) k); cbn [In]; [intros [<-|H]; auto|]. intros [H|H]; [auto|]. destruct (IH H); auto.
Qed.
Lemma valued_built (t : objtree V D) : built t -> valued t.
Proof using Type.
  rewrite valued_full. induction 1 as [|t parent name t' i B IH Hs E|t ty v t' B IH E|t ty name d v t' B IH E].
  - intros i n E e He. destruct i as [|i]; cbn [graph empty_tree nth_error] in E; [injection E as <-; destruct He|destruct i; discriminate E].
  - unfold subtype_or_add in E. destruct (nth_error (graph t) parent) as [n|] eqn:En; [|discriminate]. destruct (get name (n_children n)); injection E as <- <-; [exact IH|]. cbn [graph].
    intros k m Ek. destruct (Nat.lt_ge_cases k (List.length (set_nth parent {| n_path := n_path n; n_procs := n_procs n; n_pvar := n_pvar n; n_parent_path := n_parent_path n; n_parent_type := n_parent_type n; n_children := bt_insert name (List.length (graph t)) (n_children n) |} (graph t)))) as [L|L].
    + rewrite nth_error_app1 in Ek by exact L. refine (full_set (graph t) parent _ IH _ k m Ek). exact (IH parent n En).
    + rewrite nth_error_app2 in Ek by exact L. revert Ek; generalize (k - List.length (set_nth parent {| n_path := n_path n; n_procs := n_procs n; n_pvar := n_pvar n; n_parent_path := n_parent_path n; n_parent_type := n_parent_type n; n_children := bt_insert name (List.length (graph t)) (n_children n) |} (graph t))); intros d Ek; destruct d as [|d]; cbn [nth_error] in Ek; [injection Ek as <-; intros e []|destruct d; discriminate Ek].
  - unfold set_parent_type_var in E. destruct (nth_error (graph t) ty) as [n|] eqn:En; [|discriminate]. injection E as <-. cbn [graph update]. apply full_set; [exact IH|]. exact (IH ty n En).
  - unfold register_proc in E. destruct (nth_error (graph t) ty) as [n|] eqn:En; [|discriminate]. injection E as <-. cbn [graph update]. apply full_set; [exact IH|]. intros e He. cbn [n_procs] in He. apply ix_insert_in in He. destruct He as [->|He]; [|exact (IH ty n En e He)].
    cbn [p_values]. destruct d; [destruct (p_values _); discriminate|]. intro Q. apply app_eq_nil in Q. destruct Q as [_ Q]. discriminate Q.
Qed.
Lemma valued_loop order : forall out (t t' : objtree V D) out', (forall i n, nth_error (graph t) i = Some n -> full n) -> assign_loop order out t = Some (t', out') -> forall i n, nth_error (graph t') i = Some n -> full n.
Proof using Type.
  induction order as [|[path i] order IH]; intros out t t' out' H E; cbn [assign_loop] in E; [injection E as <- _; exact H|]. destruct (nth_error (graph t) i) as [n|] eqn:En; [|discriminate]. destruct (parent_for t path n) as [[p more]|]; [|discriminate].
  refine (IH _ _ _ _ _ E). cbn [graph]. apply full_set; [exact H|]. exact (H i n En).
Qed.
Lemma valued_tree (t : objtree V D) : tree t -> valued t.
Proof using Type.
  intros [B|(out & t0 & B & E)]; [exact (valued_built t B)|]. apply valued_full. apply (valued_loop _ _ _ _ _ (proj1 (valued_full t0) (valued_built t0 B)) E).
Qed.
End VALUED.

(** ** C76 *)
Section C76.
Variables V D Loc Doc Url : Type.
Variables (lower : chr -> list chr) (alphanumeric : chr -> bool) (str_lower : text -> text).
Variable t : objtree V D.
Variable type_site : nat -> Loc * Doc.
Variable value_site : V -> Loc * Doc.
Variable decl_loc : D -> Loc.
Variable is_verb : D -> bool.
Variable vars : nat -> list (text * tvar Loc Doc).
Variable builtin : Loc -> bool.
Variable hash : Doc -> option text.
Variable parse_url : text -> option Url.
Variable file_url : Loc -> option Url.
Notation about := (about Loc Doc).
Notation symbol_is := (symbol_is V D Loc Doc t type_site value_site decl_loc vars).
Notation sent := (sent Loc Doc Url builtin hash parse_url file_url).
Notation wanted := (wanted Loc Doc lower alphanumeric str_lower).
Notation rejected := (rejected lower alphanumeric).
Notation placed := (placed Loc Doc Url builtin hash parse_url file_url).
Notation answer := (fun defines => workspace_symbol V D Loc Doc Url lower alphanumeric str_lower t type_site value_site decl_loc vars defines builtin hash parse_url file_url).

(** The search for symbols: a rejected query has no answer; any other finds exactly the macros, the types but the root, and the variables and procedures
    that are declared where they are, that the query is about: each once, macros first, then type by type, each with its name, icon, place and container.
    If one of them has no place, there is no list at all. *)
Theorem C76_symbols : forall defines q ks q' by_path, tree t -> SymbolSearch.meaning q ks q' by_path ->
  let macros := match defines with Some l => l | None => [] end in
  (rejected ks q q' by_path -> answer defines q = Done None) /\
  (~ rejected ks q q' by_path ->
   exists subjects abouts, StronglySorted sooner subjects /\
     (forall s, In s subjects <-> exists a, symbol_is macros s a /\ wanted ks q' by_path a) /\
     Forall2 (fun s a => symbol_is macros s a /\ wanted ks q' by_path a) subjects abouts /\
     ((exists l, answer defines q = Done (Some l) /\ Forall2 sent abouts l) \/
      (answer defines q = Refused /\ exists a, In a abouts /\ forall u, ~ placed (a_loc _ _ a) (a_docs _ _ a) (a_ref _ _ a) u))).
Proof using Type.
  intros defines q ks q' by_path T M. exact (symbols V D Loc Doc Url lower alphanumeric str_lower t type_site value_site decl_loc vars builtin hash parse_url file_url defines q ks q' by_path (tree_wf V D t T) (valued_tree V D t T) M).
Qed.
(** A subject is one symbol only, and comes before itself in no order: so nothing is found twice. *)
Theorem C76_subject : forall macros s a a', tree t -> symbol_is macros s a -> symbol_is macros s a' -> a = a' /\ ~ sooner s s.
Proof using Type.
  intros macros s a a' T H H'. split; [|apply sooner_irrefl].
  pose proof (tree_wf V D t T) as W. pose proof (valued_tree V D t T) as Hv.
  assert (F : forall l : list (subject * about), StronglySorted (sooner2 Loc Doc) l -> In (s, a) l -> In (s, a') l -> a = a').
  { clear - s a a'. induction 1 as [|x l S IH Hx]; [intros []|]. rewrite Forall_forall in Hx. intros [->|H1] [E|H2]; [injection E as ->; reflexivity| | |apply IH; assumption].
    - specialize (Hx _ H2). destruct (sooner_irrefl _ Hx).
    - subst x. specialize (Hx _ H1). destruct (sooner_irrefl _ Hx). }
  apply (F (all_symbols V D Loc Doc t type_site value_site decl_loc vars macros)); [apply all_symbols_sorted|apply all_symbols_in; assumption|apply all_symbols_in; assumption].
Qed.

Notation opened := (opened V D Loc Doc Url t type_site value_site is_verb vars builtin hash parse_url file_url).
Notation whole := (whole V D Loc Doc Url t type_site value_site is_verb vars builtin hash parse_url file_url).
Notation query := (query_object_tree V D Loc Doc Url t type_site value_site is_verb vars builtin hash parse_url file_url).
Notation update := (update_objtree V D Loc Doc Url t type_site value_site is_verb vars builtin hash parse_url file_url).

(** The explorer asks for a type by its path: it gets the type with its variables, its procedures and the headings of the types in it; any other path is refused. *)
Theorem C76_query : forall path, tree t ->
  (exists i cs e, at_ t i cs /\ path = render cs /\ query path = Done e /\ opened cs e) \/
  ((forall i cs, at_ t i cs -> path <> render cs) /\ query path = Refused).
Proof using Type.
  intros path T. pose proof (tree_wf V D t T) as W. unfold query_object_tree. destruct (Model.find t path) as [i|] eqn:E.
  - left. assert (A : exists cs n, nth_error (graph t) i = Some n /\ at_ t i cs /\ path = render cs).
    { unfold Model.find in E. destruct path as [|c path].
      - injection E as <-. destruct (wf_root V D t W) as (n & Hn & P). exists [], n. split; [exact Hn|]. split; [apply (at_zero V D t W); reflexivity|reflexivity].
      - apply get_in in E. apply (wf_types V D t W) in E. destruct E as (n & Hn & N & P). destruct (at_some V D t W i n Hn) as (cs & A). exists cs, n. split; [exact Hn|]. split; [exact A|]. rewrite <- P. exact (node_path V D t i n cs Hn A). }
    destruct A as (cs & n & Hn & A & ->). destruct (placeholders_shown V D Loc Doc Url t type_site value_site is_verb vars builtin hash parse_url file_url W i n cs Hn A) as (e & He & O).
    exists i, cs, e. rewrite He. auto.
  - right. split; [|reflexivity]. intros i cs A ->. unfold Model.find in E. destruct (render cs) as [|c p] eqn:R; [discriminate|]. rewrite <- R in E. assert (N : cs <> []) by (intros ->; discriminate R). apply (at_types V D t W i cs (proj1 A) N) in A. congruence.
Qed.
(** When the environment has been read, a client that asks to be told is told so; one that asks for the tree gets all of it; any other gets nothing.  Enough
    depth for the recursion is the number of types. *)
Theorem C76_update : forall fuel object_tree_2 object_tree, tree t -> List.length (graph t) <= fuel ->
  exists l, update fuel object_tree_2 object_tree = Some l /\
  match object_tree_2, object_tree with
  | true, _ => l = [NewTree]
  | false, true => exists e, l = [WholeTree e] /\ whole [] e
  | false, false => l = []
  end.
Proof using Type.
  intros fuel o2 o T Hf. pose proof (tree_wf V D t T) as W. unfold update_objtree. destruct o2; [eauto|]. destruct o; [|eauto].
  destruct (recurse_whole V D Loc Doc Url t type_site value_site is_verb vars builtin hash parse_url file_url W fuel 0 []) as (e & -> & H); [apply (at_zero V D t W); reflexivity|cbn; lia|]. cbn [option_map]. eauto.
Qed.
(** In the whole tree each type is shown exactly once, in the order of the paths. *)
Theorem C76_once : forall e, tree t -> whole [] e ->
  StronglySorted plt (paths_shown Loc Url [] e) /\ NoDup (paths_shown Loc Url [] e) /\ forall ds, In ds (paths_shown Loc Url [] e) <-> exists j, at_ t j ds.
Proof using Type.
  intros e T H. pose proof (tree_wf V D t T) as W. destruct (whole_paths V D Loc Doc Url t type_site value_site is_verb vars builtin hash parse_url file_url W _ [] e H (le_n _)) as [S I]. split; [exact S|]. split.
  - clear - S. induction S as [|x l H1 IH H2]; constructor; [|exact IH]. intro Q. rewrite Forall_forall in H2. exact (plt_irrefl _ (H2 x Q)).
  - intro ds. rewrite I. split; [intros [Q _]; exact Q|]. intro Q. split; [exact Q|]. exists ds. reflexivity.
Qed.
End C76.
