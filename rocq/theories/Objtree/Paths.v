(** C49: types and their paths. *)
From Coq Require Import List Arith NArith Bool String Lia Relations Sorted.
From Verif Require Import Common.Text Parse.Ast Objtree.Ispath Objtree.Model Objtree.Lemmas Objtree.Spec Objtree.Wf Objtree.Assign.
Import ListNotations.
Open Scope nat_scope.

Section PATHS.
Variables V D : Type.
Notation objtree := (objtree V D).
Notation node := (node V D).
Notation at_n t i := (nth_error (graph t) i).
Arguments wf {V D}. Arguments alike {V D}. Arguments tidy {V D}. Arguments fresh {V D}.

Lemma finish_total (t0 : objtree) : built t0 -> exists t out, assign_parent_types t0 = Some (t, out) /\ alike t0 t /\ tidy t.
Proof using Type.
  intro B. destruct (assigned V D t0 (wf_built V D t0 B) (fresh_built V D t0 B)) as (t & out & E & A & T & _). eauto.
Qed.
Lemma finished_tidy (t : objtree) out : finished t out -> tidy t.
Proof using Type. intros (t0 & B & E). destruct (finish_total t0 B) as (t' & out' & E' & A & T). rewrite E in E'. injection E' as <- <-. exact T. Qed.
Lemma tree_wf (t : objtree) : tree t -> wf t.
Proof using Type. intros [B|(out & F)]; [exact (wf_built V D t B)|exact (td_wf V D t (finished_tidy t out F))]. Qed.

Section TREE.
Variable t : objtree.
Hypothesis W : wf t.

Lemma at_len i cs : at_ t i cs -> List.length cs <= i.
Proof using W.
  revert i. induction cs as [|x cs IH] using rev_ind; intros i H; [cbn; lia|]. destruct (at_prefix V D t W i cs x H) as (p & Hp & Hl). apply IH in Hp. rewrite app_length. cbn [List.length]. lia.
Qed.
Lemma at_bound i cs : at_ t i cs -> List.length cs < List.length (graph t).
Proof using W. intro H. pose proof (at_len i cs H) as Q. destruct H as (_ & n & Hn & _). apply nth_lt in Hn. lia. Qed.
Lemma at_names i cs : at_ t i cs -> names cs.
Proof using Type. intros [H _]. exact H. Qed.
Lemma child_none i cs x : at_ t i cs -> child t i x = None -> forall j, ~ at_ t j (cs ++ [x]).
Proof using W. intros H E j Q. apply (at_child V D t W i cs x j H) in Q. congruence. Qed.

(** *** recurse *)
Lemma before_tlt a b : before a b <-> tlt a b.
Proof.
  split.
  - intros [p [[x [s [-> ->]]]|[x [y [s [s' [-> [-> H]]]]]]]].
    + induction p as [|c p IH]; [reflexivity|]. cbn [app]. apply tlt_cons. auto.
    + induction p as [|c p IH]; cbn [app]; apply tlt_cons; auto.
  - revert b. induction a as [|x a IH]; intros [|y b] H; try discriminate.
    + exists []. left. exists y, b. auto.
    + apply tlt_cons in H. destruct H as [H|[-> H]]; [exists []; right; exists x, y, a, b; auto|]. destruct (IH b H) as [p [[c [s [-> ->]]]|[c [d [s [s' [-> [-> K]]]]]]]]; exists (y :: p).
      * left. exists c, s. auto.
      * right. exists c, d, s, s'. auto.
Qed.
Lemma plt_app cs a b : plt a b -> plt (cs ++ a) (cs ++ b).
Proof using Type. intro H. induction cs as [|c cs IH]; cbn; auto. Qed.
Lemma plt_self cs x es : plt cs (cs ++ x :: es).
Proof using Type. induction cs as [|c cs IH]; cbn; auto. Qed.
Lemma all_of_cons {A : Type} (a : list A) l r : all_of l = Some r -> all_of (Some a :: l) = Some (a ++ r).
Proof using Type. intro H. cbn. rewrite H. reflexivity. Qed.
Lemma sorted_app (a b : list (list text)) : StronglySorted plt a -> StronglySorted plt b -> (forall x y, In x a -> In y b -> plt x y) -> StronglySorted plt (a ++ b).
Proof using Type.
  intros Ha Hb H. induction a as [|x a IH]; [exact Hb|]. inversion Ha as [|? ? H1 H2]; subst. cbn. constructor; [apply IH; [exact H1|intros; apply H; [right|]; assumption]|].
  apply Forall_forall. intros y Hy. apply in_app_or in Hy. destruct Hy as [Hy|Hy]; [rewrite Forall_forall in H2; auto|apply H; [left; reflexivity|exact Hy]].
Qed.
Definition lists (l : list nat) (paths : list (list text)) (cs : list text) : Prop :=
  Forall2 (at_ t) l paths /\ (forall ds, In ds paths <-> (exists j, at_ t j ds) /\ inside cs ds) /\ StronglySorted plt paths.
Lemma recurse_spec fuel : forall i cs, at_ t i cs -> List.length (graph t) - List.length cs <= fuel -> exists l paths, recurse t fuel i = Some l /\ lists l paths cs.
Proof using W.
  induction fuel as [|fuel IH]; intros i cs H Hf; [pose proof (at_bound i cs H); lia|].
  pose proof (at_bound i cs H) as Hb. pose proof H as (Hc & n & Hn & Pn). cbn [recurse]. unfold children, node_at. rewrite Hn.
  assert (Hch : forall name j, In (name, j) (n_children n) -> at_ t j (cs ++ [name])).
  { intros name j Hin. apply (at_child V D t W i cs name j H). unfold child, node_at. rewrite Hn. apply get_of; [exact (wf_keys V D t W i n Hn)|exact Hin]. }
  assert (L : forall ch, (forall name j, In (name, j) ch -> at_ t j (cs ++ [name])) -> StronglySorted tlt (map fst ch) ->
    exists l paths, all_of (map (recurse t fuel) (map snd ch)) = Some l /\ Forall2 (at_ t) l paths /\
      (forall ds, In ds paths <-> (exists j, at_ t j ds) /\ exists name es, In name (map fst ch) /\ ds = cs ++ name :: es) /\ StronglySorted plt paths).
  { induction ch as [|[name j] ch IHch]; intros Hat Hs.
    - exists [], []. split; [reflexivity|]. split; [constructor|]. split; [|constructor]. intro ds. split; [intros []|intros (_ & ? & ? & [] & _)].
    - cbn [map fst] in Hs. inversion Hs as [|? ? Hs1 Hs2]; subst. destruct IHch as (l2 & p2 & E2 & F2 & I2 & S2); [intros; apply Hat; right; assumption|exact Hs1|].
      destruct (IH j (cs ++ [name])) as (l1 & p1 & E1 & F1 & I1 & S1); [apply Hat; left; reflexivity|rewrite app_length; cbn; lia|].
      exists (l1 ++ l2), (p1 ++ p2). cbn [map snd]. rewrite E1. split; [apply all_of_cons; exact E2|]. split; [apply Forall2_app; assumption|]. split.
      + intro ds. rewrite in_app_iff, I1, I2. cbn [map fst In]. unfold inside. split.
        * intros [(Hj & es & ->)|(Hj & nm & es & Hin & ->)]; (split; [exact Hj|]); [exists name, es|exists nm, es]; (split; [auto|]); [rewrite <- app_assoc|]; reflexivity.
        * intros (Hj & nm & es & [<-|Hin] & ->); [left; split; [exact Hj|]; exists es; rewrite <- app_assoc; reflexivity|right; split; [exact Hj|]; eauto].
      + apply sorted_app; [exact S1|exact S2|]. intros a b Ha Hb'. apply I1 in Ha. apply I2 in Hb'. destruct Ha as (_ & es & ->), Hb' as (_ & nm & es' & Hin & ->). rewrite <- app_assoc. apply plt_app. cbn. left. apply before_tlt. rewrite Forall_forall in Hs2. exact (Hs2 nm Hin). }
  destruct (L (n_children n) Hch (wf_sorted V D t W i n Hn)) as (l & paths & E & F & I & S). exists (i :: l), (cs :: paths). rewrite E. split; [reflexivity|]. split; [constructor; [exact H|exact F]|]. split.
  - intro ds. cbn [In]. rewrite I. split.
    + intros [<-|(Hj & nm & es & _ & ->)]; [split; [eauto|exists []; rewrite app_nil_r; reflexivity]|split; [exact Hj|]; exists (nm :: es); reflexivity].
    + intros ((j & Hj) & es & ->). destruct es as [|nm es]; [left; rewrite app_nil_r; reflexivity|right]. split; [eauto|]. exists nm, es. split; [|reflexivity].
      assert (Q : exists k, at_ t k (cs ++ [nm])).
      { clear - W Hj. revert j Hj. induction es as [|e es IHe] using rev_ind; intros j Hj; [eauto|]. rewrite app_comm_cons, app_assoc in Hj. apply (at_prefix V D t W) in Hj. destruct Hj as (p & Hp & _). eauto. }
      destruct Q as (k & Hk). apply (at_child V D t W i cs nm k H) in Hk. unfold child, node_at in Hk. rewrite Hn in Hk. apply get_in in Hk. apply in_map_iff. exists (nm, k). auto.
  - constructor; [exact S|]. apply Forall_forall. intros ds Hds. apply I in Hds. destruct Hds as (_ & nm & es & _ & ->). apply plt_self.
Qed.

(** *** steps *)
Fixpoint first_child (x : text) (l : list nat) : option nat :=
  match l with [] => None | j :: l' => match child t j x with Some c => Some c | None => first_child x l' end end.
Lemma first_child_app x a b : first_child x (a ++ b) = match first_child x a with Some c => Some c | None => first_child x b end.
Proof using Type. induction a as [|j a IH]; [reflexivity|]. cbn. destruct (child t j x); [reflexivity|exact IH]. Qed.
Lemma colon_first x fuel : forall i l, recurse t fuel i = Some l -> colon t fuel x i = Some (first_child x l).
Proof using Type.
  induction fuel as [|fuel IH]; intros i l E; [discriminate|]. cbn [recurse] in E. cbn [colon]. destruct (all_of (map (recurse t fuel) (children t i))) as [r|] eqn:A; [|discriminate]. injection E as <-. cbn [first_child].
  destruct (child t i x); [reflexivity|]. revert r A. induction (children t i) as [|j ch IHch]; intros r A; [injection A as <-; reflexivity|]. cbn [map all_of] in A. destruct (recurse t fuel j) as [lj|] eqn:Ej; [|discriminate].
  destruct (all_of (map (recurse t fuel) ch)) as [r'|]; [|discriminate]. injection A as <-. cbn [first_some]. rewrite (IH j lj Ej), first_child_app. destruct (first_child x lj); [reflexivity|]. exact (IHch r' eq_refl).
Qed.
Lemma first_child_least x l paths : Forall2 (at_ t) l paths -> StronglySorted plt paths ->
  match first_child x l with
  | Some c => exists ds, In ds paths /\ at_ t c (ds ++ [x]) /\ forall es k, In es paths -> at_ t k (es ++ [x]) -> es = ds \/ plt ds es
  | None => forall es k, In es paths -> ~ at_ t k (es ++ [x])
  end.
Proof using W.
  induction 1 as [|j ds l paths Hj HF IH]; intro S; cbn [first_child]; [intros es k []|]. inversion S as [|? ? S1 S2]; subst. destruct (child t j x) as [c|] eqn:E.
  - exists ds. split; [left; reflexivity|]. split; [apply (at_child V D t W j ds x c Hj); exact E|]. intros es k [<-|Hin] _; [auto|right; rewrite Forall_forall in S2; auto].
  - pose proof (child_none j ds x Hj E) as N. specialize (IH S1). destruct (first_child x l) as [c|].
    + destruct IH as (ds' & Hin & Hc & Hl). exists ds'. split; [right; exact Hin|]. split; [exact Hc|]. intros es k [<-|Hes] Hk; [destruct (N k Hk)|eauto].
    + intros es k [<-|Hes]; [apply N|apply IH; exact Hes].
Qed.
Lemma dot_spec x fuel : forall i cs, at_ t i cs -> List.length cs < fuel ->
  exists r, search fuel (parent_path t) (fun j => child t j x) i = Some r /\
    match r with
    | Some j => exists ds, inside ds cs /\ at_ t j (ds ++ [x]) /\ forall es k, inside es cs -> at_ t k (es ++ [x]) -> inside es ds
    | None => forall ds k, inside ds cs -> ~ at_ t k (ds ++ [x])
    end.
Proof using W.
  induction fuel as [|fuel IH]; intros i cs H Hf; [lia|]. cbn [search]. destruct (child t i x) as [c|] eqn:E.
  - exists (Some c). split; [reflexivity|]. exists cs. split; [exists []; rewrite app_nil_r; reflexivity|]. split; [apply (at_child V D t W i cs x c H); exact E|]. intros es k Hes _. exact Hes.
  - pose proof (child_none i cs x H E) as N. destruct cs as [|y cs] using rev_ind.
    + assert (P : parent_path t i = None).
      { destruct (parent_path t i) as [p|] eqn:P; [|reflexivity]. apply (at_parent V D t W) in P. destruct P as (ds & z & _ & Q). pose proof (at_inj V D t i _ _ H Q) as Q'. destruct ds; discriminate. }
      rewrite P. exists None. split; [reflexivity|]. intros ds k (es & Hes). symmetry in Hes. apply app_eq_nil in Hes. destruct Hes as [-> _]. apply N.
    + clear IHcs. destruct (at_prefix V D t W i cs y H) as (p & Hp & _). assert (P : parent_path t i = Some p) by (apply (at_parent V D t W); eauto). rewrite P.
      rewrite app_length in Hf. cbn [List.length] in Hf. destruct (IH p cs Hp) as (r & E1 & R); [lia|]. exists r. split; [exact E1|].
      assert (I : forall ds, inside ds (cs ++ [y]) -> ds = cs ++ [y] \/ inside ds cs).
      { intros ds (es & Hes). destruct es as [|e es] using rev_ind; [left; rewrite app_nil_r in Hes; congruence|]. clear IHes. rewrite app_assoc in Hes. apply app_inj_tail in Hes. destruct Hes as [-> _]. right. exists es. reflexivity. }
      destruct r as [j|].
      * destruct R as (ds & (es & ->) & Hj & Hl). exists ds. split; [exists (es ++ [y]); rewrite app_assoc; reflexivity|]. split; [exact Hj|]. intros fs k Hfs Hk. apply I in Hfs. destruct Hfs as [->|Hfs]; [destruct (N k Hk)|exact (Hl fs k Hfs Hk)].
      * intros ds k Hds. apply I in Hds. destruct Hds as [->|Hds]; [apply N|apply R; exact Hds].
Qed.
Lemma navigate_spec fuel i cs op x : at_ t i cs -> List.length (graph t) <= fuel ->
  exists r, navigate t fuel i op x = Some r /\ match r with Some j => step t cs op x j | None => forall j, ~ step t cs op x j end.
Proof using W.
  intros H Hf. pose proof (at_bound i cs H) as Hb. destruct op; cbn [navigate step].
  - exists (child t i x). split; [reflexivity|]. destruct (child t i x) as [j|] eqn:E; [apply (at_child V D t W i cs x j H); exact E|]. exact (child_none i cs x H E).
  - destruct (dot_spec x fuel i cs H) as (r & E & R); [lia|]. exists r. split; [exact E|]. destruct r as [j|]; [exact R|]. intros j (ds & Hds & Hj & _). exact (R ds j Hds Hj).
  - destruct (recurse_spec fuel i cs H) as (l & paths & E & F & I & S); [lia|]. exists (first_child x l). split; [apply colon_first; exact E|]. pose proof (first_child_least x l paths F S) as L. destruct (first_child x l) as [j|].
    + destruct L as (ds & Hds & Hj & Hl). exists ds. split; [apply I in Hds; tauto|]. split; [exact Hj|]. intros es k Hes Hk. apply (Hl es k); [|exact Hk]. apply I. split; [|exact Hes]. destruct (at_prefix V D t W k es x Hk) as (p & Hp & _). eauto.
    + intros j (ds & Hds & Hj & _). apply (L ds j); [|exact Hj]. apply I. split; [|exact Hds]. destruct (at_prefix V D t W j ds x Hj) as (p & Hp & _). eauto.
Qed.
Lemma inside_antisym a b : inside a b -> inside b a -> a = b.
Proof using Type.
  intros (x & ->) (y & H). rewrite <- app_assoc in H. rewrite <- (app_nil_r a) in H at 1. apply app_inv_head in H. symmetry in H. apply app_eq_nil in H. destruct H as [-> _]. rewrite app_nil_r. reflexivity.
Qed.
Lemma plt_irrefl a : ~ plt a a.
Proof using Type. induction a as [|x a IH]; cbn; [auto|]. intros [Q|[_ Q]]; [exact (tlt_irrefl x (proj1 (before_tlt x x) Q))|auto]. Qed.
Lemma plt_asym a : forall b, plt a b -> ~ plt b a.
Proof using Type.
  induction a as [|x a IH]; intros [|y b]; cbn; auto. intros [Q|[-> Q]] [R|[E R]]; subst; try apply before_tlt in Q; try apply before_tlt in R; try (exact (tlt_irrefl _ Q)); try (exact (tlt_irrefl _ R)); [exact (tlt_irrefl _ (tlt_trans _ _ _ Q R))|exact (IH b Q R)].
Qed.
Lemma step_fun cs op x j k : step t cs op x j -> step t cs op x k -> j = k.
Proof using W.
  destruct op; cbn [step].
  - apply (at_fun V D t W).
  - intros (ds & Hds & Hj & Lj) (es & Hes & Hk & Lk). assert (ds = es) by (apply inside_antisym; [eapply Lk; eauto|eapply Lj; eauto]). subst es. eapply (at_fun V D t W); eauto.
  - intros (ds & Hds & Hj & Lj) (es & Hes & Hk & Lk). assert (ds = es).
    { destruct (Lk ds j Hds Hj) as [Q|Q]; [exact Q|]. destruct (Lj es k Hes Hk) as [R|R]; [congruence|]. destruct (plt_asym _ _ Q R). }
    subst es. eapply (at_fun V D t W); eauto.
Qed.
Lemma step_at cs op x j : step t cs op x j -> exists ds, at_ t j ds.
Proof using Type. destruct op; cbn [step]; [eauto|intros (ds & _ & H & _); eauto|intros (ds & _ & H & _); eauto]. Qed.
Lemma navigate_from_spec fuel : List.length (graph t) <= fuel -> forall pieces i cs, (forall op x, In (op, x) pieces -> proc_kind x = None) -> at_ t i cs ->
  exists r, navigate_from t fuel i pieces = Some (option_map NType r) /\ forall j, r = Some j <-> reaches t cs pieces j.
Proof using W.
  intro Hf. induction pieces as [|[op x] pieces IH]; intros i cs Hp H.
  - exists (Some i). split; [reflexivity|]. intro j. split; [intro Q; injection Q as <-; constructor; exact H|]. intro Q. inversion Q as [cs0 i0 Hj|]; subst. f_equal. eapply (at_fun V D t W); eauto.
  - cbn [navigate_from]. rewrite (Hp op x (or_introl eq_refl)). destruct (navigate_spec fuel i cs op x H Hf) as (r & E & R). rewrite E. destruct r as [j|].
    + destruct (step_at cs op x j R) as (ds & Hds). destruct (IH j ds) as (r & E' & R'); [intros; eapply Hp; right; eauto|exact Hds|]. exists r. split; [exact E'|]. intro k. rewrite R'. split; [intro Q; econstructor; eauto|].
      intro Q. inversion Q as [|cs0 op0 x0 j0 ds0 rest0 i0 Hs Ha Hr]; subst. assert (j0 = j) by (eapply step_fun; eauto). subst j0. assert (ds0 = ds) by (eapply (at_inj V D t); eauto). subst ds0. exact Hr.
    + exists None. split; [reflexivity|]. intro j. split; [discriminate|]. intro Q. inversion Q as [|cs0 op0 x0 j0 ds0 rest0 i0 Hs Ha Hr]; subst. destruct (R j0 Hs).
Qed.
(** *** type_by_path *)
Lemma by_path_spec cs : forall cur pre first, at_ t cur pre -> (first = true <-> pre = []) -> names cs ->
  (first = true -> forall cs', cs <> lit "list" :: cs') ->
  exists k, at_ t (snd (by_path t cur first cs)) (pre ++ firstn k cs) /\
    if fst (by_path t cur first cs) then firstn k cs = cs else k < List.length cs /\ forall j, ~ at_ t j (pre ++ firstn (S k) cs).
Proof using W.
  induction cs as [|c cs IH]; intros cur pre first H Hfi Hn Hl; [exists 0; cbn; rewrite app_nil_r; auto|]. cbn [by_path]. destruct (child t cur c) as [j|] eqn:E.
  - assert (Q : text_eqb c (lit "list") && first = false) by (destruct first; [destruct (text_eqb_spec c (lit "list")) as [->|]; [destruct (Hl eq_refl cs eq_refl)|reflexivity]|apply andb_false_r]). rewrite Q.
    apply (at_child V D t W cur pre c j H) in E. destruct (IH j (pre ++ [c]) false E) as (k & K1 & K2).
    + split; [discriminate|]. intro R. destruct pre; discriminate.
    + intros z Hz. apply Hn. right. exact Hz.
    + discriminate.
    + exists (S k). cbn [firstn]. rewrite <- app_assoc in K1. split; [exact K1|]. destruct (fst (by_path t j false cs)); [congruence|]. destruct K2 as [K2 K3]. split; [cbn; lia|]. intros z Hz. apply (K3 z). rewrite <- app_assoc. exact Hz.
  - exists 0. cbn [fst snd firstn]. rewrite app_nil_r. split; [exact H|]. split; [cbn; lia|]. intros j Hj. exact (child_none cur pre c H E j Hj).
Qed.
End TREE.
End PATHS.
