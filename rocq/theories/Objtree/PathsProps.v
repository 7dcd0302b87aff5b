(** C49: a type is known by its path. *)
From Coq Require Import List Arith NArith Bool String Lia Relations Sorted.
From Verif Require Import Common.Text Parse.Ast Objtree.Ispath Objtree.Model Objtree.Lemmas Objtree.Spec Objtree.Wf Objtree.Assign Objtree.Paths.
Import ListNotations.
Open Scope nat_scope.

Section C49.
Variables V D : Type.
Implicit Type t : objtree V D.

(** Every type has one path and every path belongs to at most one type; looking up a text gives the type whose path it is. *)
Theorem C49_find : forall t, tree t ->
  (forall i, i < List.length (graph t) <-> exists cs, at_ t i cs) /\
  (forall i cs ds, at_ t i cs -> at_ t i ds -> cs = ds) /\
  (forall i j cs, at_ t i cs -> at_ t j cs -> i = j) /\
  (forall s i, find t s = Some i <-> exists cs, at_ t i cs /\ s = render cs).
Proof using Type.
  intros t T. pose proof (tree_wf V D t T) as W. split; [|split; [|split]].
  - intro i. split.
    + intro H. apply nth_error_Some in H. destruct (nth_error (graph t) i) as [n|] eqn:E; [|congruence]. exact (at_some V D t W i n E).
    + intros (cs & _ & n & Hn & _). exact (nth_lt _ _ _ Hn).
  - apply at_inj.
  - apply (at_fun V D t W).
  - intros s i. unfold find. destruct s as [|c s].
    + split.
      * intro Q. injection Q as <-. exists []. split; [apply (at_zero V D t W); reflexivity|reflexivity].
      * intros (cs & H & E). symmetry in E. apply render_nil in E. subst cs. apply (at_zero V D t W) in H. congruence.
    + split.
      * intro G. apply get_in in G. apply (wf_types V D t W) in G. destruct G as (n & Hn & Ni & P). destruct (at_some V D t W i n Hn) as (cs & Hcs). exists cs. split; [exact Hcs|]. destruct Hcs as (_ & m & Hm & Pm). congruence.
      * intros (cs & H & E). rewrite E. apply (at_types V D t W); [exact (proj1 H)|intros ->; discriminate|exact H].
Qed.
(** The type in a type with a given name, the type a type is in, in terms of the components of their paths *)
Theorem C49_place : forall t, tree t ->
  (forall i cs x j, at_ t i cs -> (child t i x = Some j <-> at_ t j (cs ++ [x]))) /\
  (forall i cs, at_ t i cs -> NoDup (children t i) /\ forall j, In j (children t i) <-> exists x, at_ t j (cs ++ [x])) /\
  (forall i j, parent_path t j = Some i <-> exists cs x, at_ t i cs /\ at_ t j (cs ++ [x])) /\
  (forall i cs, at_ t i cs -> cs <> [] -> exists p, at_ t p (removelast cs)).
Proof using Type.
  intros t T. pose proof (tree_wf V D t T) as W. split; [apply (at_child V D t W)|]. split; [|split; [intros i j; apply (at_parent V D t W)|]].
  - intros i cs H. pose proof H as (_ & n & Hn & _). unfold children, node_at. rewrite Hn. split.
    + pose proof (wf_keys V D t W i n Hn) as K. assert (U : forall a j b, In (a, j) (n_children n) -> In (b, j) (n_children n) -> a = b).
      { intros a j b Ha Hb. assert (Q : at_ t j (cs ++ [a])) by (apply (at_child V D t W i cs a j H); unfold child, node_at; rewrite Hn; apply get_of; assumption).
        assert (Q' : at_ t j (cs ++ [b])) by (apply (at_child V D t W i cs b j H); unfold child, node_at; rewrite Hn; apply get_of; assumption).
        pose proof (at_inj V D t j _ _ Q Q') as E. apply app_inv_head in E. congruence. }
      revert K U. induction (n_children n) as [|[a j] l IH]; [constructor|]. cbn [map fst snd]. intros K U. inversion K as [|? ? K1 K2]; subst. constructor.
      * intro Q. apply in_map_iff in Q. destruct Q as ([b j'] & E & Q). cbn in E. subst j'. apply K1. assert (a = b) by (apply (U a j b); [left; reflexivity|right; exact Q]). subst b. apply in_map_iff. exists (a, j). auto.
      * apply IH; [exact K2|]. intros x y z Hx Hz. apply (U x y z); right; assumption.
    + intro j. rewrite in_map_iff. split.
      * intros ([x j'] & E & Q). cbn in E. subst j'. exists x. apply (at_child V D t W i cs x j H). unfold child, node_at. rewrite Hn. apply get_of; [exact (wf_keys V D t W i n Hn)|exact Q].
      * intros (x & Q). apply (at_child V D t W i cs x j H) in Q. unfold child, node_at in Q. rewrite Hn in Q. apply get_in in Q. exists (x, j). auto.
  - intros i cs H Hne. destruct (exists_last Hne) as (init & x & ->). rewrite removelast_last. destruct (at_prefix V D t W i init x H) as (p & Hp & _). eauto.
Qed.
(** Adding a type: it is there afterwards, what was there stays as it is, and nothing else appears. *)
Theorem C49_add : forall t parent cs x, built t -> at_ t parent cs -> slash_free x ->
  exists t' j, subtype_or_add t parent x = Some (t', j) /\ built t' /\
    (forall k ds, at_ t' k ds <-> at_ t k ds \/ (k = j /\ ds = cs ++ [x])) /\
    ((exists k, at_ t k (cs ++ [x])) -> t' = t) /\
    (forall k n, nth_error (graph t) k = Some n -> exists n', nth_error (graph t') k = Some n' /\ n_procs n' = n_procs n /\ n_pvar n' = n_pvar n).
Proof using Type.
  intros t parent cs x B H Hx. pose proof (wf_built V D t B) as W. pose proof H as (_ & n & Hn & _).
  assert (E : exists t' j, subtype_or_add t parent x = Some (t', j)) by (unfold subtype_or_add; rewrite Hn; destruct (get x (n_children n)); eauto).
  destruct E as (t' & j & E). exists t', j. split; [exact E|]. split; [exact (built_type V D t parent x t' j B Hx E)|]. destruct (wf_add V D t parent x t' j W Hx E) as (_ & A). destruct (A cs H) as (_ & A'). split; [exact A'|]. split.
  - intros (k & Hk). apply (at_child V D t W parent cs x k H) in Hk. unfold child, node_at in Hk. rewrite Hn in Hk. unfold subtype_or_add in E. rewrite Hn, Hk in E. congruence.
  - intros k m Hm. unfold subtype_or_add in E. rewrite Hn in E. destruct (get x (n_children n)); [injection E as <- <-; eauto|]. injection E as <- <-. cbn [graph]. rewrite nth_error_app1 by (rewrite set_nth_length; exact (nth_lt _ _ _ Hm)).
    rewrite (set_nth_get _ _ _ k n Hn). destruct (Nat.eqb_spec k parent) as [->|]; [rewrite Hn in Hm; injection Hm as <-; eexists; split; [reflexivity|auto]|eauto].
Qed.
(** Assigning the parents always works and changes no path. *)
Theorem C49_finish : forall t, built t -> exists t' out, assign_parent_types t = Some (t', out) /\ forall i cs, at_ t' i cs <-> at_ t i cs.
Proof using Type.
  intros t B. destruct (finish_total V D t B) as (t' & out & E & A & _). exists t', out. split; [exact E|]. intros i cs. symmetry. apply (alike_at V D t t' A).
Qed.
(** Visiting a type and everything in it: each type whose path extends its path, exactly once, in the order of the paths; the number of
    types bounds the depth. *)
Theorem C49_recurse : forall t i cs fuel, tree t -> at_ t i cs -> List.length (graph t) <= fuel ->
  exists l paths, recurse t fuel i = Some l /\ Forall2 (at_ t) l paths /\ StronglySorted plt paths /\ NoDup l /\
    forall j, In j l <-> exists es, at_ t j (cs ++ es).
Proof using Type.
  intros t i cs fuel T H Hf. pose proof (tree_wf V D t T) as W. destruct (recurse_spec V D t W fuel i cs H) as (l & paths & E & F & I & S); [lia|]. exists l, paths. split; [exact E|]. split; [exact F|]. split; [exact S|]. split.
  - assert (N : NoDup paths).
    { clear - S. induction S as [|a p S IH H]; [constructor|]. constructor; [|exact IH]. intro Q. rewrite Forall_forall in H. exact (plt_irrefl a (H a Q)). }
    clear - F N. revert N. induction F as [|j ds l paths Hj F IH]; [constructor|]. intro N. inversion N as [|? ? N1 N2]; subst. constructor; [|apply IH; exact N2]. intro Q. apply N1.
    revert Q. clear - Hj F. induction F as [|a b l p Hab F IH]; [intros []|]. intros [->|Q]; [left; eapply (at_inj V D t); eauto|right; auto].
  - intro j. assert (G : In j l <-> exists ds, In ds paths /\ at_ t j ds).
    { clear - F W. induction F as [|a b l p Hab F IH]; [split; [intros []|intros (? & [] & _)]|]. cbn [In]. rewrite IH. split.
      - intros [<-|(ds & H1 & H2)]; [eauto|eauto].
      - intros (ds & [<-|H1] & H2); [left; eapply (at_fun V D t W); eauto|right; eauto]. }
    rewrite G. split.
    + intros (ds & Hin & Hj). apply I in Hin. destruct Hin as (_ & es & ->). eauto.
    + intros (es & Hj). exists (cs ++ es). split; [|exact Hj]. apply I. split; [eauto|]. exists es. reflexivity.
Qed.
(** Following a path: slash, dot and colon mean what the specification says, and a path that starts with a slash starts at the root. *)
Theorem C49_navigate : forall t i cs op x fuel, tree t -> at_ t i cs -> List.length (graph t) <= fuel ->
  exists r, navigate t fuel i op x = Some r /\ forall j, r = Some j <-> step t cs op x j.
Proof using Type.
  intros t i cs op x fuel T H Hf. pose proof (tree_wf V D t T) as W. destruct (navigate_spec V D t W fuel i cs op x H Hf) as (r & E & R). exists r. split; [exact E|]. intro j. destruct r as [k|].
  - split; [intro Q; injection Q as <-; exact R|]. intro Q. f_equal. eapply step_fun; eauto.
  - split; [discriminate|]. intro Q. destruct (R j Q).
Qed.
Definition is_proc_word (x : text) : Prop := x = lit "proc" \/ x = lit "verb".
Theorem C49_navigate_path : forall t i cs pieces fuel, tree t -> at_ t i cs -> List.length (graph t) <= fuel ->
  (forall op x, In (op, x) pieces -> ~ is_proc_word x) ->
  exists r, navigate_path t fuel i pieces = Some (option_map NType r) /\
    forall j, r = Some j <-> reaches t (match pieces with (PathSlash, _) :: _ => [] | _ => cs end) pieces j.
Proof using Type.
  intros t i cs pieces fuel T H Hf Hp. pose proof (tree_wf V D t T) as W. unfold navigate_path. apply (navigate_from_spec V D t W); [exact Hf| |].
  - intros op x Hin. specialize (Hp op x Hin). unfold proc_kind, is_proc_word in *. destruct (text_eqb_spec x (lit "proc")) as [->|]; [tauto|]. destruct (text_eqb_spec x (lit "verb")) as [->|]; [tauto|reflexivity].
  - destruct pieces as [|[[] ?] ?]; try exact H. apply (at_zero V D t W). reflexivity.
Qed.
(** Following an absolute path is looking it up. *)
Theorem C49_absolute : forall t i cs ds fuel, tree t -> at_ t i cs -> List.length (graph t) <= fuel ->
  ds <> [] -> (forall x, In x ds -> slash_free x /\ ~ is_proc_word x) ->
  navigate_path t fuel i (map (fun x => (PathSlash, x)) ds) = Some (option_map NType (find t (render ds))).
Proof using Type.
  intros t i cs ds fuel T H Hf Hne Hd. pose proof (tree_wf V D t T) as W. destruct (C49_navigate_path t i cs (map (fun x => (PathSlash, x)) ds) fuel T H Hf) as (r & E & R).
  { intros op x Hin. apply in_map_iff in Hin. destruct Hin as (y & Q & Hin). injection Q as <- <-. apply Hd. exact Hin. }
  rewrite E. do 2 f_equal. replace (match map (fun x : text => (PathSlash, x)) ds with (PathSlash, _) :: _ => [] | _ => cs end) with (@nil text) in R by (destruct ds; [congruence|reflexivity]).
  assert (G : forall es pre j, names (pre ++ es) -> (exists k, at_ t k pre) -> (reaches t pre (map (fun x => (PathSlash, x)) es) j <-> at_ t j (pre ++ es))).
  { induction es as [|x es IH]; intros pre j Hn (k & Hk); cbn [map].
    - rewrite app_nil_r. split; [intro Q; inversion Q; subst; assumption|constructor; assumption].
    - split.
      + intro Q. inversion Q as [|cs0 op0 x0 j0 ds0 rest0 i0 Hs Ha Hr]; subst. cbn [step] in Hs. assert (ds0 = pre ++ [x]) by (eapply (at_inj V D t); eauto). subst ds0. apply IH in Hr; [rewrite <- app_assoc in Hr; exact Hr|rewrite <- app_assoc; exact Hn|eauto].
      + intro Q. assert (P : exists p, at_ t p (pre ++ [x])).
        { clear - Q W. revert j Q. induction es as [|e es IHe] using rev_ind; intros j Q; [eauto|]. rewrite app_comm_cons, app_assoc in Q. apply (at_prefix V D t W) in Q. destruct Q as (p & Hp & _). eauto. }
        destruct P as (p & Hp). apply (reaches_on V D t pre PathSlash x p (pre ++ [x])); [exact Hp|exact Hp|]. apply IH; [rewrite <- app_assoc; exact Hn|eauto|rewrite <- app_assoc; exact Q]. }
  assert (G0 : forall j, r = Some j <-> find t (render ds) = Some j).
  { intro j. rewrite R, (G ds [] j); [|intros c Hc; apply Hd; exact Hc|exists 0; apply (at_zero V D t W); reflexivity]. cbn [app]. destruct (C49_find t T) as (_ & _ & _ & F). rewrite F. split.
    - intro Q. eauto.
    - intros (es & Q & Er). apply render_inj in Er; [congruence|intros c Hc; apply Hd; exact Hc|exact (proj1 Q)]. }
  destruct r as [j|]; [symmetry; apply G0; reflexivity|]. destruct (find t (render ds)) as [j|]; [|reflexivity]. apply G0. reflexivity.
Qed.
(** Looking up a list of components: as with [find], except that everything in [/list] is [/list] itself; and if the type does not
    exist, the nearest type outwards that does is given. *)
Theorem C49_type_by_path : forall t cs, tree t -> names cs ->
  (forall rest, cs = lit "list" :: rest -> type_by_path t cs = find t (render [lit "list"])) /\
  ((forall rest, cs <> lit "list" :: rest) -> type_by_path t cs = find t (render cs) /\
    exists k, at_ t (snd (type_by_path_approx t cs)) (firstn k cs) /\
      if fst (type_by_path_approx t cs) then firstn k cs = cs else k < List.length cs /\ forall j, ~ at_ t j (firstn (S k) cs)).
Proof using Type.
  intros t cs T Hn. pose proof (tree_wf V D t T) as W. destruct (C49_find t T) as (_ & _ & _ & F). assert (Z : at_ t 0 []) by (apply (at_zero V D t W); reflexivity). split.
  - intros rest ->. unfold type_by_path, type_by_path_approx. cbn [by_path]. rewrite text_eqb_refl. cbn [andb].
    assert (Q : forall j, child t 0 (lit "list") = Some j <-> find t (render [lit "list"]) = Some j).
    { intro j. rewrite (at_child V D t W 0 [] (lit "list") j Z), F. cbn [app]. split; [eauto|]. intros (ds & H & E). apply render_inj in E; [congruence|intros c [<-|[]]; apply Hn; left; reflexivity|exact (proj1 H)]. }
    destruct (child t 0 (lit "list")) as [j|]; [symmetry; apply Q; reflexivity|]. destruct (find t (render [lit "list"])) as [j|]; [symmetry; f_equal; specialize (Q j)|reflexivity]. destruct Q as [_ Q]. specialize (Q eq_refl). discriminate.
  - intro Hl. destruct (by_path_spec V D t W cs 0 [] true Z) as (k & K1 & K2); [tauto|exact Hn|intros _; exact Hl|]. cbn [app] in K1, K2. unfold type_by_path, type_by_path_approx. split; [|exists k; auto].
    destruct (by_path t 0 true cs) as [ex j]. cbn [fst snd] in K1, K2. destruct ex.
    + rewrite K2 in K1. symmetry. apply F. eauto.
    + destruct (find t (render cs)) as [m|] eqn:E; [|reflexivity]. apply F in E. destruct E as (ds & Hm & E). apply render_inj in E; [|exact Hn|exact (proj1 Hm)]. subst ds. exfalso. destruct K2 as [K2 K3].
      assert (G : forall l j, at_ t j (firstn (S k) cs ++ l) -> exists p, at_ t p (firstn (S k) cs)).
      { clear - W. induction l as [|e l IHl] using rev_ind; intros j Q; [rewrite app_nil_r in Q; eauto|]. rewrite app_assoc in Q. apply (at_prefix V D t W) in Q. destruct Q as (p & Hp & _). eauto. }
      destruct (G (skipn (S k) cs) m) as (p & Hp); [rewrite firstn_skipn; exact Hm|]. exact (K3 p Hp).
Qed.
End C49.
