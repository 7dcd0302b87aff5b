(** What [assign_parent_types] does to a tree. *)
From Coq Require Import List Arith NArith Bool String Lia Relations Sorted.
From Verif Require Import Common.Text Objtree.Ispath Objtree.Model Objtree.Lemmas Objtree.Spec Objtree.Wf.
Import ListNotations.
Open Scope nat_scope.

Section ASSIGN.
Variables V D : Type.
Notation objtree := (objtree V D).
Notation node := (node V D).
Notation at_n t i := (nth_error (graph t) i).
Arguments wf {V D}. Arguments alike {V D}.

Lemma parent_for_types (t t' : objtree) path n : types t' = types t -> parent_for t' path n = parent_for t path n.
Proof using Type. intro H. unfold parent_for. rewrite H. reflexivity. Qed.

Definition moved (n : node) (p : nat) : bool := match n_parent_path n with Some q => negb (q =? p) | None => true end.
Definition reports_for (t : objtree) (e : text * nat) : list preport :=
  match at_n t (snd e) with Some n => match parent_for t (fst e) n with Some (_, more) => more | None => [] end | None => [] end.

Lemma assign_loop_spec order : forall out t,
  NoDup (map snd order) ->
  (forall path i, In (path, i) order -> exists n p more, at_n t i = Some n /\ parent_for t path n = Some (p, more)) ->
  exists t', assign_loop order out t = Some (t', out ++ flat_map (reports_for t) order) /\ types t' = types t /\
    (forall i, ~ In i (map snd order) -> at_n t' i = at_n t i) /\
    (forall path i n, In (path, i) order -> at_n t i = Some n -> exists p more, parent_for t path n = Some (p, more) /\ at_n t' i = Some (with_parent_type n p)) /\
    (exists added, redirected t' = redirected t ++ added /\ NoDup added /\
      forall i, In i added <-> exists path n p more, In (path, i) order /\ at_n t i = Some n /\ parent_for t path n = Some (p, more) /\ moved n p = true).
Proof using Type.
  induction order as [|[path i] order IH]; intros out t Hn Hall.
  - exists t. cbn. rewrite app_nil_r. repeat split; auto; [intros ? ? ? []|]. exists []. rewrite app_nil_r. split; [reflexivity|]. split; [constructor|]. intro i. split; [intros []|intros (? & ? & ? & ? & [] & _)].
  - cbn [map snd] in Hn. inversion Hn as [|? ? Hni Hn']; subst. destruct (Hall path i (or_introl eq_refl)) as (n & p & more & Hi & Hp).
    set (r := if moved n p then redirected t ++ [i] else redirected t). set (t1 := {| graph := set_nth i (with_parent_type n p) (graph t); types := types t; redirected := r |}).
    assert (E1 : forall j, at_n t1 j = if j =? i then Some (with_parent_type n p) else at_n t j) by (intro j; apply (set_nth_get _ _ _ j n Hi)).
    assert (E2 : forall j path', In (path', j) order -> at_n t1 j = at_n t j).
    { intros j path' Hj. rewrite E1. destruct (Nat.eqb_spec j i) as [->|_]; [|reflexivity]. destruct Hni. apply in_map_iff. exists (path', i). auto. }
    destruct (IH (out ++ more) t1) as (t' & R1 & R2 & R3 & R4 & added & R5 & R6 & R7); [exact Hn'| |].
    { intros path' j Hj. destruct (Hall path' j (or_intror Hj)) as (m & q & more' & Hm & Hq). exists m, q, more'. rewrite (E2 j path' Hj), (parent_for_types t t1) by reflexivity. auto. }
    exists t'. split; [|split; [exact R2|split; [|split]]].
    + cbn [assign_loop]. rewrite Hi, Hp. match goal with |- context [assign_loop order _ ?x] => replace x with t1 end.
      * rewrite R1. f_equal. f_equal. rewrite <- app_assoc. f_equal. cbn [flat_map]. unfold reports_for at 2. cbn [snd fst]. rewrite Hi, Hp. f_equal.
        clear - E2. induction order as [|[p' j] order IHo]; [reflexivity|]. cbn [flat_map]. rewrite IHo; [|intros k q Hk; apply (E2 k q); right; exact Hk]. f_equal. unfold reports_for. cbn [snd fst].
        rewrite (E2 j p'); [|left; reflexivity]. destruct (at_n t j); [|reflexivity]. rewrite (parent_for_types t t1) by reflexivity. reflexivity.
      * unfold t1, r, moved. f_equal. destruct (n_parent_path n) as [q|]; [|reflexivity]. destruct (q =? p); reflexivity.
    + intros j Hj. cbn [map snd In] in Hj. rewrite R3 by tauto. rewrite E1. destruct (Nat.eqb_spec j i); [subst; tauto|reflexivity].
    + intros path' j m [Q|Hj] Hm.
      * injection Q as <- <-. rewrite Hi in Hm. injection Hm as <-. exists p, more. split; [exact Hp|]. rewrite R3 by exact Hni. rewrite E1, Nat.eqb_refl. reflexivity.
      * destruct (R4 path' j m Hj) as (q & more' & Q1 & Q2); [rewrite (E2 j path' Hj); exact Hm|]. rewrite (parent_for_types t t1) in Q1 by reflexivity. eauto.
    + exists ((if moved n p then [i] else []) ++ added). split; [|split].
      * rewrite R5. cbn [t1 redirected]. unfold r. destruct (moved n p); cbn [app]; [rewrite <- app_assoc|]; reflexivity.
      * destruct (moved n p); cbn [app]; [|exact R6]. constructor; [|exact R6]. intro Q. apply R7 in Q. destruct Q as (path' & ? & ? & ? & Q & _). apply Hni. apply in_map_iff. exists (path', i). auto.
      * intro j. rewrite in_app_iff, R7. split.
        -- intros [Q|(path' & m & q & more' & Hj & Hm & Hq & Hv)].
           ++ destruct (moved n p) eqn:M; [|destruct Q]. destruct Q as [<-|[]]. exists path, n, p, more. split; [left; reflexivity|auto].
           ++ rewrite (E2 j path' Hj) in Hm. rewrite (parent_for_types t t1) in Hq by reflexivity. exists path', m, q, more'. split; [right; exact Hj|auto].
        -- intros (path' & m & q & more' & [Q|Hj] & Hm & Hq & Hv).
           ++ injection Q as <- <-. rewrite Hi in Hm. injection Hm as <-. rewrite Hp in Hq. injection Hq as <- <-. left. rewrite Hv. left. reflexivity.
           ++ right. exists path', m, q, more'. rewrite (E2 j path' Hj), (parent_for_types t t1) by reflexivity. auto.
Qed.

(** ** The parent, in terms of components *)
Lemma render1 x : render [x] = SLASH :: x.
Proof using Type. cbn. rewrite app_nil_r. reflexivity. Qed.
Lemma path_is cs (s : string) y : names cs -> slash_free y -> lit s = SLASH :: y -> text_eqb (render cs) (lit s) = match cs with [x] => text_eqb x y | _ => false end.
Proof using Type.
  intros Hc Hy E. rewrite E, <- render1. destruct (text_eqb_spec (render cs) (render [y])) as [Q|Q].
  - apply render_inj in Q; [|exact Hc|intros c [<-|[]]; exact Hy]. subst cs. symmetry. apply text_eqb_refl.
  - destruct cs as [|x [|? ?]]; try reflexivity. destruct (text_eqb_spec x y) as [->|]; [congruence|reflexivity].
Qed.
Definition first_is (cs : list text) (y : text) : bool := match cs with [x] => text_eqb x y | _ => false end.
Lemma in_no_parent cs : names cs -> existsb (text_eqb (render cs)) no_parent = match cs with [x] => existsb (text_eqb x) (map lit ["datum"; "list"; "alist"; "savefile"; "world"; "vector"; "pixloc"; "callee"]%string) | _ => false end.
Proof using Type.
  intro Hc. unfold no_parent. cbn [map existsb].
  rewrite (path_is cs "/datum" (lit "datum")), (path_is cs "/list" (lit "list")), (path_is cs "/alist" (lit "alist")), (path_is cs "/savefile" (lit "savefile")), (path_is cs "/world" (lit "world")),
    (path_is cs "/vector" (lit "vector")), (path_is cs "/pixloc" (lit "pixloc")), (path_is cs "/callee" (lit "callee")); try exact Hc; try reflexivity; try sf.
  destruct cs as [|x [|? ?]]; reflexivity.
Qed.

Lemma unknown_get (t : objtree) q : wf t -> (get q (types t) = None <-> unknown t q).
Proof using Type.
  intro W. split.
  - intros H j ds Hj Hne E. subst q. pose proof (proj1 Hj) as Hd. apply (at_types V D t W j ds Hd Hne) in Hj. congruence.
  - intro U. destruct (get q (types t)) as [j|] eqn:E; [|reflexivity]. apply get_in in E. apply (wf_types V D t W) in E. destruct E as (n & Hn & Nj & P). destruct (at_some V D t W j n Hn) as (ds & Hds).
    destruct (U j ds Hds).
    + intros ->. apply Nj. apply (at_zero V D t W). exact Hds.
    + destruct Hds as (_ & n' & Hn' & P'). rewrite Hn in Hn'. injection Hn' as <-. congruence.
Qed.
Lemma right_get (t : objtree) q p : wf t -> match get q (types t) with Some i => i | None => 0 end = p -> (exists ds, at_ t p ds /\ ds <> [] /\ render ds = q) \/ (unknown t q /\ p = 0).
Proof using Type.
  intros W E. destruct (get q (types t)) as [j|] eqn:G; [|right; split; [apply unknown_get; assumption|congruence]]. subst j. left.
  apply get_in in G. apply (wf_types V D t W) in G. destruct G as (n & Hn & Nj & P). destruct (at_some V D t W p n Hn) as (ds & Hds). exists ds. split; [exact Hds|]. split.
  - intros ->. apply Nj. apply (at_zero V D t W). exact Hds.
  - destruct Hds as (_ & n' & Hn' & P'). rewrite Hn in Hn'. injection Hn' as <-. congruence.
Qed.
Lemma parent_for_eq (t : objtree) cs (n : node) : names cs -> cs <> [] ->
  parent_for t (render cs) n =
  Some (match chosen_parent cs (n_pvar n) with None => 0 | Some q => match get q (types t) with Some i => i | None => 0 end end,
    (if existsb (first_is cs) (map lit ["datum"; "list"; "alist"; "savefile"; "world"; "vector"; "pixloc"; "callee"]%string)
     then match n_pvar n with Some v => if pv_expr v then [NotAllowed (render cs)] else [] | None => [] end
     else (if fixed cs then [] else match n_pvar n with
             | Some v => match pv_value v with POther => [BadValue (render cs)] | PMissing => if first_is cs (lit "client") then [] else [BadValue (render cs)] | _ => [] end
             | None => [] end) ++
          match chosen_parent cs (n_pvar n) with Some q => match get q (types t) with Some _ => [] | None => [BadParent (render cs) q] end | None => [] end)).
Proof using Type.
  intros Hc Hne. unfold parent_for. rewrite in_no_parent by exact Hc.
  assert (F : existsb (first_is cs) (map lit ["datum"; "list"; "alist"; "savefile"; "world"; "vector"; "pixloc"; "callee"]%string) =
    match cs with [x] => existsb (text_eqb x) (map lit ["datum"; "list"; "alist"; "savefile"; "world"; "vector"; "pixloc"; "callee"]%string) | _ => false end).
  { unfold first_is. destruct cs as [|x [|? ?]]; [congruence| |]; cbn [map existsb]; reflexivity. }
  rewrite F. clear F. unfold parent_path_of, chosen_parent.
  rewrite (path_is cs "/atom" (lit "atom")), (path_is cs "/turf" (lit "turf")), (path_is cs "/area" (lit "area")), (path_is cs "/obj" (lit "obj")), (path_is cs "/mob" (lit "mob")), (path_is cs "/client" (lit "client")); try exact Hc; try reflexivity; try sf.
  destruct cs as [|x [|y cs]]; [congruence| |].
  - assert (Hx : slash_free x) by (apply Hc; left; reflexivity). cbn [fixed usual_parent first_is].
    assert (B : before_last_slash (render [x]) = Some []) by (rewrite render1; apply (before_last_slash_snoc [] x Hx)). rewrite B. clear B.
    set (P8 := map lit ["datum"; "list"; "alist"; "savefile"; "world"; "vector"; "pixloc"; "callee"]%string).
    assert (EP : existsb (text_eqb x) parentless = existsb (text_eqb x) P8 || text_eqb x (lit "client")).
    { unfold parentless, P8. cbn [map existsb]. rewrite !orb_false_r, !orb_assoc. reflexivity. }
    assert (EF : existsb (text_eqb x) (map lit ["datum"; "list"; "alist"; "savefile"; "world"; "vector"; "pixloc"; "callee"; "atom"; "turf"; "area"; "obj"; "mob"]%string) =
      existsb (text_eqb x) P8 || text_eqb x (lit "atom") || (text_eqb x (lit "turf") || text_eqb x (lit "area")) || (text_eqb x (lit "obj") || text_eqb x (lit "mob"))).
    { unfold P8. cbn [map existsb]. rewrite !orb_false_r, !orb_assoc. reflexivity. }
    rewrite EP, EF. clear EP EF. cbn [existsb]. rewrite !orb_false_r.
    destruct (existsb (text_eqb x) P8) eqn:E8; cbn [orb]; [reflexivity|].
    assert (Ecl : text_eqb x (lit "client") = true -> x = lit "client") by (intro Q; apply text_eqb_eq in Q; exact Q).
    destruct (text_eqb_spec x (lit "atom")) as [->|Na]; cbn [orb andb]; [change (text_eqb (lit "atom") (lit "client")) with false; cbn [option_map existsb first_is map app andb]; change (render [lit "datum"]) with (lit "/datum"); destruct (get (lit "/datum") (types t)); reflexivity|].
    destruct (text_eqb x (lit "turf") || text_eqb x (lit "area")) eqn:Eta; cbn [orb].
    { assert (text_eqb x (lit "client") = false) as ->.
      { destruct (text_eqb_spec x (lit "client")) as [->|]; [vm_compute in Eta; discriminate|reflexivity]. }
      cbn [andb orb]. cbn [option_map]. change (render [lit "atom"]) with (lit "/atom"). destruct (get (lit "/atom") (types t)) eqn:G; reflexivity. }
    destruct (text_eqb x (lit "obj") || text_eqb x (lit "mob")) eqn:Eom; cbn [orb].
    { assert (text_eqb x (lit "client") = false) as ->.
      { destruct (text_eqb_spec x (lit "client")) as [->|]; [vm_compute in Eom; discriminate|reflexivity]. }
      cbn [andb orb]. cbn [option_map]. change (render [lit "atom"; lit "movable"]) with (lit "/atom/movable"). destruct (get (lit "/atom/movable") (types t)) eqn:G; reflexivity. }
    destruct (text_eqb x (lit "client")) eqn:Ec.
    + cbn [orb andb option_map]. destruct (n_pvar n) as [[[s| p | |] ex]|]; cbn [option_map pv_value]; try reflexivity.
      * rewrite ?Ec. cbn [andb]. destruct s as [|c s]; [reflexivity|]. cbn [text_eqb]. destruct (get (c :: s) (types t)); reflexivity.
      * rewrite ?Ec. cbn [andb]. destruct (render p) as [|c s]; [reflexivity|]. cbn [text_eqb]. destruct (get (c :: s) (types t)); reflexivity.
    + cbn [orb andb option_map]. change (render [lit "datum"]) with (lit "/datum"). destruct (n_pvar n) as [[[s| p | |] ex]|]; cbn [option_map pv_value]; rewrite ?Ec; cbn [andb].
      * destruct (get s (types t)); reflexivity.
      * destruct (get (render p) (types t)); reflexivity.
      * destruct (get (lit "/datum") (types t)); reflexivity.
      * destruct (get (lit "/datum") (types t)); reflexivity.
      * destruct (get (lit "/datum") (types t)); reflexivity.
  - destruct (exists_last (l := x :: y :: cs)) as (init & z & E); [discriminate|]. assert (Hz : slash_free z) by (apply Hc; rewrite E; apply in_or_app; right; left; reflexivity).
    cbn [existsb orb fixed usual_parent first_is andb]. assert (B : before_last_slash (render (x :: y :: cs)) = Some (render (removelast (x :: y :: cs)))) by (rewrite E, render_snoc, removelast_last; apply before_last_slash_snoc; exact Hz).
    rewrite B. set (q := removelast (x :: y :: cs)). assert (Hq : exists c s, render q = c :: s) by (unfold q; cbn; eauto). destruct Hq as (c & s0 & Hq).
    replace (existsb (first_is (x :: y :: cs)) (map lit ["datum"; "list"; "alist"; "savefile"; "world"; "vector"; "pixloc"; "callee"]%string)) with false by reflexivity.
    cbn [option_map]. rewrite Hq. destruct (n_pvar n) as [[[s| p | |] ex]|]; cbn [option_map pv_value andb app].
      * destruct (get s (types t)); reflexivity.
      * destruct (get (render p) (types t)); reflexivity.
      * destruct (get (c :: s0) (types t)); reflexivity.
      * destruct (get (c :: s0) (types t)); reflexivity.
      * destruct (get (c :: s0) (types t)); reflexivity.
Qed.

Lemma right_parent_eq (t : objtree) cs v p : wf t ->
  (p = match chosen_parent cs v with None => 0 | Some q => match get q (types t) with Some i => i | None => 0 end end <-> right_parent t cs v p).
Proof using Type.
  intro W. unfold right_parent. destruct (chosen_parent cs v) as [q|]; [|reflexivity]. split.
  - intro E. apply right_get; [exact W|congruence].
  - intros [(ds & Hd & Hne & <-)|[U ->]].
    + apply (at_types V D t W p ds (proj1 Hd) Hne) in Hd. rewrite Hd. reflexivity.
    + apply (unknown_get t q W) in U. rewrite U. reflexivity.
Qed.
Lemma complaint_eq (t : objtree) cs (n : node) r : wf t -> cs <> [] ->
  (In r (if existsb (first_is cs) (map lit ["datum"; "list"; "alist"; "savefile"; "world"; "vector"; "pixloc"; "callee"]%string)
     then match n_pvar n with Some v => if pv_expr v then [NotAllowed (render cs)] else [] | None => [] end
     else (if fixed cs then [] else match n_pvar n with
             | Some v => match pv_value v with POther => [BadValue (render cs)] | PMissing => if first_is cs (lit "client") then [] else [BadValue (render cs)] | _ => [] end
             | None => [] end) ++
          match chosen_parent cs (n_pvar n) with Some q => match get q (types t) with Some _ => [] | None => [BadParent (render cs) q] end | None => [] end)
   <-> complaint t cs (n_pvar n) r).
Proof using Type.
  intros W Hne. set (P8 := map lit ["datum"; "list"; "alist"; "savefile"; "world"; "vector"; "pixloc"; "callee"]%string).
  assert (A : forall x, cs = [x] -> existsb (first_is cs) P8 = existsb (text_eqb x) P8) by (intros x ->; reflexivity).
  assert (B : forall x l, existsb (text_eqb x) l = true <-> In x l).
  { intros x l. rewrite existsb_exists. split; [intros (y & Hy & E); apply text_eqb_eq in E; subst; exact Hy|intro Q; exists x; split; [exact Q|apply text_eqb_refl]]. }
  assert (C : existsb (first_is cs) P8 = true -> exists x, cs = [x] /\ In x P8).
  { intro E. destruct cs as [|x [|y cs]]; [congruence| |]; [exists x; split; [reflexivity|apply B; rewrite <- (A x) by reflexivity; exact E]|]. clear - E. exfalso. induction P8; [discriminate|]. cbn in E. auto. }
  assert (F : existsb (first_is cs) P8 = true -> fixed cs = true /\ chosen_parent cs (n_pvar n) = None).
  { intro E. destruct (C E) as (x & -> & Hx). clear - Hx. unfold chosen_parent. cbn [fixed usual_parent].
    assert (E1 : existsb (text_eqb x) (map lit ["datum"; "list"; "alist"; "savefile"; "world"; "vector"; "pixloc"; "callee"; "atom"; "turf"; "area"; "obj"; "mob"]%string) = true).
    { rewrite existsb_exists. exists x. split; [|apply text_eqb_refl]. cbn in Hx |- *. tauto. }
    assert (E2 : existsb (text_eqb x) parentless = true).
    { rewrite existsb_exists. exists x. split; [|apply text_eqb_refl]. cbn in Hx |- *. tauto. }
    rewrite E1, E2. split; reflexivity. }
  destruct (existsb (first_is cs) P8) eqn:E8.
  - destruct (C eq_refl) as (x & Ex & Hx). destruct (F eq_refl) as [F1 F2]. split.
    + destruct (n_pvar n) as [v|] eqn:Ev; [|intros []]. destruct (pv_expr v) eqn:Ee; [|intros []]. intros [<-|[]]. apply (not_allowed _ _ _ _ _ x v); auto.
    + intro Q. destruct Q as [x' w E1 Hin Ew Ee|w Ef Ew Ev|q Eq U]; [rewrite Ew, Ee; left; reflexivity|congruence|congruence].
  - rewrite in_app_iff. split.
    + intros [Q|Q].
      * destruct (fixed cs) eqn:Ef; [destruct Q|]. destruct (n_pvar n) as [v|] eqn:Ev; [|destruct Q]. destruct (pv_value v) eqn:Eval; try (destruct Q; fail).
        -- destruct Q as [<-|[]]. apply (bad_value _ _ _ _ _ v); auto.
        -- destruct (first_is cs (lit "client")) eqn:Ec; [destruct Q|]. destruct Q as [<-|[]]. apply (bad_value _ _ _ _ _ v); auto. right. split; [exact Eval|]. intros ->. cbn [first_is] in Ec. rewrite text_eqb_refl in Ec. discriminate.
      * destruct (chosen_parent cs (n_pvar n)) as [q|] eqn:Eq; [|destruct Q]. destruct (get q (types t)) eqn:G; [destruct Q|]. destruct Q as [<-|[]]. apply bad_parent; [exact Eq|apply unknown_get; assumption].
    + intro Q. destruct Q as [x w E1 Hin Ew Ee|w Ef Ew Ev|q Eq U].
      * exfalso. apply B in Hin. change (existsb (text_eqb x) P8 = true) in Hin. rewrite <- (A x E1) in Hin. discriminate.
      * left. rewrite Ef, Ew. destruct Ev as [-> |[-> Nc]]; [left; reflexivity|]. destruct (first_is cs (lit "client")) eqn:Ec; [|left; reflexivity]. destruct cs as [|x [|? ?]]; try discriminate. cbn [first_is] in Ec. apply text_eqb_eq in Ec. congruence.
      * right. rewrite Eq. apply (unknown_get t q W) in U. rewrite U. left. reflexivity.
Qed.

(** ** The whole *)
Definition fresh (t : objtree) : Prop := redirected t = [] /\ forall i n, at_n t i = Some n -> n_parent_type n = None.
Lemma fresh_built (t : objtree) : built t -> fresh t.
Proof using Type.
  assert (U : forall (t : objtree) i n n', fresh t -> at_n t i = Some n -> n_parent_type n' = None -> fresh (update t i n')).
  { intros t0 i n n' [H1 H2] Hn E. split; [exact H1|]. intros j m Hm. cbn [update graph] in Hm. rewrite (set_nth_get _ _ _ j n Hn) in Hm. destruct (j =? i); [injection Hm as <-; exact E|exact (H2 j m Hm)]. }
  induction 1 as [|t parent name t' i Hb IH Hs E|t ty v t' Hb IH E|t ty name d v t' Hb IH E].
  - split; [reflexivity|]. intros [|i] n H; [injection H as <-; reflexivity|destruct i; discriminate].
  - unfold subtype_or_add in E. destruct (at_n t parent) as [n|] eqn:Hn; [|discriminate]. destruct (get name (n_children n)); [injection E as <- <-; exact IH|]. injection E as <- <-. destruct IH as [H1 H2]. split; [exact H1|]. cbn [graph].
    intros j m Hm. destruct (Nat.lt_ge_cases j (List.length (graph t))) as [Hj|Hj].
    + rewrite nth_error_app1 in Hm by (rewrite set_nth_length; exact Hj). rewrite (set_nth_get _ _ _ j n Hn) in Hm. destruct (j =? parent); [injection Hm as <-; cbn; exact (H2 _ _ Hn)|exact (H2 j m Hm)].
    + rewrite nth_error_app2 in Hm by (rewrite set_nth_length; exact Hj). apply nth_error_In in Hm. destruct Hm as [<-|[]]. reflexivity.
  - unfold set_parent_type_var in E. destruct (at_n t ty) as [n|] eqn:Hn; [|discriminate]. injection E as <-. apply (U t ty n); [exact IH|exact Hn|exact (proj2 IH _ _ Hn)].
  - unfold register_proc in E. destruct (at_n t ty) as [n|] eqn:Hn; [|discriminate]. injection E as <-. apply (U t ty n); [exact IH|exact Hn|exact (proj2 IH _ _ Hn)].
Qed.
Record tidy (t : objtree) : Prop := {
  td_wf : wf t;
  td_root : forall n, at_n t 0 = Some n -> n_parent_type n = None;
  td_parent : forall i n, at_n t i = Some n -> i <> 0 -> exists p m, n_parent_type n = Some p /\ at_n t p = Some m;
  td_nodup : NoDup (redirected t);
  td_redirected : forall i, In i (redirected t) <-> exists n p, at_n t i = Some n /\ i <> 0 /\ n_parent_type n = Some p /\ n_parent_path n <> Some p }.
Lemma types_ids (t : objtree) : wf t -> NoDup (map snd (types t)).
Proof using Type.
  intro W. pose proof (wf_tkeys V D t W) as Hk. assert (H : forall a i b, In (a, i) (types t) -> In (b, i) (types t) -> a = b).
  { intros a i b Ha Hb. apply (wf_types V D t W) in Ha, Hb. destruct Ha as (n & Hn & _ & P), Hb as (m & Hm & _ & Q). congruence. }
  revert H Hk. induction (types t) as [|[k i] l IH]; [constructor|]. intros H Hk. cbn [map fst snd] in *. inversion Hk as [|? ? H1 H2]; subst. constructor.
  - intro Q. apply in_map_iff in Q. destruct Q as ([k' i'] & E & Q). cbn in E. subst i'. apply H1. assert (k = k') by (apply (H k i k'); [left; reflexivity|right; exact Q]). subst k'. apply in_map_iff. exists (k, i). auto.
  - apply IH; [|exact H2]. intros a j b Ha Hb. apply (H a j b); right; assumption.
Qed.
Theorem assigned (t : objtree) : wf t -> fresh t -> exists t' out, assign_parent_types t = Some (t', out) /\ alike t t' /\ tidy t' /\
  (forall i n cs, at_n t i = Some n -> at_ t i cs -> cs <> [] -> exists p, at_n t' i = Some (with_parent_type n p) /\ right_parent t cs (n_pvar n) p) /\
  (forall n, at_n t 0 = Some n -> at_n t' 0 = Some n) /\
  (forall r, In r out <-> exists i n cs, at_n t i = Some n /\ at_ t i cs /\ cs <> [] /\ complaint t cs (n_pvar n) r).
Proof using Type.
  intros W [R0 F0].
  assert (N : forall i n cs, at_n t i = Some n -> at_ t i cs -> n_path n = render cs).
  { intros i n cs Hn (_ & m & Hm & P). congruence. }
  assert (T : forall path i, In (path, i) (types t) <-> exists cs, at_ t i cs /\ cs <> [] /\ path = render cs).
  { intros path i. rewrite (wf_types V D t W). split.
    - intros (n & Hn & Ni & P). destruct (at_some V D t W i n Hn) as (cs & Hcs). exists cs. split; [exact Hcs|]. split; [intros ->; apply Ni, (at_zero V D t W); exact Hcs|rewrite <- P; apply (N i n cs Hn Hcs)].
    - intros (cs & Hcs & Hne & ->). pose proof Hcs as (_ & n & Hn & P). exists n. split; [exact Hn|]. split; [|exact P]. intros ->. apply Hne. apply (at_inj V D t 0); [exact Hcs|apply (at_zero V D t W); reflexivity]. }
  assert (Z : forall i, i <> 0 -> at_n t i <> None -> In i (map snd (types t))).
  { intros i Ni H. destruct (at_n t i) as [n|] eqn:Hn; [|congruence]. apply in_map_iff. exists (n_path n, i). split; [reflexivity|]. apply (wf_types V D t W). eauto. }
  assert (Z0 : ~ In 0 (map snd (types t))).
  { intro Q. apply in_map_iff in Q. destruct Q as ([q k] & E & Q). cbn in E. subst k. apply (wf_types V D t W) in Q. destruct Q as (_ & _ & Q & _). congruence. }
  destruct (assign_loop_spec (types t) [] t) as (t' & E & Ety & K & A & added & Er & Hnd & Ha).
  { apply types_ids. exact W. }
  { intros path i Hin. apply T in Hin. destruct Hin as (cs & Hcs & Hne & ->). pose proof Hcs as (Hc & n & Hn & P). exists n. rewrite (parent_for_eq t cs n Hc Hne). eauto. }
  assert (A' : forall i n cs, at_n t i = Some n -> at_ t i cs -> cs <> [] -> exists p, at_n t' i = Some (with_parent_type n p) /\ right_parent t cs (n_pvar n) p).
  { intros i n cs Hn Hcs Hne. destruct (A (render cs) i n) as (p & more & P1 & P2); [apply T; eauto|exact Hn|]. exists p. split; [exact P2|].
    rewrite (parent_for_eq t cs n (proj1 Hcs) Hne) in P1. injection P1 as P1 _. apply right_parent_eq; [exact W|congruence]. }
  assert (K0 : forall n, at_n t 0 = Some n -> at_n t' 0 = Some n) by (intros n Hn; rewrite K; [exact Hn|exact Z0]).
  assert (AL : alike t t').
  { split; [exact Ety|]. intro i. destruct (Nat.eq_dec i 0) as [->|Ni]; [rewrite (K 0 Z0); destruct (at_n t 0); [apply same_place_refl|exact I]|].
    destruct (at_n t i) as [n|] eqn:Hn.
    - destruct (at_some V D t W i n Hn) as (cs & Hcs). destruct (A' i n cs Hn Hcs) as (p & Hp & _); [intros ->; apply Ni, (at_zero V D t W); exact Hcs|]. rewrite Hp. repeat split.
    - rewrite K; [rewrite Hn; exact I|]. intro Q. apply in_map_iff in Q. destruct Q as ([q k] & Ek & Q). cbn in Ek. subst k. apply (wf_types V D t W) in Q. destruct Q as (n & Hn' & _). congruence. }
  assert (B : forall i n', at_n t' i = Some n' -> exists n, at_n t i = Some n /\ (i = 0 /\ n' = n \/ i <> 0 /\ exists cs p, at_ t i cs /\ cs <> [] /\ n' = with_parent_type n p /\ right_parent t cs (n_pvar n) p)).
  { intros i n' Hn'. destruct AL as [_ AL]. specialize (AL i). rewrite Hn' in AL. destruct (at_n t i) as [n|] eqn:Hn; [|destruct AL]. exists n. split; [reflexivity|].
    destruct (Nat.eq_dec i 0) as [->|Ni]; [left; split; [reflexivity|]; rewrite (K0 n Hn) in Hn'; congruence|right; split; [exact Ni|]].
    destruct (at_some V D t W i n Hn) as (cs & Hcs). destruct (A' i n cs Hn Hcs) as (p & Hp & Hr); [intros ->; apply Ni, (at_zero V D t W); exact Hcs|]. exists cs, p. split; [exact Hcs|]. split; [intros ->; apply Ni, (at_zero V D t W); exact Hcs|]. split; [congruence|exact Hr]. }
  exists t', (flat_map (reports_for t) (types t)). split; [exact E|]. split; [exact AL|]. split; [|split; [exact A'|split; [exact K0|]]].
  - constructor.
    + apply (wf_alike V D t); [exact W|exact AL|]. intros i n' name p Hn' Q. destruct (B i n' Hn') as (n & Hn & [[_ ->]|(_ & cs & q & _ & _ & -> & _)]); exact (wf_procs V D t W _ _ _ _ Hn Q).
    + intros n' Hn'. destruct (B 0 n' Hn') as (n & Hn & [[_ ->]|(Q & _)]); [exact (F0 _ _ Hn)|congruence].
    + intros i n' Hn' Ni. destruct (B i n' Hn') as (n & Hn & [[Q _]|(_ & cs & q & Hcs & Hne & -> & Hr)]); [congruence|]. exists q.
      assert (Q : exists m, at_n t q = Some m).
      { unfold right_parent in Hr. destruct (wf_root V D t W) as (r & Hr0 & _). destruct (chosen_parent cs (n_pvar n)) as [s|]; [destruct Hr as [(ds & (_ & m & Hm & _) & _)|[_ ->]]; eauto|subst q; eauto]. }
      destruct Q as (m & Hm). destruct AL as [_ AL]. specialize (AL q). rewrite Hm in AL. destruct (at_n t' q) as [m'|]; [|destruct AL]. exists m'. split; reflexivity.
    + rewrite Er, R0. exact Hnd.
    + intro i. rewrite Er, R0. cbn [app]. rewrite Ha. split.
      * intros (path & n & p & more & Hin & Hn & Hp & Hm). destruct (A path i n Hin Hn) as (p' & more' & Hp' & Hi). rewrite Hp in Hp'. injection Hp' as <- <-. exists (with_parent_type n p), p. split; [exact Hi|].
        split; [intros ->; apply Z0; apply in_map_iff; exists (path, 0); auto|]. split; [reflexivity|]. cbn [with_parent_type n_parent_path]. unfold moved in Hm. intro Q. rewrite Q, Nat.eqb_refl in Hm. discriminate.
      * intros (n' & p & Hn' & Ni & Hp & Hq). destruct (B i n' Hn') as (n & Hn & [[Q _]|(_ & cs & q & Hcs & Hne & -> & Hr)]); [congruence|]. cbn [with_parent_type n_parent_type n_parent_path] in Hp, Hq. injection Hp as ->.
        destruct (A (render cs) i n) as (p' & more' & Hp' & Hi); [apply T; eauto|exact Hn|]. rewrite Hn' in Hi. assert (p' = p) by (injection Hi as Hi; congruence). subst p'. exists (render cs), n, p, more'. split; [apply T; eauto|]. split; [exact Hn|]. split; [exact Hp'|].
        unfold moved. destruct (n_parent_path n) as [q|]; [|reflexivity]. destruct (Nat.eqb_spec q p) as [->|]; [congruence|reflexivity].
  - intro r. rewrite in_flat_map. split.
    + intros ([path i] & Hin & Q). apply T in Hin. destruct Hin as (cs & Hcs & Hne & ->). pose proof Hcs as (Hc & n & Hn & P). exists i, n, cs. split; [exact Hn|]. split; [exact Hcs|]. split; [exact Hne|].
      unfold reports_for in Q. cbn [snd fst] in Q. rewrite Hn, (parent_for_eq t cs n Hc Hne) in Q. apply complaint_eq in Q; assumption.
    + intros (i & n & cs & Hn & Hcs & Hne & Q). exists (render cs, i). split; [apply T; eauto|]. unfold reports_for. cbn [snd fst]. rewrite Hn, (parent_for_eq t cs n (proj1 Hcs) Hne). apply complaint_eq; assumption.
Qed.
End ASSIGN.
