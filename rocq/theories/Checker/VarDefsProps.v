(** C67: definitions of variables. *)
From Coq Require Import List Arith NArith Bool String Lia Relations.
From Verif Require Import Common.Text Objtree.Ispath Objtree.Model Objtree.Lemmas Objtree.Spec Objtree.Wf Objtree.Assign Objtree.Paths Objtree.Inherit Objtree.Calls Objtree.PathsProps Objtree.InheritProps Objtree.Demo
  Checker.CallTree Checker.DirectivesProps Checker.Kwargs Checker.KwargsProps Checker.VarDefs.
Import ListNotations.
Open Scope nat_scope.

(** ** Specification *)
Section SPEC.
Variables V D L : Type.
Variable t : objtree V D.
Variable vars : nat -> list (text * typevar L).
(** [ty] defines the variable [name] as [v], and inherits a declaration of it from [parent], a proper ancestor but not the root *)
Definition inherited (ty : nat) (name : text) (v : typevar L) (parent : nat) (d : declaration L) : Prop :=
  In (name, v) (vars ty) /\ subtype t ty parent /\ parent <> ty /\ parent <> 0 /\ exists pv, In (name, pv) (vars parent) /\ tv_decl pv = Some d.
(** the variables that are not looked at *)
Definition exempt (ty : nat) (name : text) (v : typevar L) : Prop :=
  name = lit "vars" \/ (at_ t ty [lit "client"] /\ name = lit "parent_type") \/ (tv_decl v <> None /\ tv_builtin v = true).
(** what is wrong *)
Definition wrong (r : report L) : Prop :=
  exists v d, inherited (v_type r) (v_name r) v (v_parent r) d /\ ~ exempt (v_type r) (v_name r) v /\ v_note r = d_loc d /\
    match v_why r with
    | Redeclares => exists my, tv_decl v = Some my /\ v_loc r = d_loc my
    | OverridesFinal => d_final d = true /\ v_loc r = tv_loc v
    | OverridesPrivate => d_private d = true /\ v_loc r = tv_loc v
    end.
End SPEC.
Arguments inherited {V D L}. Arguments exempt {V D L}. Arguments wrong {V D L}.

Section C67.
Variables V D L : Type.
Variable t : objtree V D.
Variable vars : nat -> list (text * typevar L).
Variable pre : list preport.
Hypothesis F : finished t pre.
Hypothesis AC : acyclic t.
Hypothesis Keys : forall i, NoDup (map fst (vars i)).
Notation check_var := (check_var V D L t vars).
Notation check_parents := (check_parents V D L t vars).
Notation check_type := (check_type V D L t vars).
Notation wf_t := (td_wf V D t (finished_tidy V D t pre F)).

Lemma is_zero i : i < List.length (graph t) -> (is_root t i = true <-> i = 0).
Proof using F.
  intro H. destruct (nth_error (graph t) i) as [n|] eqn:Hn; [|apply nth_error_None in Hn; lia]. unfold is_root, path_of, node_at. rewrite Hn. destruct (at_some V D t wf_t i n Hn) as (cs & Hcs). pose proof Hcs as (_ & m & Hm & E). rewrite Hn in Hm. injection Hm as <-. rewrite E. split.
  - destruct cs; [|discriminate]. intros _. apply (at_zero V D t wf_t). exact Hcs.
  - intros ->. destruct (proj2 (at_zero V D t wf_t 0) eq_refl) as (_ & m & Hm & E0). rewrite Hn in Hm. injection Hm as <-. rewrite <- E, E0. reflexivity.
Qed.
Lemma is_client i : i < List.length (graph t) -> (text_eqb (path_of t i) (lit "/client") = true <-> at_ t i [lit "client"]).
Proof using F.
  intro H. destruct (nth_error (graph t) i) as [n|] eqn:Hn; [|apply nth_error_None in Hn; lia]. unfold path_of, node_at. rewrite Hn. split.
  - intro E. apply text_eqb_eq in E. split; [intros c [<-|[]]; vm_compute; intuition discriminate|]. exists n. split; [exact Hn|exact E].
  - intros (_ & m & Hm & E). rewrite Hn in Hm. injection Hm as <-. rewrite E. apply text_eqb_refl.
Qed.
Lemma line_up i l : up V D t i l -> forall fuel, List.length l <= fuel -> line fuel (parent_type t) i = Some l.
Proof using Type.
  induction 1 as [i E|i p l E H IH]; intros [|fuel] Hf; cbn [List.length] in Hf; try lia; cbn [line]; rewrite E; [reflexivity|]. rewrite IH by lia. reflexivity.
Qed.

Lemma check_var_iff ty p e r : ty < List.length (graph t) -> In e (vars ty) -> subtype t ty p -> p <> ty -> p <> 0 ->
  (In r (check_var ty p e) <-> v_type r = ty /\ v_parent r = p /\ v_name r = fst e /\ wrong t vars r).
Proof using F Keys.
  intros Hty He S N0 N1. destruct e as [name v]. unfold VarDefs.check_var.
  assert (Ex : forall v', In (name, v') (vars ty) -> v' = v). { intros v' H. apply (get_of _ _ _ (Keys ty)) in H, He. congruence. }
  destruct (text_eqb_spec name (lit "vars")) as [->|Nv].
  { split; [intros []|]. intros (<- & <- & E & v' & d & _ & X & _). exfalso. apply X. left. exact E. }
  destruct (text_eqb (path_of t ty) (lit "/client") && text_eqb name (lit "parent_type")) eqn:C.
  { split; [intros []|]. intros (<- & <- & E & v' & d & _ & X & _). exfalso. apply X. right. left. apply andb_true_iff in C. destruct C as [C1 C2]. apply is_client in C1; [|exact Hty]. split; [exact C1|]. apply text_eqb_eq in C2. cbn [fst] in E. congruence. }
  assert (Ne : ~ (at_ t ty [lit "client"] /\ name = lit "parent_type")). { intros [H1 ->]. apply is_client in H1; [|exact Hty]. rewrite H1, text_eqb_refl in C. discriminate. }
  assert (W : forall (P : typevar L -> declaration L -> Prop), (v_type r = ty /\ v_parent r = p /\ v_name r = name /\ exists v' d, inherited t vars (v_type r) (v_name r) v' (v_parent r) d /\ ~ exempt t (v_type r) (v_name r) v' /\ P v' d) <->
     v_type r = ty /\ v_parent r = p /\ v_name r = name /\ exists pv d, get name (vars p) = Some pv /\ tv_decl pv = Some d /\ ~ (tv_decl v <> None /\ tv_builtin v = true) /\ P v d).
  { intro P. split.
    - intros (E1 & E2 & E3 & v' & d & (H1 & H2 & H3 & H4 & pv & H5 & H6) & X & R). rewrite E1, E2, E3 in *. repeat (split; [reflexivity|]). rewrite (Ex v' H1) in *. exists pv, d. split; [apply (get_of _ _ _ (Keys p)); exact H5|]. split; [exact H6|]. split; [|exact R]. intro Q. apply X. right. right. exact Q.
    - intros (E1 & E2 & E3 & pv & d & H1 & H2 & H3 & R). rewrite E1, E2, E3. repeat (split; [reflexivity|]). exists v, d. split; [|split; [|exact R]].
      + split; [exact He|]. split; [exact S|]. split; [exact N0|]. split; [exact N1|]. exists pv. split; [apply get_in; exact H1|exact H2].
      + intros [Q|[Q|Q]]; tauto. }
  unfold wrong. cbn [fst]. rewrite (W (fun v' d => v_note r = d_loc d /\ _)). clear W.
  destruct (get name (vars p)) as [pv|].
  2: { split; [intros []|]. intros (_ & _ & _ & pv & d & Q & _). discriminate. }
  destruct (tv_decl pv) as [d|] eqn:Ed.
  2: { split; [intros []|]. intros (_ & _ & _ & pv' & d & Q & Q2 & _). injection Q as <-. congruence. }
  assert (Rest : In r ((if d_final d then [{| v_why := OverridesFinal; v_type := ty; v_name := name; v_parent := p; v_loc := tv_loc v; v_note := d_loc d |}] else []) ++
                       (if d_private d then [{| v_why := OverridesPrivate; v_type := ty; v_name := name; v_parent := p; v_loc := tv_loc v; v_note := d_loc d |}] else [])) <->
    v_type r = ty /\ v_parent r = p /\ v_name r = name /\ v_note r = d_loc d /\ v_loc r = tv_loc v /\ (v_why r = OverridesFinal /\ d_final d = true \/ v_why r = OverridesPrivate /\ d_private d = true)).
  { rewrite in_app_iff. destruct r as [w a b c e f]. cbn [v_why v_type v_name v_parent v_loc v_note]. split.
    - intros [H|H]; [destruct (d_final d); [destruct H as [H|[]]|destruct H]|destruct (d_private d); [destruct H as [H|[]]|destruct H]]; injection H as <- <- <- <- <- <-; auto 10.
    - intros (-> & -> & -> & -> & -> & [[-> ->]|[-> ->]]); [left|right]; left; reflexivity. }
  destruct (tv_decl v) as [my|] eqn:Ev.
  - destruct (tv_builtin v) eqn:Eb.
    + split; [intros []|]. intros (_ & _ & _ & pv' & d' & _ & _ & X & _). exfalso. apply X. split; [discriminate|reflexivity].
    + cbn [In]. rewrite Rest. clear Rest. split.
      * intros [H|(E1 & E2 & E3 & E4 & E5 & E6)].
        -- subst r. cbn [v_why v_type v_name v_parent v_loc v_note]. repeat (split; [reflexivity|]). exists pv, d. split; [reflexivity|]. split; [exact Ed|]. split; [intros [_ Q]; discriminate|]. split; [reflexivity|]. exists my. auto.
        -- repeat (split; [assumption|]). exists pv, d. split; [reflexivity|]. split; [exact Ed|]. split; [intros [_ Q]; discriminate|]. split; [assumption|]. destruct E6 as [[-> E6]|[-> E6]]; auto.
      * intros (E1 & E2 & E3 & pv' & d' & H1 & H2 & _ & H3 & H4). injection H1 as <-. rewrite Ed in H2. injection H2 as <-. destruct (v_why r) eqn:Ew.
        -- left. destruct H4 as (my' & H4 & H5). injection H4 as <-. destruct r as [w a b c e f]. cbn [v_why v_type v_name v_parent v_loc v_note] in *. congruence.
        -- right. tauto.
        -- right. tauto.
  - rewrite Rest. clear Rest. split.
    + intros (E1 & E2 & E3 & E4 & E5 & E6). repeat (split; [assumption|]). exists pv, d. split; [reflexivity|]. split; [exact Ed|]. split; [intros [Q _]; apply Q; reflexivity|]. split; [assumption|]. destruct E6 as [[-> E6]|[-> E6]]; auto.
    + intros (E1 & E2 & E3 & pv' & d' & H1 & H2 & _ & H3 & H4). injection H1 as <-. rewrite Ed in H2. injection H2 as <-. destruct (v_why r) eqn:Ew; [destruct H4 as (my' & H4 & _); discriminate| |]; tauto.
Qed.
Lemma check_var_data ty p e r : In r (check_var ty p e) -> v_type r = ty /\ v_parent r = p /\ v_name r = fst e.
Proof using Type.
  destruct e as [name v]. unfold VarDefs.check_var. destruct (text_eqb name _); [intros []|]. destruct (_ && _); [intros []|]. destruct (get name (vars p)) as [pv|]; [|intros []]. destruct (tv_decl pv) as [d|]; [|intros []].
  destruct (tv_decl v); [destruct (tv_builtin v)|]; destruct (d_final d), (d_private d); cbn [app In]; intro H; repeat (destruct H as [<-|H]; [auto|]); destruct H.
Qed.
Lemma check_var_once ty p e : NoDup (map v_why (check_var ty p e)).
Proof using Type.
  destruct e as [name v]. unfold VarDefs.check_var. destruct (text_eqb name _); [constructor|]. destruct (_ && _); [constructor|]. destruct (get name (vars p)) as [pv|]; [|constructor]. destruct (tv_decl pv) as [d|]; [|constructor].
  destruct (tv_decl v); [destruct (tv_builtin v); [constructor|]|]; destruct (d_final d), (d_private d); cbn [app map v_why]; repeat (constructor; [cbn [In]; intuition discriminate|]); constructor.
Qed.

(** what a report is about *)
Definition about (r : report L) : reason * nat * text * nat := (v_why r, v_type r, v_name r, v_parent r).
Lemma nodup_flat {A B K : Type} (g : B -> K) (h : A -> K -> Prop) (f : A -> list B) l :
  NoDup l -> (forall x, In x l -> NoDup (map g (f x))) -> (forall x y, In x l -> In y (f x) -> h x (g y)) -> (forall x x' k, In x l -> In x' l -> h x k -> h x' k -> x = x') -> NoDup (map g (flat_map f l)).
Proof using Type.
  clear. induction 1 as [|x l Hx _ IH]; intros H1 H2 H3; [constructor|]. cbn [flat_map]. rewrite map_app. 
  assert (I : NoDup (map g (flat_map f l))). { apply IH; [intros; apply H1; right; assumption|intros z y Hz Hy; apply (H2 z y); [right; assumption|exact Hy]|intros z z' k Hz Hz'; apply H3; right; assumption]. }
  assert (J : NoDup (map g (f x))) by (apply H1; left; reflexivity).
  assert (Dj : forall k, In k (map g (f x)) -> ~ In k (map g (flat_map f l))).
  { intros k Hk Hk'. apply in_map_iff in Hk, Hk'. destruct Hk as (y & <- & Hy), Hk' as (y' & E & Hy'). apply in_flat_map in Hy'. destruct Hy' as (x' & Hx' & Hy'). apply Hx. replace x with x'; [exact Hx'|].
    apply (H3 x' x (g y)); [right; exact Hx'|left; reflexivity|rewrite <- E; apply H2; [right; exact Hx'|exact Hy']|apply H2; [left; reflexivity|exact Hy]]. }
  revert J Dj. generalize (map g (f x)) as ks. induction ks as [|k ks IHk]; intros J Dj; [exact I|]. cbn [app]. inversion J as [|? ? J1 J2]; subst. constructor.
  - rewrite in_app_iff. intros [Q|Q]; [contradiction|]. apply (Dj k (or_introl eq_refl) Q).
  - apply IHk; [exact J2|]. intros k' Hk'. apply Dj. right. exact Hk'.
Qed.

Lemma all_parents ty l : up V D t ty l -> ty < List.length (graph t) -> check_parents ty l = flat_map (fun p => flat_map (check_var ty p) (vars ty)) (filter (fun p => negb (p =? ty) && negb (p =? 0)) l).
Proof using F AC.
  intros U H. assert (B : forall p, In p l -> p < List.length (graph t)).
  { intros p Hp. apply (up_in V D t ty l p U) in Hp. apply clos_rt_rtn1 in Hp. destruct Hp as [|y z H1 _]; [exact H|]. apply (parent_bound V D t) in H1. tauto. }
  assert (Z : forall a b, l = a ++ 0 :: b -> b = []).
  { clear H B. induction U as [i E|i p l E U IH]; intros a b Q.
    - destruct a as [|x [|y a]]; [injection Q as _ <-; reflexivity|discriminate|discriminate].
    - destruct a as [|x a]; cbn [app] in Q; injection Q as -> Q; [|exact (IH a b Q)]. exfalso. unfold parent_type, node_at in E. destruct (nth_error (graph t) 0) as [n|] eqn:Hn; [|discriminate]. rewrite (td_root V D t (finished_tidy V D t pre F) n Hn) in E. discriminate. }
  clear U. induction l as [|p l IH]; [reflexivity|]. cbn [VarDefs.check_parents filter]. destruct (is_root t p) eqn:R.
  - apply is_zero in R; [|apply B; left; reflexivity]. subst p. rewrite (Z [] l eq_refl). rewrite andb_false_r. reflexivity.
  - assert (p <> 0). { intros ->. assert (is_root t 0 = true) by (apply is_zero; [apply B; left; reflexivity|reflexivity]). congruence. }
    specialize (IH (fun q Hq => B q (or_intror Hq)) (fun a b Q => Z (p :: a) b (f_equal (cons p) Q))). rewrite (proj2 (Nat.eqb_neq p 0) H0), andb_true_r. destruct (text_eqb_spec (path_of t p) (path_of t ty)) as [E|E].
    + assert (p = ty). { apply (path_inj V D t pre F); [exact E|]. unfold is_root in R. destruct (path_of t p); [discriminate|discriminate]. } subst p. rewrite Nat.eqb_refl. exact IH.
    + destruct (Nat.eqb_spec p ty) as [->|N]; [contradiction|]. cbn [negb flat_map]. rewrite IH. reflexivity.
Qed.

Lemma all_of_some {A B : Type} (f : A -> option (list B)) (g : A -> list B) l : (forall x, In x l -> f x = Some (g x)) -> all_of (map f l) = Some (flat_map g l).
Proof using Type. clear. induction l as [|x l IH]; intro H; [reflexivity|]. cbn [map all_of flat_map]. rewrite H by (left; reflexivity). rewrite IH by (intros; apply H; right; assumption). reflexivity. Qed.

(** C67: the check ends, and reports exactly what is wrong, each thing once. *)
Theorem C67_reports : exists out, check_var_defs t vars = Some out /\ NoDup (map about out) /\ forall r, In r out <-> v_type r < List.length (graph t) /\ wrong t vars r.
Proof using F AC Keys.
  assert (C : forall i, i < List.length (graph t) -> exists l, up V D t i l /\ check_type i = Some (check_parents i l)).
  { intros i Hi. destruct (up_total V D t AC i) as (l & U). exists l. split; [exact U|]. unfold VarDefs.check_type. rewrite (line_up i l U); [reflexivity|]. pose proof (up_bound V D t AC i l U Hi). lia. }
  set (g := fun i => match line (S (List.length (graph t))) (parent_type t) i with Some l => check_parents i l | None => [] end).
  assert (G : forall i l, i < List.length (graph t) -> up V D t i l -> g i = flat_map (fun p => flat_map (check_var i p) (vars i)) (filter (fun p => negb (p =? i) && negb (p =? 0)) l)).
  { intros i l Hi U. unfold g. rewrite (line_up i l U) by (pose proof (up_bound V D t AC i l U Hi); lia). apply all_parents; assumption. }
  exists (flat_map g (seq 0 (List.length (graph t)))). split; [|split].
  - unfold check_var_defs. apply all_of_some. intros i Hi. apply in_seq in Hi. destruct (C i) as (l & U & E); [lia|]. rewrite E. unfold g. rewrite (line_up i l U); [reflexivity|]. pose proof (up_bound V D t AC i l U). lia.
  - apply (nodup_flat about (fun i k => snd (fst (fst k)) = i)).
    + apply seq_NoDup.
    + intros i Hi. apply in_seq in Hi. destruct (C i) as (l & U & _); [lia|]. rewrite (G i l) by (try lia; exact U). apply (nodup_flat about (fun p k => snd k = p)).
      * apply NoDup_filter. exact (up_nodup V D t AC i l U).
      * intros p _. apply (nodup_flat about (fun e k => snd (fst k) = fst e)).
        -- apply (NoDup_map_inv fst). apply Keys.
        -- intros e _. pose proof (check_var_once i p e) as N. assert (Q : forall r, In r (check_var i p e) -> about r = (v_why r, i, fst e, p)) by (intros r Hr; apply check_var_data in Hr; destruct Hr as (<- & <- & <-); reflexivity).
           revert N Q. generalize (check_var i p e) as rs. induction rs as [|r rs IH]; intros N Q; [constructor|]. cbn [map] in *. inversion N as [|? ? N1 N2]; subst. constructor; [|apply IH; [exact N2|intros; apply Q; right; assumption]].
           intro H. apply in_map_iff in H. destruct H as (r' & E & Hr'). apply N1. apply in_map_iff. exists r'. split; [|exact Hr']. rewrite (Q r (or_introl eq_refl)), (Q r' (or_intror Hr')) in E. congruence.
        -- intros e r _ Hr. apply check_var_data in Hr. unfold about. cbn [fst snd]. tauto.
        -- intros [n v] [n' v'] k He He' E E'. cbn [fst] in *. subst. f_equal. apply (get_of _ _ _ (Keys i)) in He, He'. congruence.
      * intros p r _ Hr. apply in_flat_map in Hr. destruct Hr as (e & _ & Hr). apply check_var_data in Hr. unfold about. cbn [snd]. tauto.
      * intros p p' k _ _ E E'. congruence.
    + intros i r Hi Hr. apply in_seq in Hi. destruct (C i) as (l & U & _); [lia|]. rewrite (G i l) in Hr by (try lia; exact U). apply in_flat_map in Hr. destruct Hr as (p & _ & Hr). apply in_flat_map in Hr. destruct Hr as (e & _ & Hr). apply check_var_data in Hr. unfold about. cbn [fst snd]. tauto.
    + intros i i' k _ _ E E'. congruence.
  - intro r. rewrite in_flat_map. split.
    + intros (i & Hi & Hr). apply in_seq in Hi. destruct (C i) as (l & U & _); [lia|]. rewrite (G i l) in Hr by (try lia; exact U). apply in_flat_map in Hr. destruct Hr as (p & Hp & Hr). apply filter_In in Hp. destruct Hp as [Hp Nz]. apply andb_true_iff in Nz. rewrite !negb_true_iff, !Nat.eqb_neq in Nz.
      apply in_flat_map in Hr. destruct Hr as (e & He & Hr). apply (check_var_iff i p e r) in Hr; [|lia|exact He|apply (up_in V D t i l p U); exact Hp|tauto|tauto]. destruct Hr as (E & _ & _ & W). rewrite E. split; [lia|exact W].
    + intros [Hty W]. exists (v_type r). split; [apply in_seq; lia|]. destruct (C (v_type r) Hty) as (l & U & _). rewrite (G _ l) by assumption. pose proof W as (v & d & (H1 & H2 & H3 & H4 & _) & _). apply in_flat_map. exists (v_parent r). split.
      * apply filter_In. split; [apply (up_in V D t _ l _ U); exact H2|]. rewrite andb_true_iff, !negb_true_iff, !Nat.eqb_neq. tauto.
      * apply in_flat_map. exists (v_name r, v). split; [exact H1|]. apply check_var_iff; auto.
Qed.
End C67.

(** ** An example *)
(** /datum declares [x] as final and private, and [vars]; /datum/A declares [y] and overrides [x]; /datum/A/B redeclares [y], and [x] in the
    builtin file; /client redeclares nothing *)
Definition vd_ops : list op := [OType 0 "datum"; OType 1 "A"; OType 2 "B"; OType 0 "client"].
Definition vd_tree0 : objtree nat nat := match run_ops vd_ops (empty_tree nat nat) with Some t => t | None => empty_tree nat nat end.
Definition vd_tree : objtree nat nat := match assign_parent_types vd_tree0 with Some (t, _) => t | None => vd_tree0 end.
Definition dc (l : nat) (f p : bool) : option (declaration nat) := Some {| d_loc := l; d_final := f; d_private := p |}.
Definition tv (l : nat) (b : bool) (d : option (declaration nat)) : typevar nat := {| tv_loc := l; tv_builtin := b; tv_decl := d |}.
Definition vd_vars (i : nat) : list (text * typevar nat) :=
  match i with
  | 1 => [(lit "x", tv 10 false (dc 11 true true)); (lit "vars", tv 12 true (dc 12 false false))]
  | 2 => [(lit "y", tv 20 false (dc 21 false false)); (lit "x", tv 22 false None); (lit "vars", tv 23 false None)]
  | 3 => [(lit "y", tv 30 false (dc 31 false true)); (lit "x", tv 32 true (dc 33 false false))]
  | 4 => [(lit "x", tv 40 false (dc 41 false false))]
  | _ => []
  end.
Example C67_demo : finished vd_tree [] /\ acyclic vd_tree /\ (forall i, NoDup (map fst (vd_vars i))) /\
  check_var_defs vd_tree vd_vars = Some
    [{| v_why := OverridesFinal; v_type := 2; v_name := lit "x"; v_parent := 1; v_loc := 22; v_note := 11 |};
     {| v_why := OverridesPrivate; v_type := 2; v_name := lit "x"; v_parent := 1; v_loc := 22; v_note := 11 |};
     {| v_why := Redeclares; v_type := 3; v_name := lit "y"; v_parent := 2; v_loc := 31; v_note := 21 |}].
Proof.
  split. { exists vd_tree0. split.
    - apply (run_ops_built vd_ops (empty_tree nat nat)); [constructor|]. unfold vd_tree0. destruct (run_ops vd_ops (empty_tree nat nat)) as [t|] eqn:E; [reflexivity|]. vm_compute in E. discriminate.
    - unfold vd_tree. destruct (assign_parent_types vd_tree0) as [[t out]|] eqn:E; [|vm_compute in E; discriminate]. f_equal. f_equal. vm_compute in E. injection E as _ <-. reflexivity. }
  split; [apply (acyclic_check vd_tree (fun i => i)); vm_compute; reflexivity|]. split; [|vm_compute; reflexivity].
  intro i. do 5 (destruct i as [|i]; [vm_compute; repeat (constructor; [intro Q; repeat (destruct Q as [Q|Q]; [discriminate|]); destruct Q|]); constructor|]). constructor.
Qed.

(** The redefinition of a final variable is not reported if it is a declaration in the builtin file: /datum/A/B above.  It cannot occur there
    by anything a user writes. *)
Print Assumptions C67_reports.
Print Assumptions C67_demo.
