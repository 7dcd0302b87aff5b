(** C50: inheritance. *)
From Coq Require Import List Arith NArith Bool String Lia Relations.
From Verif Require Import Common.Text Parse.Ast Objtree.Ispath Objtree.Model Objtree.Lemmas Objtree.Spec Objtree.Wf Objtree.Assign Objtree.Paths.
Import ListNotations.
Open Scope nat_scope.

Section INHERIT.
Variables V D : Type.
Notation objtree := (objtree V D).
Notation node := (node V D).
Notation at_n t i := (nth_error (graph t) i).
Arguments wf {V D}. Arguments alike {V D}. Arguments tidy {V D}. Arguments fresh {V D}.

(** ** No circles without settings *)
Definition base (x : text) : nat :=
  if existsb (text_eqb x) parentless then 1 else if existsb (text_eqb x) [lit "obj"; lit "mob"] then 4 else if existsb (text_eqb x) [lit "turf"; lit "area"] then 3 else 2.
Definition rank (cs : list text) : nat := match cs with [] => 0 | x :: rest => base x + List.length rest end.
Lemma base_pos x : 1 <= base x.
Proof using Type. unfold base. destruct (existsb _ parentless); [lia|]. destruct (existsb _ _); [lia|]. destruct (existsb _ _); lia. Qed.
Lemma rank_usual cs q : usual_parent cs = Some q -> rank q < rank cs /\ (names cs -> names q).
Proof using Type.
  destruct cs as [|x [|y cs]]; [discriminate| |]; cbn [usual_parent].
  - cbn [rank List.length]. unfold base. destruct (existsb (text_eqb x) parentless) eqn:P; [discriminate|]. destruct (text_eqb_spec x (lit "atom")) as [->|Na].
    + intro Q. injection Q as <-. split; [vm_compute; lia|]. intros _ c [<-|[]]. sf.
    + destruct (existsb (text_eqb x) [lit "turf"; lit "area"]) eqn:T.
      * intro Q. injection Q as <-. split; [destruct (existsb (text_eqb x) [lit "obj"; lit "mob"]); vm_compute; lia|]. intros _ c [<-|[]]. sf.
      * destruct (existsb (text_eqb x) [lit "obj"; lit "mob"]) eqn:O; intro Q; injection Q as <-; (split; [vm_compute; lia|]).
        -- intros _ c [<-|[<-|[]]]; sf.
        -- intros _ c [<-|[]]. sf.
  - intro Q0. assert (Q1 : q = removelast (x :: y :: cs)) by congruence. clear Q0. subst q. destruct (exists_last (l := y :: cs)) as (init & z & E); [discriminate|]. split.
    + assert (Q : removelast (x :: y :: cs) = x :: init) by (rewrite E, app_comm_cons; apply removelast_last). rewrite Q, E. unfold rank. rewrite app_length. cbn [List.length]. lia.
    + intros Hn c Hc. apply Hn. rewrite E, app_comm_cons, removelast_last in Hc. rewrite E. destruct Hc as [<-|Hc]; [left; reflexivity|right; apply in_or_app; left; exact Hc].
Qed.
Lemma right_rank (t : objtree) cs v p ds : wf t -> names cs -> cs <> [] -> ~ chooses cs v -> right_parent t cs v p -> at_ t p ds -> rank ds < rank cs.
Proof using Type.
  intros W Hn Hne Hc Hr Hp. assert (E : chosen_parent cs v = option_map render (usual_parent cs)).
  { unfold chosen_parent. destruct (fixed cs) eqn:F; [reflexivity|]. destruct v as [w|]; cbn [option_map]; [|reflexivity]. destruct (pv_value w) eqn:Q; try reflexivity; destruct Hc; (split; [exact F|]); exists w; (split; [reflexivity|]); eauto. }
  assert (Z : forall q, q = 0 -> at_ t q ds -> rank ds < rank cs).
  { intros q -> Q. assert (ds = []) by (apply (at_inj V D t 0); [exact Q|apply (at_zero V D t W); reflexivity]). subst ds. destruct cs as [|x cs]; [congruence|]. cbn [rank]. pose proof (base_pos x). lia. }
  unfold right_parent in Hr. rewrite E in Hr. destruct (usual_parent cs) as [q|] eqn:U; cbn [option_map] in Hr; [|apply (Z p Hr Hp)]. destruct (rank_usual cs q U) as [Hl Hq].
  destruct Hr as [(es & He & _ & Ee)|[_ Hz]]; [|exact (Z p Hz Hp)]. assert (es = ds) by (apply (at_inj V D t p); assumption). subst es. apply render_inj in Ee; [subst; exact Hl|exact (proj1 Hp)|exact (Hq Hn)].
Qed.
Lemma acyclic_measure (t0 t : objtree) out (m : list text -> nat) : built t0 -> assign_parent_types t0 = Some (t, out) ->
  (forall i n cs p ds, at_n t0 i = Some n -> at_ t0 i cs -> cs <> [] -> right_parent t0 cs (n_pvar n) p -> at_ t0 p ds ->
     (chooses cs (n_pvar n) -> m ds < m cs) /\ (~ chooses cs (n_pvar n) -> m ds <= m cs)) -> acyclic t.
Proof using Type.
  intros B E M. pose proof (wf_built V D t0 B) as W. destruct (assigned V D t0 W (fresh_built V D t0 B)) as (t' & out' & E' & A & T & P & R & _). rewrite E in E'. injection E' as <- <-.
  assert (Dec : forall cs v, chooses cs v \/ ~ chooses cs v).
  { intros cs v. unfold chooses. destruct (fixed cs); [right; intros [Q _]; discriminate|]. destruct v as [w|]; [|right; intros (_ & ? & Q & _); discriminate].
    destruct (pv_value w) eqn:Q; [left; split; [reflexivity|]; exists w; eauto|left; split; [reflexivity|]; exists w; eauto| |]; right; intros (_ & w' & Q1 & [(? & Q2)|(? & Q2)]); injection Q1 as <-; congruence. }
  assert (S : forall i p, inherits t i p -> exists cs ds, at_ t0 i cs /\ at_ t0 p ds /\ (m ds < m cs \/ (m ds <= m cs /\ rank ds < rank cs))).
  { intros i p H. unfold inherits, parent_type, node_at in H. destruct (at_n t i) as [n'|] eqn:Hi; [|discriminate]. destruct (n_parent_type n') as [p'|] eqn:Hp; [|discriminate]. destruct (at_n t p') as [np|] eqn:Hnp; [|discriminate]. injection H as ->.
    destruct (Nat.eq_dec i 0) as [->|Ni]; [rewrite (td_root V D t T n' Hi) in Hp; discriminate|].
    destruct A as [_ A]. pose proof (A i) as Ai. pose proof (A p) as Ap. rewrite Hi in Ai. rewrite Hnp in Ap. destruct (at_n t0 i) as [n|] eqn:Hn; [|destruct Ai]. destruct (at_n t0 p) as [np0|] eqn:Hnp0; [|destruct Ap].
    destruct (at_some V D t0 W i n Hn) as (cs & Hcs). destruct (at_some V D t0 W p np0 Hnp0) as (ds & Hds). assert (Hne : cs <> []) by (intros ->; apply Ni, (at_zero V D t0 W); exact Hcs).
    destruct (P i n cs Hn Hcs Hne) as (p' & Hi' & Hr). rewrite Hi in Hi'. injection Hi' as Hi'. assert (p' = p) by (rewrite Hi' in Hp; cbn in Hp; congruence). subst p'. exists cs, ds. split; [exact Hcs|]. split; [exact Hds|].
    destruct (M i n cs p ds Hn Hcs Hne Hr Hds) as [M1 M2]. destruct (Dec cs (n_pvar n)) as [C|C]; [left; auto|right]. split; [auto|]. eapply right_rank; eauto. exact (proj1 Hcs). }
  assert (Acc0 : forall a b i cs, at_ t0 i cs -> m cs = a -> rank cs = b -> Acc (fun p i => inherits t i p) i).
  { induction a as [a IHa] using lt_wf_ind. induction b as [b IHb] using lt_wf_ind. intros i cs H Ha Hb. constructor. intros p Hp. destruct (S i p Hp) as (cs' & ds & Hcs' & Hds & L). assert (cs' = cs) by (apply (at_inj V D t0 i); assumption). subst cs'.
    destruct L as [L|[L1 L2]]; [apply (IHa (m ds)) with (b := rank ds) (cs := ds); [lia|exact Hds|reflexivity|reflexivity]|].
    destruct (Nat.eq_dec (m ds) a) as [Q|Q]; [apply (IHb (rank ds)) with (cs := ds); [lia|exact Hds|exact Q|reflexivity]|apply (IHa (m ds)) with (b := rank ds) (cs := ds); [lia|exact Hds|reflexivity|reflexivity]]. }
  intro i. constructor. intros p Hp. destruct (S i p Hp) as (_ & ds & _ & Hds & _). eapply Acc0; eauto.
Qed.

(** ** Going up *)
Section UP.
Variable t : objtree.
Inductive up : nat -> list nat -> Prop :=
  | up_end i : parent_type t i = None -> up i [i]
  | up_step i p l : parent_type t i = Some p -> up p l -> up i (i :: l).
Lemma up_fun i l l' : up i l -> up i l' -> l = l'.
Proof using Type. intro H. revert l'. induction H as [i E|i p l E H IH]; intros l' H'; inversion H' as [j E'|j q k E' K]; subst; try congruence. f_equal. apply IH. rewrite E in E'. injection E' as <-. exact K. Qed.
Lemma up_in i l j : up i l -> (In j l <-> subtype t i j).
Proof using Type.
  induction 1 as [i E|i p l E H IH].
  - cbn [In]. split; [intros [<-|[]]; apply rt_refl|]. intro Q. left. apply clos_rt_rt1n in Q. inversion Q as [|y z H1 H2]; subst; [reflexivity|]. unfold inherits in H1. congruence.
  - cbn [In]. rewrite IH. split.
    + intros [<-|Q]; [apply rt_refl|]. eapply rt_trans; [apply rt_step; exact E|exact Q].
    + intro Q. apply clos_rt_rt1n in Q. inversion Q as [|y z H1 H2]; subst; [left; reflexivity|right]. unfold inherits in H1. rewrite E in H1. injection H1 as <-. apply clos_rt1n_rt. exact H2.
Qed.
Fixpoint first_of {A : Type} (f : nat -> option A) (l : list nat) : option A :=
  match l with [] => None | i :: l' => match f i with Some a => Some a | None => first_of f l' end end.
Lemma search_up {A : Type} (f : nat -> option A) i l : up i l -> forall fuel, List.length l <= fuel -> search fuel (parent_type t) f i = Some (first_of f l).
Proof using Type.
  induction 1 as [i E|i p l E H IH]; intros [|fuel] Hf; cbn [List.length] in Hf; try lia; cbn [search first_of]; destruct (f i); try reflexivity; rewrite E; [reflexivity|]. apply IH. lia.
Qed.
Lemma nearest_up_list {A : Type} (f : nat -> option A) i l : up i l -> nearest t f i (first_of f l).
Proof using Type.
  induction 1 as [i E|i p l E H IH]; cbn [first_of]; destruct (f i) as [a|] eqn:F.
  - apply nearest_here. exact F.
  - apply nearest_none; assumption.
  - apply nearest_here. exact F.
  - eapply nearest_up; eauto.
Qed.
Lemma nearest_fun {A : Type} (f : nat -> option A) i r r' : nearest t f i r -> nearest t f i r' -> r = r'.
Proof using Type. intro H. revert r'. induction H as [i a F|i p r F E H IH|i F E]; intros r' H'; inversion H' as [j b F'|j q s F' E' K|j F' E']; subst; try congruence. apply IH. rewrite E in E'. injection E' as <-. exact K. Qed.

Hypothesis AC : acyclic t.
Lemma no_loop i p : inherits t i p -> ~ subtype t p i.
Proof using AC.
  revert p. induction (AC i) as [i _ IH]. intros p H Q. destruct (clos_rt_rt1n _ _ _ _ Q) as [|y z H1 H2].
  - apply (IH p H p); [exact H|apply rt_refl].
  - apply (IH p H y); [exact H1|]. eapply rt_trans; [apply clos_rt1n_rt; exact H2|apply rt_step; exact H].
Qed.
Lemma up_total i : exists l, up i l.
Proof using AC.
  induction (AC i) as [i _ IH]. destruct (parent_type t i) as [p|] eqn:E; [|exists [i]; constructor; exact E]. destruct (IH p E) as (l & Hl). exists (i :: l). econstructor; eauto.
Qed.
Lemma up_nodup i l : up i l -> NoDup l.
Proof using AC.
  induction 1 as [i E|i p l E H IH]; [constructor; [intros []|constructor]|]. constructor; [|exact IH]. rewrite (up_in p l i H). apply no_loop. exact E.
Qed.
Lemma parent_bound i p : parent_type t i = Some p -> p < List.length (graph t) /\ i < List.length (graph t).
Proof using Type.
  unfold parent_type, node_at. destruct (at_n t i) as [n|] eqn:E; [|discriminate]. destruct (n_parent_type n) as [q|]; [|discriminate]. destruct (at_n t q) as [m|] eqn:F; [|discriminate]. intro Q. injection Q as <-.
  split; eapply nth_lt; eauto.
Qed.
Lemma up_bound i l : up i l -> i < List.length (graph t) -> List.length l <= List.length (graph t).
Proof using AC.
  intros H Hi. rewrite <- (seq_length (List.length (graph t)) 0). apply NoDup_incl_length; [exact (up_nodup i l H)|]. intros j Hj. apply in_seq. cbn. split; [lia|].
  clear AC. revert Hi Hj. induction H as [i E|i p l E H IH]; intros Hi; cbn [In].
  - intros [<-|[]]. exact Hi.
  - intros [<-|Q]; [exact Hi|]. apply IH; [exact (proj1 (parent_bound i p E))|exact Q].
Qed.
Lemma linear i j k : subtype t i j -> subtype t i k -> subtype t j k \/ subtype t k j.
Proof using Type.
  intros H. apply clos_rt_rt1n in H. induction H as [x|x y z Hxy H IH]; intro K; [left; exact K|]. destruct (clos_rt_rt1n _ _ _ _ K) as [|y' z' H1 H2].
  - right. eapply rt_trans; [apply rt_step; exact Hxy|apply clos_rt1n_rt; exact H].
  - unfold inherits in *. rewrite Hxy in H1. injection H1 as <-. apply IH. apply clos_rt1n_rt. exact H2.
Qed.
End UP.
End INHERIT.
