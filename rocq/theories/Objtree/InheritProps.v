(** C50: what a type inherits. *)
From Coq Require Import List Arith NArith Bool String Lia Relations.
From Verif Require Import Common.Text Parse.Ast Objtree.Ispath Objtree.Model Objtree.Lemmas Objtree.Spec Objtree.Wf Objtree.Assign Objtree.Paths Objtree.PathsProps Objtree.Inherit Objtree.Calls.
Import ListNotations.
Open Scope nat_scope.

Section C50.
Variables V D : Type.
Implicit Type t : objtree V D.

(** Every type but the root gets a parent: the one that its path and its variable [parent_type] say; and what is wrong with these variables
    is reported, and nothing else. *)
Theorem C50_parent : forall t0 t out, built t0 -> assign_parent_types t0 = Some (t, out) ->
  parent_type t 0 = None /\
  (forall i n cs, nth_error (graph t0) i = Some n -> at_ t0 i cs -> cs <> [] -> exists p, parent_type t i = Some p /\ right_parent t0 cs (n_pvar n) p) /\
  (forall r, In r out <-> exists i n cs, nth_error (graph t0) i = Some n /\ at_ t0 i cs /\ cs <> [] /\ complaint t0 cs (n_pvar n) r).
Proof using Type.
  intros t0 t out B E. pose proof (wf_built V D t0 B) as W. destruct (assigned V D t0 W (fresh_built V D t0 B)) as (t' & out' & E' & A & T & P & R & O). rewrite E in E'. injection E' as <- <-. split; [|split; [|exact O]].
  - unfold parent_type, node_at. destruct (nth_error (graph t) 0) as [n|] eqn:Hn; [|reflexivity]. rewrite (td_root V D t T n Hn). reflexivity.
  - intros i n cs Hn Hcs Hne. destruct (P i n cs Hn Hcs Hne) as (p & Hi & Hr). exists p. split; [|exact Hr]. unfold parent_type, node_at. rewrite Hi. cbn [with_parent_type n_parent_type].
    destruct (td_parent V D t T i _ Hi) as (p' & m & Hp & Hm); [intros ->; apply Hne; apply (at_inj V D t0 0); [exact Hcs|apply (at_zero V D t0 W); reflexivity]|]. cbn in Hp. injection Hp as <-. rewrite Hm. reflexivity.
Qed.
(** The paths alone never lead to circles; and settings do not either if they all go down by some measure that no other parent raises. *)
Theorem C50_acyclic : forall t0 t out (m : list text -> nat), built t0 -> assign_parent_types t0 = Some (t, out) ->
  (forall i n cs p ds, nth_error (graph t0) i = Some n -> at_ t0 i cs -> cs <> [] -> right_parent t0 cs (n_pvar n) p -> at_ t0 p ds ->
     (chooses cs (n_pvar n) -> m ds < m cs) /\ (~ chooses cs (n_pvar n) -> m ds <= m cs)) -> acyclic t.
Proof using Type. intros. eapply acyclic_measure; eauto. Qed.
Theorem C50_plain_acyclic : forall t0 t out, built t0 -> assign_parent_types t0 = Some (t, out) ->
  (forall i n cs, nth_error (graph t0) i = Some n -> at_ t0 i cs -> ~ chooses cs (n_pvar n)) -> acyclic t.
Proof using Type.
  intros t0 t out B E H. apply (C50_acyclic t0 t out (fun _ => 0) B E). intros i n cs p ds Hn Hcs _ _ _. split; [intro Q; destruct (H i n cs Hn Hcs Q)|lia].
Qed.
(** Without circles every question about inheritance is answered, within as many steps as there are types. *)
Theorem C50_subtype : forall t out i j fuel, finished t out -> acyclic t -> List.length (graph t) <= fuel ->
  exists b, is_subtype_of t fuel i j = Some b /\ (b = true <-> subtype t i j).
Proof using Type. intros t out i j fuel F AC Hf. apply (subtype_test V D t (finished_tidy V D t out F) AC); assumption. Qed.
(** All subtypes of a type are visited, each once, none before its parent. *)
Theorem C50_subtypes : forall t out i fuel, finished t out -> acyclic t -> i < List.length (graph t) -> List.length (graph t) <= fuel ->
  exists l, recurse_types t fuel i = Some l /\ NoDup l /\ (forall j, In j l <-> subtype t j i) /\
    (forall a x b, l = a ++ x :: b -> x = i \/ exists p, inherits t x p /\ In p a).
Proof using Type. intros t out i fuel F AC Hi Hf. apply (recurse_types_total V D t (finished_tidy V D t out F) AC); assumption. Qed.
(** A call goes to the last value of the nearest type that has any, and each [..()] to the value before, ending with the first value of the
    most basic type. *)
Theorem C50_calls : forall t out i name fuel, finished t out -> acyclic t -> List.length (graph t) <= fuel ->
  exists l, chain t name i l /\ (forall l', chain t name i l' -> l' = l) /\ get_proc t fuel i name = Some (hd_error l) /\
    forall r rest steps, l = r :: rest -> List.length l <= steps -> call_chain t fuel steps r = Some l.
Proof using Type.
  intros t out i name fuel F AC Hf. pose proof (finished_tidy V D t out F) as T. destruct (up_total V D t AC i) as (u & Hu). pose proof (chain_up_list V D t name i u Hu) as C.
  exists (flat_map (own t name) u). split; [exact C|]. split; [intros l' C'; eapply chain_fun; eauto|]. split; [apply get_proc_chain; assumption|]. intros r rest steps E Hs. rewrite E in *. cbn [List.length] in Hs.
  apply (call_chain_all V D t T AC name i (r :: rest) fuel C Hf rest [] r eq_refl). lia.
Qed.
(** The declaration of a procedure is the one of the nearest type that has one. *)
Theorem C50_declaration : forall t out i name fuel, finished t out -> acyclic t -> List.length (graph t) <= fuel ->
  exists r, get_proc_declaration t fuel i name = Some r /\ nearest t (fun j => match procs_of t j name with Some p => p_decl p | None => None end) i r.
Proof using Type. intros t out i name fuel F AC Hf. apply (search_fuel V D t (finished_tidy V D t out F) AC); assumption. Qed.
(** All that can answer a call of a procedure on a type or its subtypes, by the type itself *)
Theorem C50_overrides : forall t out r fuel, finished t out -> acyclic t -> fst (fst r) < List.length (graph t) -> List.length (graph t) <= fuel ->
  exists l, recurse_children t fuel r = Some l /\ NoDup l /\
    forall q, In q l <-> exists j p, subtype t j (fst (fst r)) /\ procs_of t j (snd (fst r)) = Some p /\ q = (j, snd (fst r), List.length (p_values p) - 1).
Proof using Type.
  intros t out [[i name] k] fuel F AC Hi Hf. cbn [fst snd] in *. destruct (C50_subtypes t out i fuel F AC Hi Hf) as (l & E & N & I & _). unfold recurse_children, recurse_children_within. cbn [fst snd]. rewrite E. cbn [option_map].
  eexists. split; [reflexivity|]. rewrite <- flat_map_concat_map. split.
  - clear - N. induction l as [|j l IH]; [constructor|]. inversion N as [|? ? N1 N2]; subst. cbn [flat_map]. destruct (visible t j name) as [q|] eqn:Q; [|exact (IH N2)]. cbn [app]. constructor; [|exact (IH N2)].
    intro H. apply in_flat_map in H. destruct H as (j' & Hj' & H). destruct (visible t j' name) as [q'|] eqn:Q'; [|destruct H]. destruct H as [H|[]]. subst q'. unfold visible in Q, Q'.
    destruct (procs_of t j name); [|discriminate]. destruct (procs_of t j' name); [|discriminate]. injection Q as Q. injection Q' as Q'. assert (j = j') by congruence. subst j'. exact (N1 Hj').
  - intro q. rewrite in_flat_map. split.
    + intros (j & Hj & H). apply I in Hj. unfold visible in H. destruct (procs_of t j name) as [p|] eqn:P; [|destruct H]. destruct H as [<-|[]]. eauto.
    + intros (j & p & Hj & P & ->). exists j. split; [apply I; exact Hj|]. unfold visible. rewrite P. left. reflexivity.
Qed.
(** What is registered under a name for a type: definitions come first, the latest of them at the front; then the overrides in the order of
    the source.  The first definition is the declaration.  Nothing else changes. *)
Definition register (i : nat) (name : text) (t : option (objtree V D)) (e : option D * V) : option (objtree V D) :=
  match t with Some t => register_proc t i name (fst e) (snd e) | None => None end.
Definition defs (es : list (option D * V)) : list V := map snd (filter (fun e => match fst e with Some _ => true | None => false end) es).
Definition overrides (es : list (option D * V)) : list V := map snd (filter (fun e => match fst e with Some _ => false | None => true end) es).
Definition first_def (es : list (option D * V)) : option D := fold_right (fun e r => match fst e with Some d => Some d | None => r end) None es.
Theorem C50_register : forall t i name es n, nth_error (graph t) i = Some n -> get name (n_procs n) = None -> es <> [] ->
  exists t', fold_left (register i name) es (Some t) = Some t' /\
    procs_of t' i name = Some {| p_values := rev (defs es) ++ overrides es; p_decl := first_def es |} /\
    (forall j name', j <> i \/ name' <> name -> procs_of t' j name' = procs_of t j name') /\
    types t' = types t /\ (forall j cs, at_ t' j cs <-> at_ t j cs) /\ (built t -> built t').
Proof using Type.
  intros t i name es n Hn Hg Hne.
  assert (L : forall es vs d t n, nth_error (graph t) i = Some n -> get name (n_procs n) = Some {| p_values := vs; p_decl := d |} ->
    exists t' n', fold_left (register i name) es (Some t) = Some t' /\ nth_error (graph t') i = Some n' /\
      get name (n_procs n') = Some {| p_values := rev (defs es) ++ vs ++ overrides es; p_decl := match d with Some d => Some d | None => first_def es end |} /\
      (forall j name', j <> i \/ name' <> name -> procs_of t' j name' = procs_of t j name') /\ types t' = types t /\ alike V D t t' /\ (built t -> built t')).
  { clear t n Hn Hg es Hne. induction es as [|[d0 v] es IH]; intros vs d t n Hn Hg.
    - exists t, n. cbn [fold_left defs overrides first_def fold_right filter map rev app]. rewrite app_nil_r. split; [reflexivity|]. split; [exact Hn|]. split; [rewrite Hg; destruct d; reflexivity|]. split; [auto|]. split; [reflexivity|]. split; [apply alike_refl|auto].
    - destruct (register_proc t i name d0 v) as [t1|] eqn:E; [|unfold register_proc in E; rewrite Hn in E; discriminate]. pose proof E as E0. unfold register_proc in E. rewrite Hn, Hg in E. injection E as E. cbn [p_values p_decl] in E.
      match type of E with update _ _ ?x = _ => set (n1 := x) in E end. assert (H1 : nth_error (graph t1) i = Some n1) by (rewrite <- E; cbn [update graph]; rewrite (set_nth_get _ _ _ i n Hn), Nat.eqb_refl; reflexivity).
      set (vs1 := match d0 with Some _ => match vs with [] => [v] | _ :: _ => v :: vs end | None => vs ++ [v] end). set (d1 := match d with Some d => Some d | None => d0 end).
      assert (Hg1 : get name (n_procs n1) = Some {| p_values := vs1; p_decl := d1 |}) by (cbn [n1 n_procs]; rewrite get_ix, text_eqb_refl; reflexivity).
      destruct (IH vs1 d1 t1 n1 H1 Hg1) as (t' & n' & F & Hn' & Hp & Ho & Ht & Ha & Hb). exists t', n'. split; [cbn [fold_left register fst snd]; rewrite E0; exact F|]. split; [exact Hn'|]. split.
      { rewrite Hp. f_equal. unfold vs1, d1, defs, overrides, first_def. destruct d0 as [d0|]; cbn [filter fst map snd rev fold_right].
        - replace (match vs with [] => [v] | _ :: _ => v :: vs end) with (v :: vs) by (destruct vs; reflexivity). rewrite <- app_assoc. destruct d; reflexivity.
        - rewrite <- app_assoc. cbn [app]. destruct d; reflexivity. }
      split.
      { intros j name' Q. rewrite (Ho j name' Q). unfold procs_of, node_at. rewrite <- E. cbn [update graph]. rewrite (set_nth_get _ _ _ j n Hn). destruct (Nat.eqb_spec j i) as [->|Nj]; [|reflexivity]. rewrite Hn. cbn [n1 n_procs]. rewrite get_ix.
        destruct (text_eqb_spec name name') as [->|]; [destruct Q; congruence|reflexivity]. }
      split; [rewrite Ht, <- E; reflexivity|]. split.
      + eapply alike_trans; [|exact Ha]. rewrite <- E. apply (alike_set V D t i n); [exact Hn|repeat split].
      + intro B. apply Hb. exact (built_proc V D t i name d0 v t1 B E0). }
  destruct es as [|[d0 v] es]; [congruence|]. destruct (register_proc t i name d0 v) as [t1|] eqn:E; [|unfold register_proc in E; rewrite Hn in E; discriminate]. pose proof E as E0. unfold register_proc in E. rewrite Hn, Hg in E. injection E as E. cbn [p_values p_decl] in E.
  match type of E with update _ _ ?x = _ => set (n1 := x) in E end. assert (H1 : nth_error (graph t1) i = Some n1) by (rewrite <- E; cbn [update graph]; rewrite (set_nth_get _ _ _ i n Hn), Nat.eqb_refl; reflexivity).
  assert (Hg1 : get name (n_procs n1) = Some {| p_values := [v]; p_decl := d0 |}) by (cbn [n1 n_procs]; rewrite get_ix, text_eqb_refl; destruct d0; reflexivity).
  destruct (L es [v] d0 t1 n1 H1 Hg1) as (t' & n' & F & Hn' & Hp & Ho & Ht & Ha & Hb). exists t'. split; [cbn [fold_left register fst snd]; rewrite E0; exact F|]. split.
  { unfold procs_of, node_at. rewrite Hn', Hp. f_equal. unfold defs, overrides, first_def. destruct d0 as [d0|]; cbn [filter fst map snd rev fold_right]; [rewrite <- app_assoc|]; reflexivity. }
  split.
  { intros j name' Q. rewrite (Ho j name' Q). unfold procs_of, node_at. rewrite <- E. cbn [update graph]. rewrite (set_nth_get _ _ _ j n Hn). destruct (Nat.eqb_spec j i) as [->|Nj]; [|reflexivity]. rewrite Hn. cbn [n1 n_procs]. rewrite get_ix.
    destruct (text_eqb_spec name name') as [->|]; [destruct Q; congruence|reflexivity]. }
  split; [rewrite Ht, <- E; reflexivity|]. split.
  - intros j cs. symmetry. apply (alike_at V D). eapply alike_trans; [|exact Ha]. rewrite <- E. apply (alike_set V D t i n); [exact Hn|repeat split].
  - intro B. apply Hb. exact (built_proc V D t i name d0 v t1 B E0).
Qed.
End C50.
