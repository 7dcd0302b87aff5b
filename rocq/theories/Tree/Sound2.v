(** Entries: what is read without a diagnostic is what the grammar says; the parser ends. *)
From Coq Require Import List NArith ZArith Bool String Lia.
From Verif Require Import Common.Text Lexer.Punct Lexer.Model Parse.Ast Parse.Model Parse.Spec Parse.Facts Parse.Grow Stmt.Ast Stmt.Model Stmt.Spec
  Stmt.Sound Stmt.Sound2 Tree.Ast Tree.Model Tree.Spec Tree.Sound Tree.Place.
Import ListNotations.
Open Scope nat_scope.

Section SOUND2.
Variable F : Type.
Variables nrt nrp : bool.
Notation tok := (token F).
Notation expr := (expr F).
Notation pst := (pst F).
Notation res := (res F).
Notation event := (event F).
Notation P p := (TPunct F p).
Notation len s := (List.length (toks s)).
Notation spec := (spec F).
Notation adds := (adds F). Notation mems := (mems F). Notation means := (means F).
Notation le := Grow.le.

(** [tspec m s ev r G]: from the state [s], with the calls [ev], comes [r]: at most [m] tokens are left, diagnostics and calls are only
    added, and if no diagnostics are, [G] holds of the new calls and the tokens left. *)
Definition tspec (m : nat) (s : pst) (ev : list event) (r : tres F) (G : list event -> list tok -> Prop) : Prop :=
  match r with
  | TOk _ s' => le (diags s) (diags (t_pst F s')) /\ len (t_pst F s') <= m /\
      exists e, t_events F s' = ev ++ e /\ (diags (t_pst F s') = diags s -> G e (toks (t_pst F s')))
  | TErr _ _ | TPanic _ _ => True
  | TStuck _ => False
  end.
Lemma tspec_req {X : Type} m s ev (x : res X) (k : X -> pst -> tres F) (U : option X -> pst -> Prop) (G1 : option X -> list tok -> Prop) (G : list event -> list tok -> Prop) :
  spec s x U G1 ->
  (forall o s1, len s1 <= len s -> U (Some o) s1 -> tspec m s1 ev (k o s1) (fun e r => G1 (Some o) (toks s1) -> G e r)) ->
  tspec m s ev (treq F x ev k) G.
Proof using Type.
  destruct x as [[a|] s1|s1|]; cbn [treq spec tspec]; [|trivial|trivial|trivial]. intros (D & L & HU & HG) HK. specialize (HK a s1 L HU).
  destruct (k a s1) as [s'|s'|s'|]; cbn [tspec] in *; [|trivial..]. destruct HK as (D2 & L2 & e & E & HG2).
  split; [eapply le_trans; eassumption|]. split; [exact L2|]. exists e. split; [exact E|]. intros Q.
  destruct (le_mid _ _ _ D D2 Q) as [E1 E2]. apply HG2; [exact E2|]. apply HG, E1.
Qed.
Lemma tspec_events m s ev ev1 r (G : list event -> list tok -> Prop) : tspec m s (ev ++ ev1) r (fun e t => G (ev1 ++ e) t) -> tspec m s ev r G.
Proof using Type.
  destruct r as [s'|s'|s'|]; cbn; auto. intros (D & L & e & E & HG). split; [exact D|]. split; [exact L|]. exists (ev1 ++ e). rewrite app_assoc. auto.
Qed.
Lemma tspec_weaken m m' s ev r (G G' : list event -> list tok -> Prop) : tspec m s ev r G -> m <= m' -> (forall e t, G e t -> G' e t) -> tspec m' s ev r G'.
Proof using Type. destruct r as [s'|s'|s'|]; cbn; auto. intros (D & L & e & E & HG) Hm HW. split; [exact D|]. split; [lia|]. exists e. auto. Qed.
Lemma tspec_register m d s ev r (G G' : list event -> list tok -> Prop) : tspec m (register F d s) ev r G -> tspec m s ev r G'.
Proof using Type.
  destruct r as [s'|s'|s'|]; cbn [tspec]; auto. intros (D & L & e & E & HG). cbn [register diags toks] in *.
  split; [eapply le_trans; [apply le_snoc|exact D]|]. split; [exact L|]. exists e. split; [exact E|]. intros Q.
  exfalso. destruct D as [c D]. rewrite Q, <- app_assoc in D. apply (f_equal (@List.length diag)) in D. rewrite !app_length in D. cbn in D. lia.
Qed.
Lemma tspec_warned m b d s ev r (G : list event -> list tok -> Prop) : tspec m (warn F b d s) ev r G -> tspec m s ev r (fun e t => G e t /\ b = false).
Proof using Type. unfold warn. destruct b; [apply tspec_register|]. intros H. eapply tspec_weaken; [exact H|lia|auto]. Qed.
Lemma tspec_done m s ev ev1 (G : list event -> list tok -> Prop) : len s <= m -> G ev1 (toks s) -> tspec m s ev (done F (ev ++ ev1) s) G.
Proof using Type. intros HL HG. cbn. split; [apply le_refl|]. split; [exact HL|]. exists ev1. auto. Qed.
Lemma tspec_done0 m s ev (G : list event -> list tok -> Prop) : len s <= m -> G [] (toks s) -> tspec m s ev (done F ev s) G.
Proof using Type. intros HL HG. rewrite <- (app_nil_r ev) at 2. apply tspec_done; assumption. Qed.

(** ** The walk *)
Definition typed (c : place) : bool := match c_proc c, c_var c with None, None => true | _, _ => false end.
Definition enters_type (c : place) (w : text) : bool :=
  negb (text_eqb w VAR) && typed c && match kind_of w with None => true | Some _ => false end.
Lemma enter_eq a n w (x : walk F) :
  match move (w_place F x) w with
  | Some c' =>
      w_place F (enter F nrt a n w x) = c' /\ w_pst F (enter F nrt a n w x) = w_pst F x /\
      w_relative F (enter F nrt a n w x) = w_relative F x || (negb a && nrt && enters_type (w_place F x) w) /\
      exists l ev, c_type c' = c_type (w_place F x) ++ l /\ w_events F (enter F nrt a n w x) = w_events F x ++ ev /\ adds ev = extensions (c_type (w_place F x)) l /\ mems ev = []
  | None =>
      enter F nrt a n w x = {| w_place := w_place F x; w_relative := w_relative F x; w_events := w_events F x; w_pst := register F DSubBlock (w_pst F x) |}
  end.
Proof using Type.
  unfold move, enter, enters_type, typed. change (lit "var") with VAR. change (lit "final") with FINAL.
  assert (Nil : forall (c c' : place) (ev : list event), c_type c' = c_type c -> exists l e, c_type c' = c_type c ++ l /\ ev = ev ++ e /\ adds e = extensions (c_type c) l /\ mems e = []).
  { intros c c' ev E. exists [], []. rewrite !app_nil_r. auto. }
  destruct (text_eqb w VAR); cbn [w_place w_pst w_relative w_events negb andb].
  { repeat split; [rewrite andb_false_r, orb_false_r; reflexivity|]. apply Nil. reflexivity. }
  destruct (c_var (w_place F x)) as [t|]; cbn [w_place w_pst w_relative w_events negb andb].
  { repeat split; [destruct (c_proc (w_place F x)); cbn; rewrite ?andb_false_r, orb_false_r; reflexivity|]. apply Nil. reflexivity. }
  destruct (kind_of w) as [v|]; cbn [w_place w_pst w_relative w_events negb andb].
  { repeat split; [rewrite !andb_false_r, orb_false_r; reflexivity|]. apply Nil. reflexivity. }
  destruct (c_proc (w_place F x)) as [d|]; cbn [w_place w_pst w_relative w_events negb andb].
  { destruct (text_eqb w FINAL); [|reflexivity]. cbn [w_place w_pst w_relative w_events]. repeat split; [rewrite !andb_false_r, orb_false_r; reflexivity|]. apply Nil. reflexivity. }
  repeat split; [rewrite !andb_true_r; reflexivity|]. exists [w], [EAdd F (c_type (w_place F x)) w (slashes (c_type (w_place F x)) + n)]. auto.
Qed.
Definition walked (a : bool) (n : nat) (ns : list text) (x : walk F) : walk F := fold_left (fun x each => enter F nrt a n each x) ns x.
(** the first name decides whether types are entered *)
Lemma typed_move c w c' : move c w = Some c' -> typed c' = true -> enters_type c w = true.
Proof using Type.
  clear. unfold move, enters_type, typed. destruct (text_eqb w VAR); [intros E; injection E as <-; cbn; destruct (c_proc c); discriminate|].
  destruct (c_var c) as [t|]; [intros E; injection E as <-; cbn; destruct (c_proc c); discriminate|].
  destruct (kind_of w); [intros E; injection E as <-; discriminate|]. destruct (c_proc c); [|intros; reflexivity].
  destruct (text_eqb w FINAL); [|discriminate]. intros E; injection E as <-; discriminate.
Qed.
Definition relative_now (a : bool) (c : place) (ns : list text) : bool :=
  negb a && nrt && match ns with w :: _ => enters_type c w | [] => false end.
Lemma enters_typed c w : enters_type c w = true -> typed c = true.
Proof using Type. clear. unfold enters_type. intros H. apply andb_prop in H as [H _]. apply andb_prop in H as [_ H]. exact H. Qed.
Lemma walked_eq a n ns : forall x,
  match follow (w_place F x) ns with
  | Some c' =>
      w_place F (walked a n ns x) = c' /\ w_pst F (walked a n ns x) = w_pst F x /\
      w_relative F (walked a n ns x) = w_relative F x || relative_now a (w_place F x) ns /\
      exists l ev, c_type c' = c_type (w_place F x) ++ l /\ w_events F (walked a n ns x) = w_events F x ++ ev /\ adds ev = extensions (c_type (w_place F x)) l /\ mems ev = []
  | None => diags (w_pst F (walked a n ns x)) <> diags (w_pst F x)
  end /\ le (diags (w_pst F x)) (diags (w_pst F (walked a n ns x))) /\ toks (w_pst F (walked a n ns x)) = toks (w_pst F x) /\
  exists ev, w_events F (walked a n ns x) = w_events F x ++ ev.
Proof using Type.
  induction ns as [|w ns IH]; intros x.
  - cbn. split; [|split; [apply le_refl|split; [reflexivity|exists []; rewrite app_nil_r; reflexivity]]].
    repeat split; [unfold relative_now; rewrite andb_false_r, orb_false_r; reflexivity|]. exists [], []. rewrite !app_nil_r. auto.
  - change (walked a n (w :: ns) x) with (walked a n ns (enter F nrt a n w x)). pose proof (enter_eq a n w x) as HE. cbn [follow].
    destruct (move (w_place F x) w) as [c1|] eqn:M.
    + destruct HE as (E1 & E2 & E3 & l & ev & T & E4 & HA & HM). specialize (IH (enter F nrt a n w x)). rewrite E1, E2, E3, E4 in IH.
      destruct IH as (IH & D & T' & ev' & E'). split; [|rewrite <- app_assoc in E'; eauto]. destruct (follow c1 ns) as [c'|]; [|exact IH].
      destruct IH as (I1 & I2 & I3 & l' & ev'' & I4 & I5 & I6 & I7). split; [exact I1|]. split; [exact I2|]. split.
      * rewrite I3. unfold relative_now. destruct ns as [|w' ns]; [rewrite andb_false_r, orb_false_r; reflexivity|].
        rewrite <- orb_assoc. f_equal. destruct (enters_type c1 w') eqn:Q; [|rewrite andb_false_r, orb_false_r; reflexivity].
        rewrite (typed_move _ _ _ M (enters_typed _ _ Q)). apply orb_diag.
      * exists (l ++ l'), (ev ++ ev''). rewrite I4, T, <- app_assoc. split; [reflexivity|]. split; [rewrite I5, <- app_assoc; reflexivity|].
        rewrite adds_app, mems_app, HA, HM, I6, I7, extensions_app, T. auto.
    + rewrite HE in *. specialize (IH {| w_place := w_place F x; w_relative := w_relative F x; w_events := w_events F x; w_pst := register F DSubBlock (w_pst F x) |}).
      cbn [w_pst w_events register diags toks] in IH. destruct IH as (_ & D & T & E). split; [|split; [|split; [exact T|exact E]]].
      * intros Q. destruct D as [c D]. rewrite Q, <- app_assoc in D. apply (f_equal (@List.length diag)) in D. rewrite !app_length in D. cbn in D. lia.
      * eapply le_trans; [apply le_snoc|exact D].
Qed.
Lemma relative_names a pre c ns : leads pre c -> relative_now a c ns = false <-> types_ok nrt a pre ns.
Proof using Type.
  intros HL. unfold relative_now, types_ok, names_type. destruct a; [split; [discriminate|reflexivity]|]. destruct nrt; [|split; [discriminate|reflexivity]]. cbn [negb andb].
  pose proof (leads_plain pre c HL) as HP. unfold enters_type, typed. destruct ns as [|w ns]; [tauto|]. 
  assert (Q : plain w <-> negb (text_eqb w VAR) && match kind_of w with None => true | Some _ => false end = true).
  { unfold plain. pose proof (kind_view w) as V. destruct (text_eqb_spec w VAR) as [E|E]; [cbn; split; [tauto|discriminate]|]. destruct (kind_of w); cbn; [|tauto].
    split; [|discriminate]. intros (_ & N1 & N2). exfalso. destruct V as [V|V]; injection V as V _; contradiction. }
  destruct (c_proc c), (c_var c); rewrite ?andb_false_r; cbn [andb];
    try (split; [intros _ _ _ [H _]; apply HP in H as [H1 H2]; discriminate|reflexivity]).
  rewrite andb_true_r. split.
  - intros E _ _ [_ H]. apply Q in H. congruence.
  - intros H. destruct (negb (text_eqb w VAR) && _) eqn:E; [|reflexivity]. exfalso. apply H; auto. split; [apply HP; auto|apply Q; reflexivity].
Qed.

(** ** Entries *)
Definition entry_result (c : place) (ts : list tok) (e : list event) (r : list tok) : Prop :=
  forall pre, leads pre c -> exists ds, entry_at F nrt nrp pre ds ts r /\ means c e ds.
Definition entries_result (nested : bool) (c : place) (ts : list tok) (e : list event) (r : list tok) : Prop :=
  forall pre, leads pre c -> exists ds, entries_at F nrt nrp pre nested ds ts r /\ means c e ds.

Lemma value_spec m c name sz ev s : len s <= m -> tspec m s ev (entry_value F c name sz ev s) (fun e r =>
  exists v it l t3 t4, expr_at F v (toks s) t3 /\ input_at F it l t3 t4 /\ ended F t4 r /\
    e = [EMember F (c_type c) name match c_var c with Some t => MVar (sized F sz t) it (Some v) | None => MSet v end]).
Proof using Type.
  intros Hm. unfold entry_value. eapply tspec_req; [apply expression_spec'|]. intros v s1 L1 U1. eapply tspec_req; [apply input_spec|]. intros [it l] s2 L2 U2.
  eapply tspec_req; [apply terminator_spec'|]. intros u s3 L3 U3. apply tspec_done; [lia|]. intros HE HI HV. exists v, it, l, (toks s1), (toks s2).
  repeat split; auto. destruct (c_var c) as [t|]; [|reflexivity]. rewrite with_suffix_eq. reflexivity.
Qed.
Lemma proc_spec m c a name ev s : len s <= m -> tspec m s ev (entry_proc F nrp c a name ev s) (fun e r =>
  exists ps rt b t3 t4, items_at F (param_at F) ps (toks s) t3 /\ return_at F (c_proc c) rt t3 t4 /\ body_at F b t4 r /\ (nrp = true -> a = true) /\
    e = [EMember F (c_type c) name (MProc (c_proc c) ps rt b)]).
Proof using Type.
  intros Hm. unfold entry_proc. eapply tspec_req; [apply parameters_spec; lia|]. intros ps s1 L1 U1. eapply tspec_req; [apply return_spec|]. intros rt s2 L2 U2.
  eapply tspec_req; [apply body_spec|]. intros b s3 L3 U3.
  pose proof (tspec_done m (warn F (negb a && nrp) DRelativeProc s3) ev [EMember F (c_type c) name (MProc (c_proc c) ps rt b)]
    (fun e r => r = toks s3 /\ e = [EMember F (c_type c) name (MProc (c_proc c) ps rt b)])) as H. rewrite warned_toks in H. specialize (H ltac:(lia) ltac:(auto)).
  apply tspec_warned in H. eapply tspec_weaken; [exact H|lia|]. cbv beta. intros e t [[-> ->] HF] HB HR (x & E & HP). cbn [app after_item] in E, HP. subst x.
  exists ps, rt, b, (toks s1), (toks s2). repeat split; auto. intros ->. destruct a; [reflexivity|discriminate].
Qed.

Lemma bare_spec m x a n name sz s : len s <= m -> tspec m s (w_events F x) (entry_bare F x a n name sz s) (fun e r =>
  (exists t it l, c_var (w_place F x) = Some t /\ name <> VAR /\ ~ In name (map fst var_words) /\ input_at F it l (toks s) r /\
     e = [EMember F (c_type (w_place F x)) name (MVar (sized F sz t) it (new_list F sz))]) \/
  (typed (w_place F x) = true /\ plain name /\ r = toks s /\ w_relative F x = false /\ exists k, e = [EAdd F (c_type (w_place F x)) name k])).
Proof using Type.
  intros Hm. unfold entry_bare. cbv zeta. change (lit "var") with VAR.
  destruct (c_var (w_place F x)) as [t|] eqn:Ev.
  - eapply tspec_req; [apply input_spec|]. intros [it l] s1 L1 U1. cbn [fst]. destruct (text_eqb_spec name VAR) as [E|NV].
    { apply (tspec_register m DNoEffectItem s1 _ _ (fun _ _ => True)). apply tspec_done0; [cbn; lia|exact I]. }
    pose proof (flag_word name) as V. destruct (flag_of name) as [f|].
    { apply (tspec_register m DNoEffectItem s1 _ _ (fun _ _ => True)). apply tspec_done0; [cbn; lia|exact I]. }
    apply tspec_done; [lia|]. intros HI. left. exists t, it, l. repeat split; auto. rewrite with_suffix_eq. reflexivity.
  - destruct (text_eqb_spec name VAR) as [E|NV].
    { apply (tspec_register m DNoEffectItem s _ _ (fun _ _ => True)). apply tspec_done0; [cbn; lia|exact I]. }
    pose proof (kind_view name) as V. destruct (kind_of name) as [f|].
    { apply (tspec_register m DNoEffectItem s _ _ (fun _ _ => True)). apply tspec_done0; [cbn; lia|exact I]. }
    destruct (c_proc (w_place F x)) as [d|] eqn:Ep.
    { apply (tspec_register m DNoBody s _ _ (fun _ _ => True)). apply tspec_done0; [cbn; lia|exact I]. }
    pose proof (tspec_done m (warn F (w_relative F x) DRelativeType s) (w_events F x) [EAdd F (c_type (w_place F x)) name (slashes (c_type (w_place F x)) + n)]
      (fun e r => r = toks s /\ e = [EAdd F (c_type (w_place F x)) name (slashes (c_type (w_place F x)) + n)])) as H. rewrite warned_toks in H. specialize (H ltac:(lia) ltac:(auto)).
    apply tspec_warned in H. eapply tspec_weaken; [exact H|lia|]. cbv beta. intros e t [[-> ->] HF]. right. unfold typed. rewrite Ep, Ev. destruct V. repeat split; eauto.
Qed.

Section BODY.
Variable N : nat.
Variable block : place -> tst F -> tres F.
Hypothesis HB : forall c s, len (t_pst F s) < N -> tspec (len (t_pst F s)) (t_pst F s) (t_events F s) (block c s) (entries_result true c (toks (t_pst F s))).

Lemma block_spec m x a n name s : len s < N -> len s <= m -> tspec m s (w_events F x) (entry_block F nrt block x a n name s) (fun e r =>
  forall pre, leads pre (w_place F x) -> exists c' e1 e2 l ds, leads (pre ++ [name]) c' /\ e = e1 ++ e2 /\ adds e1 = extensions (c_type (w_place F x)) l /\ mems e1 = [] /\
    c_type c' = c_type (w_place F x) ++ l /\ means c' e2 ds /\ entries_at F nrt nrp (pre ++ [name]) true ds (toks s) r /\
    w_relative F x || (negb a && nrt && enters_type (w_place F x) name) = false).
Proof using HB.
  intros HN Hm. unfold entry_block. set (x0 := {| w_place := w_place F x; w_relative := w_relative F x; w_events := w_events F x; w_pst := s |}).
  pose proof (enter_eq a n name x0) as HE. set (x1 := enter F nrt a n name x0) in *. cbv zeta. cbn [x0 w_place w_pst w_relative w_events] in HE.
  destruct (move (w_place F x) name) as [c'|] eqn:M.
  - destruct HE as (E1 & E2 & E3 & l & ev & T & E4 & HA & HM). rewrite E1, E2, E4. apply tspec_events with (ev1 := ev).
    pose proof (HB c' {| t_pst := warn F (w_relative F x1) DRelativeType s; t_events := w_events F x ++ ev |}) as H. cbn [t_pst t_events] in H.
    rewrite warned_toks in H. specialize (H HN). apply tspec_warned in H. eapply tspec_weaken; [exact H|lia|]. cbv beta.
    intros e t [HG HR] pre HL. pose proof (leads_move _ _ _ _ HL M) as HL'. destruct (HG _ HL') as (ds & HD & HM').
    exists c', ev, e, l, ds. repeat split; auto; try apply HM'. rewrite <- E3. exact HR.
  - rewrite HE. cbn [w_place w_pst w_relative w_events].
    eapply (tspec_register m DSubBlock s _ _ (fun _ _ => True)).
    pose proof (HB (w_place F x) {| t_pst := warn F (w_relative F x) DRelativeType (register F DSubBlock s); t_events := w_events F x |}) as H. cbn [t_pst t_events] in H.
    rewrite warned_toks in H. cbn [register toks] in H. specialize (H HN). apply tspec_warned in H. eapply tspec_weaken; [exact H|lia|]. auto.
Qed.
Lemma tspec_toks m r s ev R (G : list event -> list tok -> Prop) : tspec m (with_toks F r s) ev R G -> tspec m s ev R G.
Proof using Type. exact (fun H => H). Qed.
Lemma rest_cases (ts : list tok) : (exists r, ts = P PLBrace :: r) \/ (exists r, ts = P PAssign :: r) \/ (exists r, ts = P PLParen :: r) \/
  (bare F ts /\ forall (A : Type) (f g h : list tok -> A) (d : A), match ts with TPunct _ PLBrace :: r => f r | TPunct _ PAssign :: r => g r | TPunct _ PLParen :: r => h r | _ => d end = d).
Proof using Type.
  clear. destruct ts as [|[p| | | | | | | | |] r]; try (right; right; right; split; [repeat split; intros ? ?; discriminate|reflexivity]).
  destruct p; try (right; right; right; split; [repeat split; intros ? ?; discriminate|reflexivity]); eauto.
Qed.
Lemma means_member c c' e0 l name (x : member F) : adds e0 = extensions (c_type c) l -> mems e0 = [] -> c_type c' = c_type c ++ l ->
  means c (e0 ++ [EMember F (c_type c') name x]) [DType F (c_type c'); DMember F (c_type c') name x].
Proof using Type. intros HA HM HT. apply (means_walk F c c' l); auto. split; [reflexivity|]. intros seen _. reflexivity. Qed.
(** the rest of an entry, when the names [ns] have been followed from the place [c], to which [pre] leads *)
Definition rest_result (x : walk F) (a : bool) (name : text) (sz : list (option expr)) (ts : list tok) (e : list event) (r : list tok) : Prop :=
  forall pre ns ts0 t1 c l e0, leads pre c -> leads (pre ++ ns) (w_place F x) -> head_at F a ns name ts0 t1 -> (a = true -> outside pre) ->
    suffix_at F (w_place F x) sz t1 ts -> w_relative F x = relative_now a c ns ->
    adds e0 = extensions (c_type c) l -> mems e0 = [] -> c_type (w_place F x) = c_type c ++ l ->
    exists ds, entry_at F nrt nrp pre ds ts0 r /\ means c (e0 ++ e) ds.
Lemma relative_snoc a c ns w c1 : follow c ns = Some c1 -> relative_now a c ns || (negb a && nrt && enters_type c1 w) = relative_now a c (ns ++ [w]).
Proof using Type.
  unfold relative_now. destruct ns as [|v ns]; cbn [follow app]; [intros E; injection E as ->; rewrite andb_false_r; reflexivity|].
  destruct (move c v) as [c2|] eqn:M; [|discriminate]. intros HF. destruct (enters_type c v) eqn:E; [destruct (negb a && nrt), (enters_type c1 w); reflexivity|].
  assert (T : typed c1 = false).
  { destruct (typed c2) eqn:T; [rewrite (typed_move _ _ _ M T) in E; discriminate|]. clear M E. revert c2 HF T. induction ns as [|u ns IH]; intros c2 HF T; [injection HF as ->; exact T|].
    cbn [follow] in HF. destruct (move c2 u) as [c3|] eqn:M; [|discriminate]. apply (IH c3 HF). destruct (typed c3) eqn:Q; [|reflexivity].
    rewrite (enters_typed _ _ (typed_move _ _ _ M Q)) in T. discriminate. }
  assert (Z : enters_type c1 w = false) by (destruct (enters_type c1 w) eqn:Q; [rewrite (enters_typed _ _ Q) in T; discriminate|reflexivity]).
  rewrite Z, !andb_false_r. reflexivity.
Qed.
Lemma entry_rest_spec m x a n name sz s : len s <= N -> len s <= m ->
  tspec m s (w_events F x) (entry_rest F nrt nrp block x a n name sz s) (rest_result x a name sz (toks s)).
Proof using HB.
  intros HN Hm. destruct (rest_cases (toks s)) as [[r E]|[[r E]|[[r E]|[HBare E]]]]; unfold entry_rest; rewrite E.
  - apply (tspec_toks m r). rewrite E in HN, Hm. cbn in HN, Hm. eapply tspec_weaken; [apply (block_spec m); cbn; lia|lia|]. cbv beta. cbn [with_toks toks].
    intros e t HG pre ns ts0 t1 c l e0 HL HL' HH HO HS HR HA HM HT. destruct (HG _ HL') as (c' & e1 & e2 & l' & ds & K1 & -> & K2 & K3 & K4 & K5 & K6 & K7).
    exists (DType F (c_type c') :: ds). rewrite <- app_assoc in K1, K6. split.
    + eapply E_block; [exact HH|exact HO|exact HL'|exact HS|exact K1| |exact K6]. apply (relative_names a pre c _ HL). rewrite <- K7, HR.
      symmetry. apply relative_snoc. apply (leads_app pre c ns (w_place F x) HL), HL'.
    + rewrite app_assoc. apply (means_walk F c c' (l ++ l')); [| | |exact K5].
      * rewrite adds_app, HA, K2, HT. symmetry. apply extensions_app.
      * rewrite mems_app, HM, K3. reflexivity.
      * rewrite K4, HT, app_assoc. reflexivity.
  - rewrite E in HN, Hm. cbn in HN, Hm. apply (tspec_toks m r).
    pose proof (value_spec m (w_place F x) name sz (w_events F x) (warn F (w_relative F x) DRelativeType (with_toks F r s))) as H. rewrite warned_toks in H. specialize (H ltac:(cbn; lia)).
    apply tspec_warned in H. eapply tspec_weaken; [exact H|lia|]. cbv beta. cbn [with_toks toks].
    intros e t [(v & it & l2 & t3 & t4 & K1 & K2 & K3 & ->) HF] pre ns ts0 t1 c l e0 HL HL' HH HO HS HR HA HM HT. eexists. split.
    + eapply E_value; [exact HH|exact HO|exact HL'|exact HS| |exact K1|exact K2|exact K3]. apply (relative_names a pre c _ HL). rewrite <- HR. exact HF.
    + apply (means_member c _ e0 l); assumption.
  - rewrite E in HN, Hm. cbn in HN, Hm. apply (tspec_toks m r).
    eapply tspec_weaken; [apply (proc_spec m); cbn; lia|lia|]. cbv beta. cbn [with_toks toks].
    intros e t (ps & rt & b & t3 & t4 & K1 & K2 & K3 & K4 & ->) pre ns ts0 t1 c l e0 HL HL' HH HO HS HR HA HM HT. eexists. split.
    + eapply E_proc; [exact HH|exact HO|exact HL'|exact HS|exact K4|exact K1|exact K2|exact K3].
    + apply (means_member c _ e0 l); assumption.
  - eapply tspec_weaken; [apply (bare_spec m); lia|lia|]. cbv beta.
    intros e t HG pre ns ts0 t1 c l e0 HL HL' HH HO HS HR HA HM HT. destruct HG as [(ty & it & l2 & K1 & K2 & K3 & K4 & ->)|(K1 & K2 & -> & K3 & k & ->)]; eexists.
    + split; [|apply (means_member c _ e0 l); assumption]. inversion HS as [t' sz' ts' r' Q1 Q2|]; [|congruence]. subst.
      eapply E_var; [exact HH|exact HO|exact HL'|exact K1|exact Q2|exact HBare|exact K2|exact K3|exact K4].
    + assert (TN : c_proc (w_place F x) = None /\ c_var (w_place F x) = None) by (unfold typed in K1; destruct (c_proc _), (c_var _); auto; discriminate). destruct TN as [T1 T2].
      inversion HS as [t' sz' ts' r' Q1 Q2|ts' Q1]; [congruence|]. subst. split.
      * eapply E_type; [exact HH|exact HO|apply (leads_plain _ _ HL'); auto|exact K2|exact HBare|]. apply (relative_names a pre c _ HL). congruence.
      * rewrite app_assoc. rewrite <- (leads_plain_type _ _ HL' T1 T2).
        pose proof (means_walk F c {| c_type := c_type (w_place F x) ++ [name]; c_proc := None; c_var := None |} (l ++ [name]) (e0 ++ [EAdd F (c_type (w_place F x)) name k]) [] []) as Q.
        cbn [c_type] in Q. rewrite app_nil_r in Q. apply Q; [| | |apply means_nil].
        -- rewrite adds_app, HA, extensions_app. cbn. rewrite HT. reflexivity.
        -- rewrite mems_app, HM. reflexivity.
        -- rewrite HT, app_assoc. reflexivity.
Qed.
Lemma entry_spec c s : len (t_pst F s) <= N ->
  tspec (pred (len (t_pst F s))) (t_pst F s) (t_events F s) (entry F nrt nrp block c s) (entry_result c (toks (t_pst F s))).
Proof using HB.
  intros HN. unfold entry. eapply tspec_req; [apply entry_path_spec|]. intros [a path] s1 L1 U1. cbn [strictly] in U1.
  set (m := pred (len (t_pst F s))). assert (Hm : len s1 <= m) by (unfold m; lia). clearbody m.
  set (away := a && match c_type c with [] => false | _ => true end).
  set (c1 := if away then {| c_type := []; c_proc := c_proc c; c_var := c_var c |} else c).
  set (ts := toks (t_pst F s)). 
  assert (H : tspec m (warn F away DNested s1) (t_events F s)
    match pop path with
    | None => done F (t_events F s) (register F DNoName (warn F away DNested s1))
    | Some (traverse, last) =>
      treq F (last_name F last (w_pst F (walked a (List.length path) traverse {| w_place := c1; w_relative := false; w_events := t_events F s; w_pst := warn F away DNested s1 |})))
        (w_events F (walked a (List.length path) traverse {| w_place := c1; w_relative := false; w_events := t_events F s; w_pst := warn F away DNested s1 |}))
        (fun name s3 =>
         let x := walked a (List.length path) traverse {| w_place := c1; w_relative := false; w_events := t_events F s; w_pst := warn F away DNested s1 |} in
         match c_var (w_place F x) with
         | Some _ => treq F (var_suffix F s3) (w_events F x) (fun sizes s4 => entry_rest F nrt nrp block x a (List.length path) name sizes s4)
         | None => entry_rest F nrt nrp block x a (List.length path) name [] s3
         end)
    end (fun e r => route_at F a path ts (toks s1) -> away = false -> entry_result c ts e r)).
  2:{ apply tspec_warned in H. destruct (pop path) as [[tr last]|]; (eapply tspec_weaken; [exact H|lia|]; cbv beta; intros e t [HG HA] HP; exact (HG HP HA)). }
  rewrite <- (warned_toks F away DNested s1). assert (L2 : len (warn F away DNested s1) <= N /\ len (warn F away DNested s1) <= m) by (rewrite warned_toks; lia).
  generalize dependent (warn F away DNested s1). intros s2 [L2 L3].
  destruct (pop path) as [[tr last]|] eqn:Ep.
  2:{ apply (tspec_register m DNoName s2 _ _ (fun _ _ => True)). apply tspec_done0; [exact L3|exact I]. }
  apply pop_some in Ep. set (k := List.length path). clearbody k. subst path.
  set (x0 := {| w_place := c1; w_relative := false; w_events := t_events F s; w_pst := s2 |}).
  pose proof (walked_eq a k tr x0) as HW. set (x := walked a k tr x0) in *. destruct HW as (HW & D & T & ev1 & E1). cbn [x0 w_place w_pst w_relative w_events] in HW, D, T, E1.
  rewrite E1. apply tspec_events with (ev1 := ev1). rewrite <- E1.
  assert (H : tspec m (w_pst F x) (w_events F x)
    (treq F (last_name F last (w_pst F x)) (w_events F x) (fun name s3 => match c_var (w_place F x) with
       | Some _ => treq F (var_suffix F s3) (w_events F x) (fun sizes s4 => entry_rest F nrt nrp block x a k name sizes s4)
       | None => entry_rest F nrt nrp block x a k name [] s3 end))
    (fun e t => exists name sz t3 t4, last_at F last name (toks s2) t3 /\ suffix_at F (w_place F x) sz t3 t4 /\ rest_result x a name sz t4 e t)).
  { rewrite <- T. assert (LX : len (w_pst F x) <= N /\ len (w_pst F x) <= m) by (rewrite T; auto). destruct LX as [LX1 LX2].
    eapply tspec_req; [apply last_name_spec|]. intros name s3 L4 U4. destruct (c_var (w_place F x)) as [t|] eqn:Ev.
    - eapply tspec_req; [apply suffix_spec|]. intros sz s4 L5 U5. eapply tspec_weaken; [apply (entry_rest_spec m); lia|lia|]. intros e t' HG HS HL.
      exists name, sz, (toks s3), (toks s4). repeat split; auto. eapply Su_var; eassumption.
    - eapply tspec_weaken; [apply (entry_rest_spec m); lia|lia|]. intros e t' HG HL. exists name, [], (toks s3), (toks s3). repeat split; auto. apply Su_none. exact Ev. }
  (* the walk has added no diagnostics, or the rest does not matter *)
  assert (K : forall G : list event -> list tok -> Prop,
     (forall e t, (exists name sz t3 t4, last_at F last name (toks s2) t3 /\ suffix_at F (w_place F x) sz t3 t4 /\ rest_result x a name sz t4 e t) ->
        diags (w_pst F x) = diags s2 -> G e t) ->
     tspec m s2 (w_events F x) (treq F (last_name F last (w_pst F x)) (w_events F x) (fun name s3 => match c_var (w_place F x) with
       | Some _ => treq F (var_suffix F s3) (w_events F x) (fun sizes s4 => entry_rest F nrt nrp block x a k name sizes s4)
       | None => entry_rest F nrt nrp block x a k name [] s3 end)) G).
  { intros G HG. destruct (treq F _ _ _) as [s'|s'|s'|]; cbn [tspec] in *; auto. destruct H as (D' & L' & e & E & HH).
    split; [eapply le_trans; eassumption|]. split; [exact L'|]. exists e. split; [exact E|]. intros Q.
    destruct (le_mid _ _ _ D D' Q) as [Q1 Q2]. apply HG; [apply HH, Q2|exact Q1]. }
  apply K. clear K H. intros e t (name & sz & t3 & t4 & HLast & HS & HR) HD HRoute HAway pre HL.
  assert (Ec : c1 = c) by (unfold c1; rewrite HAway; reflexivity). clearbody x. clear x0. rewrite Ec in HW. clear c1 Ec.
  destruct (follow c tr) as [c'|] eqn:EF; [|contradiction]. destruct HW as (W1 & W2 & W3 & l & ev & W4 & W5 & W6 & W7).
  rewrite E1 in W5. apply app_inv_head in W5. subst ev c'. cbn [orb] in W3.
  apply (HR pre tr ts t3 c l ev1); auto.
  - apply (leads_app pre c tr _ HL), EF.
  - exists last, (toks s2). split; assumption.
  - intros ->. apply (leads_outside pre c HL). unfold away in HAway. cbn [andb] in HAway. destruct (c_type c); [reflexivity|discriminate].
Qed.
End BODY.

Lemma entries_spec n : forall nested c s, len (t_pst F s) < n ->
  tspec (len (t_pst F s)) (t_pst F s) (t_events F s) (entries F nrt nrp n nested c s) (entries_result nested c (toks (t_pst F s))).
Proof using Type.
  induction n as [|n IH]; intros nested c s Hn; [lia|]. cbn [entries].
  assert (HB : forall c s, len (t_pst F s) < n -> tspec (len (t_pst F s)) (t_pst F s) (t_events F s) (entries F nrt nrp n true c s) (entries_result true c (toks (t_pst F s)))).
  { intros c' s' H. apply IH, H. }
  assert (HE : toks (t_pst F s) <> [] -> tspec (len (t_pst F s)) (t_pst F s) (t_events F s)
     (match entry F nrt nrp (entries F nrt nrp n true) c s with TOk _ s' => entries F nrt nrp n nested c s' | x => x end) (entries_result nested c (toks (t_pst F s)))).
  { intros HX. pose proof (entry_spec n _ HB c s ltac:(lia)) as H. destruct (entry F nrt nrp (entries F nrt nrp n true) c s) as [s'|s'|s'|]; cbn [tspec] in *; auto.
    assert (LP : 0 < len (t_pst F s)) by (destruct (toks (t_pst F s)); [congruence|cbn; lia]).
    destruct H as (D & L & e & E & HG). specialize (IH nested c s' ltac:(lia)). rewrite E in IH. destruct (entries F nrt nrp n nested c s') as [s2|s2|s2|]; cbn [tspec] in *; auto.
    destruct IH as (D2 & L2 & e2 & E2 & HG2). split; [eapply le_trans; eassumption|]. split; [lia|]. exists (e ++ e2). rewrite app_assoc. split; [exact E2|]. intros Q.
    destruct (le_mid _ _ _ D D2 Q) as [Q1 Q2]. intros pre HL. destruct (HG Q1 pre HL) as (d & H1 & M1). destruct (HG2 Q2 pre HL) as (ds & H2 & M2).
    exists (d ++ ds). split; [eapply Es_entry; eassumption|apply means_app; assumption]. }
  assert (HS : forall r, toks (t_pst F s) = P PSemicolon :: r -> tspec (len (t_pst F s)) (t_pst F s) (t_events F s)
     (entries F nrt nrp n nested c {| t_pst := with_toks F r (t_pst F s); t_events := t_events F s |}) (entries_result nested c (toks (t_pst F s)))).
  { intros r E. rewrite E in *. cbn [List.length] in *. pose proof (IH nested c {| t_pst := with_toks F r (t_pst F s); t_events := t_events F s |}) as H.
    cbn [t_pst t_events with_toks toks] in H. specialize (H ltac:(lia)). eapply tspec_weaken; [exact H|lia|]. cbv beta.
    intros e t HG pre HL. destruct (HG pre HL) as (ds & H1 & M1). exists ds. split; [constructor; exact H1|exact M1]. }
  assert (HBr : forall r, nested = true -> toks (t_pst F s) = P PRBrace :: r -> tspec (len (t_pst F s)) (t_pst F s) (t_events F s)
     (TOk F {| t_pst := with_toks F r (t_pst F s); t_events := t_events F s |}) (entries_result nested c (toks (t_pst F s)))).
  { intros r -> E. cbn. rewrite E. split; [apply le_refl|]. split; [cbn; lia|]. exists []. rewrite app_nil_r. split; [reflexivity|]. intros _ pre HL. exists []. split; [constructor|apply means_nil]. }
  assert (HN : toks (t_pst F s) = [] -> tspec (len (t_pst F s)) (t_pst F s) (t_events F s) (if nested then TPanic F s else TOk F s) (entries_result nested c (toks (t_pst F s)))).
  { intros E. destruct nested; [exact I|]. cbn. split; [apply le_refl|]. split; [lia|]. exists []. rewrite app_nil_r. split; [reflexivity|]. intros _ pre HL. exists [].
    rewrite E. split; [constructor|apply means_nil]. }
  destruct (toks (t_pst F s)) as [|t r] eqn:E; [apply HN; reflexivity|].
  destruct t as [p| | | | | | | | |]; try (rewrite andb_false_r; apply HE; discriminate).
  destruct p; try (rewrite andb_false_r; apply HE; discriminate).
  - apply HS. reflexivity.
  - destruct nested; cbn [andb]; [apply (HBr r); reflexivity|apply HE; discriminate].
Qed.

(** [parse_file] reads the tokens [ts] to the end without a word of complaint, with the calls [ev] of the builder. *)
Definition reads_file (ts : list tok) (ev : list event) : Prop :=
  exists s, parse_file F nrt nrp ts = TOk F s /\ diags (t_pst F s) = [] /\ toks (t_pst F s) = [] /\ t_events F s = ev.
End SOUND2.
