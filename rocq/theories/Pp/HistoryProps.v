(** C36: the macros in force at a place, recovered from the define history. *)
From Coq Require Import List ZArith Bool Lia Sorting.Sorted Permutation String.
From Verif Require Import Common.Text Common.Order Loc.Model Itree.Model.
From Verif Require Import Pp.Model Pp.HistoryModel Pp.HistorySpec Pp.HistoryProofs Pp.Steps Lexer.Punct Pp.Demo.
From Verif Require Lexer.Model.
Import ListNotations.
Open Scope Z_scope.

Section C36.
Context {F : Type}.
Notation define := (@define F).
Notation define_map := (@define_map F).
Notation record := (((loc * loc) * (text * define))%type).

(** *** Rebuilding the map *)
Lemma rebuilt_stack : forall (res : list record) (m : define_map) n,
  dm_stack (fold_left (fun m r => dm_insert m (fst (snd r)) (fst (fst r), snd (snd r))) res m) n =
  rev (map (fun r => (fst (fst r), snd (snd r))) (filter (named n) res)) ++ dm_stack m n.
Proof using Type.
  induction res as [|r res IH]; intros m n; [reflexivity|]. cbn [fold_left filter]. rewrite IH, insert_stack. unfold named at 2.
  destruct (text_eqb (fst (snd r)) n); [|reflexivity]. cbn [map rev]. rewrite <- app_assoc. reflexivity.
Qed.

(** *** The insertions of [finalize] *)
Definition opened (e : text * (loc * define)) (i : Z) : record := ((fst (snd e), end_loc i), (fst e, snd (snd e))).
Lemma still_open_spec : forall (l : list (text * (loc * define))) i, 0 <= i -> i + Z.of_nat (List.length l) <= 2 ^ 16 - 1 ->
  exists rs, still_open i l = Some rs /\ map (fun r => (fst (snd r), (fst (fst r), snd (snd r)))) rs = l /\
    forall r, In r rs -> exists j, i < j /\ snd (fst r) = end_loc j.
Proof using Type.
  induction l as [|[n [a d]] l IH]; intros i Hi H.
  - exists []. split; [reflexivity|]. split; [reflexivity | intros r []].
  - cbn [List.length] in H. rewrite Nat2Z.inj_succ in H. cbn [still_open]. destruct (Z.ltb_spec (2 ^ 16 - 1) (i + 1)); [lia|].
    destruct (IH (i + 1)) as (rs & E & Em & Hr); [lia|lia|]. rewrite E. exists (((a, end_loc (i + 1)), (n, d)) :: rs).
    split; [reflexivity|]. split; [cbn [map fst snd]; rewrite Em; reflexivity|].
    intros r [<-|Hin]; [exists (i + 1); split; [lia | reflexivity]|]. destruct (Hr r Hin) as (j & Hj & Ej). exists j. split; [lia | exact Ej].
Qed.
Lemma drained_named : forall (m : define_map) n, NoDup (map fst m) ->
  map snd (filter (fun e => text_eqb (fst e) n) (drained m)) = rev (dm_stack m n).
Proof using Type.
  unfold drained. induction m as [|[k s] m IH]; intros n N; [reflexivity|]. inversion N as [|? ? N1 N2]; subst.
  cbn [flat_map fst snd dm_stack]. rewrite filter_app, map_app, (IH n N2).
  assert (G : forall l : list (loc * define), map snd (filter (fun e => text_eqb (fst e) n) (map (pair k) l)) = if text_eqb k n then l else []).
  { induction l as [|x l IHl]; cbn [map filter]; [destruct (text_eqb k n); reflexivity|]. cbn [fst]. destruct (text_eqb k n); cbn [map snd]; rewrite IHl; reflexivity. }
  rewrite G. destruct (text_eqb_spec k n) as [<-|]; [|reflexivity]. rewrite (stack_notin m k N1). apply app_nil_r.
Qed.

Lemma stack_perm : forall (m m' : define_map) n, Permutation m m' -> NoDup (map fst m) -> dm_stack m n = dm_stack m' n.
Proof using Type.
  intros m m' n H. induction H as [|[k s] m m' H IH|[k1 s1] [k2 s2] m|m1 m2 m3 H1 IH1 H2 IH2]; intro N; cbn [dm_stack].
  - reflexivity.
  - inversion N; subst. rewrite IH by assumption. reflexivity.
  - cbn [map fst] in N. inversion N as [|? ? N1 N2]; subst.
    destruct (text_eqb_spec k2 n) as [->|]; [|reflexivity]. destruct (text_eqb_spec k1 n) as [->|]; [|reflexivity]. elim N1. left. reflexivity.
  - rewrite IH1 by exact N. apply IH2. apply Permutation_NoDup with (map fst m1); [apply Permutation_map, H1 | exact N].
Qed.

Lemma end_loc_le : forall i j, i <= j -> kle (end_loc i) (end_loc j).
Proof using Type.
  intros i j H. unfold end_loc. apply kle_iff. destruct (Z.eq_dec i j) as [->|Hne]; [right; reflexivity|]. left.
  unfold klt. change (lexcmp (FILEID_BAD, (2 ^ 32 - 1, i)) (FILEID_BAD, (2 ^ 32 - 1, j)) = Lt). unfold lexcmp. cbn [fst snd]. rewrite kcmp_refl.
  change (lexcmp (2 ^ 32 - 1, i) (2 ^ 32 - 1, j) = Lt). unfold lexcmp. cbn [fst snd]. rewrite kcmp_refl. change ((i ?= j) = Lt). apply Z.compare_lt_iff. lia.
Qed.

Lemma filter_perm : forall A (f : A -> bool) l l', Permutation l l' -> Permutation (filter f l) (filter f l').
Proof using Type.
  intros A f l l' H. induction H as [|x l l' H IH|x y l|l1 l2 l3 H1 IH1 H2 IH2]; cbn [filter].
  - constructor.
  - destruct (f x); [constructor|]; exact IH.
  - destruct (f x), (f y); try apply Permutation_refl. apply perm_swap.
  - apply Permutation_trans with (filter f l2); assumption.
Qed.
Lemma filter_comm : forall A (f g : A -> bool) l, filter f (filter g l) = filter g (filter f l).
Proof using Type.
  intros A f g. induction l as [|x l IH]; [reflexivity|]. cbn [filter]. destruct (g x) eqn:Eg, (f x) eqn:Ef; cbn [filter]; rewrite ?Eg, ?Ef, IH; reflexivity.
Qed.

(** C36.  [es] is what happened so far, [order] the order in which the map is drained at the end.  If for every macro its
    definitions and undefinitions happened in the order of their places, then the map recovered for any place in the
    program holds for every macro exactly the stack of definitions that the lines up to that place leave in force. *)
Theorem C36_reconstruct : forall (es : list (event define)) (order : define_map) (q : loc),
  in_order es ->
  Permutation (fst (replay es)) order ->
  Z.of_nat (List.length (drained order)) <= 2 ^ 16 - 1 ->
  kle q (end_loc 1) ->
  exists t m, finalize order (snd (replay es)) = Some t /\ from_history t q = Some m /\
    forall n, dm_stack m n = in_force (filter (seen_from q) es) n.
Proof using Type.
  intros es order q Hsort Hperm Hlen Hq. destruct (replay_one es) as [[Nk _] Hone].
  assert (No : NoDup (map fst order)) by (apply Permutation_NoDup with (map fst (fst (replay es))); [apply Permutation_map, Hperm | exact Nk]).
  destruct (still_open_spec (drained order) 0) as (rs & Eo & Em & Hend); [lia|lia|].
  unfold finalize. rewrite Eo.
  destruct (query_inserts (rev (snd (replay es)) ++ rs) (q, q)) as (t & res & Et & Eq & Hs & Hp).
  exists t. eexists. split; [exact Et|]. unfold from_history. rewrite Eq. split; [reflexivity|].
  intro n. rewrite rebuilt_stack. cbn [dm_stack]. rewrite app_nil_r.
  destruct (Hone n) as [Hst Hh]. set (en := filter (about n) es) in *.
  pose proof (Hsort n) as Hsn. fold en in Hsn.
  destruct (prun_sorted en Hsn) as [_ Hnd].
  (* the records of the macro *)
  set (g := fun r : record => (fst (fst r), snd (snd r))).
  set (L := filter (named n) (rev (snd (replay es)) ++ rs)).
  assert (Hrs : map g (filter (named n) rs) = rev (fst (prun en))).
  { rewrite <- Hst, (stack_perm _ _ n Hperm Nk), <- (drained_named order n No), <- Em. clear.
    induction rs as [|r rs IH]; [reflexivity|]. cbn [map filter]. cbn [fst]. unfold named at 1. destruct (text_eqb (fst (snd r)) n); cbn [map snd]; rewrite IH; reflexivity. }
  assert (Hhs : forall a b d, In ((a, b), (n, d)) (snd (replay es)) <-> In ((a, b), d) (snd (prun en))).
  { intros a b d. rewrite <- Hh. rewrite in_map_iff. split.
    - intro Hin. exists ((a, b), (n, d)). split; [reflexivity|]. apply filter_In. split; [exact Hin | apply text_eqb_refl].
    - intros ([k [n' d']] & E & Hin). apply filter_In in Hin. destruct Hin as [Hin Hn]. apply text_eqb_eq in Hn. cbn [fst snd] in *. subst n'. injection E as -> ->. exact Hin. }
  (* starts are distinct *)
  assert (HL : NoDup (map (fun r => fst (fst r)) L)).
  { unfold L. rewrite filter_app, map_app.
    apply Permutation_NoDup with (2 := Hnd). apply Permutation_trans with (1 := Permutation_app_comm _ _). apply Permutation_app.
    - rewrite <- Hh. rewrite map_map. cbn [fst].
      assert (G : filter (named n) (rev (snd (replay es))) = rev (filter (named n) (snd (replay es)))).
      { clear. induction (snd (replay es)) as [|r l IH]; [reflexivity|]. cbn [rev filter]. rewrite filter_app, IH. cbn [filter]. destruct (named n r); cbn [rev]; [reflexivity | apply app_nil_r]. }
      rewrite G, map_rev. apply Permutation_rev.
    - replace (map (fun r : record => fst (fst r)) (filter (named n) rs)) with (map fst (map g (filter (named n) rs))) by (rewrite map_map; reflexivity).
      rewrite Hrs, map_rev. apply Permutation_rev. }
  set (Rn := filter (named n) res).
  assert (HpR : Permutation Rn (filter (fun r => kleb (fst (fst r)) q && kleb q (snd (fst r))) L)).
  { unfold Rn, L. rewrite filter_comm. apply filter_perm. exact Hp. }
  assert (HndR : NoDup (map (fun r => fst (fst r)) Rn)).
  { apply Permutation_NoDup with (map (fun r => fst (fst r)) (filter (fun r => kleb (fst (fst r)) q && kleb q (snd (fst r))) L)); [symmetry; apply Permutation_map, HpR|].
    clear -HL. induction L as [|r L IH]; [constructor|]. cbn [map] in HL. inversion HL; subst. cbn [filter].
    destruct (kleb (fst (fst r)) q && kleb q (snd (fst r))); [|apply IH; assumption]. cbn [map]. constructor; [|apply IH; assumption].
    intro Hin. match goal with H : ~ _ |- _ => apply H end. apply in_map_iff in Hin. destruct Hin as (x & E & Hx). apply filter_In in Hx. apply in_map_iff. exists x. split; [exact E | apply Hx]. }
  assert (HsR : StronglySorted klt (map (fun r => fst (fst r)) Rn)).
  { apply (ss_nodup record (fun r => fst (fst r))); [|exact HndR]. apply (ss_filter record loc kle (fun r => fst (fst r))). exact Hs. }
  (* the same list *)
  rewrite in_force_prun, about_seen. fold en. rewrite <- (rev_involutive (fst (prun (filter (seen_from q) en)))). f_equal.
  apply (ss_ext (loc * define) fst).
  - unfold g. rewrite map_map. exact HsR.
  - rewrite map_rev. apply (ss_rev loc (fun x y => klt y x)). apply prun_sorted. apply (ss_filter (event define) loc klt where_). exact Hsn.
  - intros [a d]. rewrite <- in_rev, (prun_seen en q Hsn a d). rewrite in_map_iff. split.
    + intros (r & E & Hin). apply (Permutation_in _ HpR) in Hin. apply filter_In in Hin. destruct Hin as [Hin Hb]. apply andb_true_iff in Hb. destruct Hb as [Hb1 Hb2].
      apply kleb_true in Hb1, Hb2. destruct r as [[a' b'] [n' d']]. unfold g in E. cbn [fst snd] in *. injection E as -> ->. split; [exact Hb1|].
      unfold L in Hin. apply filter_In in Hin. destruct Hin as [Hin Hn]. apply text_eqb_eq in Hn. cbn [fst snd] in Hn. subst n'.
      apply in_app_or in Hin. destruct Hin as [Hin|Hin].
      * right. exists b'. split; [|exact Hb2]. apply Hhs. apply in_rev. exact Hin.
      * left. apply in_rev. rewrite <- Hrs. apply in_map_iff. exists ((a, b'), (n, d)). split; [reflexivity|]. apply filter_In. split; [exact Hin | apply text_eqb_refl].
    + intros [Ha [Hin|(b & Hin & Hb)]].
      * apply in_rev in Hin. rewrite <- Hrs in Hin. apply in_map_iff in Hin. destruct Hin as (r & E & Hin). apply filter_In in Hin. destruct Hin as [Hin Hn].
        exists r. split; [exact E|]. apply (Permutation_in _ (Permutation_sym HpR)). apply filter_In. split; [unfold L; apply filter_In; split; [apply in_or_app; right; exact Hin | exact Hn]|].
        destruct (Hend r Hin) as (j & Hj & Ej). rewrite Ej. unfold g in E. injection E as E1 _. rewrite E1. apply andb_true_iff. split; apply kleb_true; [exact Ha|].
        apply kle_trans with (end_loc 1); [exact Hq | apply end_loc_le; lia].
      * exists ((a, b), (n, d)). split; [reflexivity|]. apply (Permutation_in _ (Permutation_sym HpR)). apply filter_In. split.
        -- unfold L. apply filter_In. split; [apply in_or_app; left; apply in_rev; rewrite rev_involutive; apply Hhs, Hin | apply text_eqb_refl].
        -- cbn [fst snd]. apply andb_true_iff. split; apply kleb_true; assumption.
Qed.
End C36.

(** *** What a run of the preprocessor records *)
Section RUN.
Context {F P : Type}.
Variable W : @world F P.
Notation state := (@state F P).
Notation define := (@define F).

(** the #define and #undef lines among the changes of a run, in the order in which they happened *)
Definition events (ls : list (@label F P)) : list (event define) :=
  flat_map (fun a => match a with LDefine l n d => [Defined l n d] | LUndef l n => [Undefined l n] | _ => [] end) ls.
Definition book (s : state) : @define_map F * list ((loc * loc) * (text * define)) := (defines s, history s).

Lemma prim_book : forall s a s', prim W s a s' -> book s' = fold_left apply (events [a]) (book s).
Proof using Type.
  intros s a s' H. destruct H; try reflexivity; unfold book; cbn [events flat_map app fold_left apply fst snd defines history set_defines].
  - rewrite H. reflexivity.
  - rewrite H. reflexivity.
Qed.
Lemma prims_book : forall s ls s', prims W s ls s' -> book s' = fold_left apply (events ls) (book s).
Proof using Type.
  intros s ls s' H. induction H as [s|s1 a s2 ls s3 H Hs IH]; [reflexivity|]. rewrite IH, (prim_book _ _ _ H).
  replace (events (a :: ls)) with (events [a] ++ events ls) by (unfold events; cbn [flat_map]; rewrite app_nil_r; reflexivity). rewrite fold_left_app. reflexivity.
Qed.

(** C36, the macros during a run.  [before] are the built-in macros.  In every state that the run passes through, the
    definition found for a name is the latest one of the lines processed so far that was not taken back. *)
Theorem C36_current : forall env toks before l0 ls (s : state) n,
  prims W (init env toks (fst (replay before)) l0) ls s ->
  (forall e, In e before -> exists l n d, e = Defined l n d) ->
  dm_stack (defines s) n = in_force (before ++ events ls) n /\
  dm_get (defines s) n = hd_error (in_force (before ++ events ls) n) /\
  (dm_contains (defines s) n = true <-> in_force (before ++ events ls) n <> []).
Proof using Type.
  intros env toks before l0 ls s n H Hb. apply prims_book in H.
  assert (E0 : book (init env toks (fst (replay before)) l0) = replay before).
  { unfold book, init. cbn [defines history]. rewrite (surjective_pairing (replay before)) at 2. f_equal.
    unfold replay. clear -Hb. assert (G : forall m, snd (fold_left apply before (m, [])) = @nil ((loc * loc) * (text * define))).
    { induction before as [|e es IH]; intro m; [reflexivity|]. destruct (Hb e (or_introl eq_refl)) as (l & n & d & ->). cbn [fold_left apply fst snd]. apply IH. intros e He. apply Hb. right. exact He. }
    symmetry. apply G. }
  rewrite E0 in H. unfold replay in H. rewrite <- fold_left_app in H. fold (replay (before ++ events ls)) in H.
  destruct (replay_one (before ++ events ls)) as [_ Hone]. destruct (Hone n) as [H1 _]. rewrite <- H in H1. cbn [book fst] in H1. rewrite <- (@in_force_prun define) in H1.
  assert (E : dm_stack (defines s) n = in_force (before ++ events ls) n) by exact H1.
  split; [exact E|]. split; [unfold dm_get; rewrite E; reflexivity|]. unfold dm_contains. rewrite E. destruct (in_force _ n); split; congruence.
Qed.
End RUN.

(** C36 for a whole run: what is recovered from the history of a run, for any place, is what the lines of the run that are
    written up to that place leave in force.  The hypothesis is that for each macro the lines about it were processed in
    the order of their places (C36_refuted_order shows that this is needed). *)
Theorem C36_run : forall (F P : Type) (W : @world F P) env toks before l0 fuel ts s',
  run W fuel (init env toks (fst (replay before)) l0) = Ok (ts, s') ->
  (forall e, In e before -> exists l n d, e = Defined l n d) ->
  exists ls, prims W (init env toks (fst (replay before)) l0) ls s' /\
    forall order q,
      in_order (before ++ events ls) ->
      Permutation (defines s') order -> Z.of_nat (List.length (drained order)) <= 2 ^ 16 - 1 -> kle q (end_loc 1) ->
      exists t m, finalize order (history s') = Some t /\ from_history t q = Some m /\
        forall n, dm_stack m n = in_force (filter (seen_from q) (before ++ events ls)) n.
Proof.
  intros F P W env toks before l0 fuel ts s' H Hb. apply run_reach in H. destruct H as [ls H]. exists ls. split; [exact H|].
  intros order q Hord Hperm Hlen Hq. pose proof (prims_book W _ _ _ H) as E.
  assert (E0 : book (init (P := P) env toks (fst (replay before)) l0) = replay before).
  { unfold book, init. cbn [defines history]. rewrite (surjective_pairing (replay before)) at 2. f_equal.
    unfold replay. clear -Hb. assert (G : forall m, snd (fold_left apply before (m, [])) = @nil ((loc * loc) * (text * @define F))).
    { induction before as [|e es IH]; intro m; [reflexivity|]. destruct (Hb e (or_introl eq_refl)) as (l & n & d & ->). cbn [fold_left apply fst snd]. apply IH. intros e He. apply Hb. right. exact He. }
    symmetry. apply G. }
  rewrite E0 in E. unfold replay in E. rewrite <- fold_left_app in E. fold (replay (before ++ events ls)) in E.
  assert (E1 : defines s' = fst (replay (before ++ events ls))) by (rewrite <- E; reflexivity).
  assert (E2 : history s' = snd (replay (before ++ events ls))) by (rewrite <- E; reflexivity).
  rewrite E2. apply C36_reconstruct; try assumption. rewrite <- E1. exact Hperm.
Qed.

(** *** Examples *)
(** a .dme with [#define X 1], [#include "a.dm"], [#undef X]; a.dm says [#define Y X] *)
Definition demo_files : list (text * (Z * list (list dtok))) :=
  [(lit "a.dm", (2, [[Pu PHash; Id "define"; Sp "Y"; Id "X"]; [Id "X"]]))].
Definition demo_dme : list (loc * dtok) :=
  file_toks 1 1 [[Pu PHash; Id "define"; Sp "X"; In_ 1]; [Pu PHash; Id "include"; Str "a.dm"]; [Pu PHash; Id "undef"; Id "X"]; [Id "Y"]].
Definition demo_run := run (demo_world demo_files) 100 (init (lit "env.dme") demo_dme (fst (@replay unit [])) (0, (0, 0))).
(** the run succeeds, the file a.dm saw X = 1, and Y expands to X, which is then unknown *)
Example C36_demo_run : match demo_run with
  | Ok (ts, s) => filter (fun t => match t with Lexer.Model.TPunct _ _ => false | _ => true end) (map snd ts) = [In_ 1; Id "X"] /\
      map fst (defines s) = [lit "Y"] /\ map (fun r => fst (snd r)) (history s) = [lit "X"] /\ errs s = []
  | _ => False
  end.
Proof. vm_compute. repeat split. Qed.
Definition demo_events : list (event (@define unit)) :=
  [Defined (1, (1, 3)) (lit "X") (Constant [In_ 1] []); Defined (2, (1, 3)) (lit "Y") (Constant [Id "X"] []); Undefined (1, (3, 1)) (lit "X")].
(** the hypotheses of C36_reconstruct hold of it *)
Example C36_demo : in_order demo_events /\ (exists s ts, demo_run = Ok (ts, s) /\ replay demo_events = (defines s, history s)) /\
  map fst (in_force (filter (seen_from (1, (2, 1))) demo_events) (lit "X")) = [(1, (1, 3))] /\
  in_force (filter (seen_from (2, (0, 0))) demo_events) (lit "Y") = [].
Proof.
  split; [|split; [|split; reflexivity]].
  - intro n. unfold demo_events. cbn [filter].
    rewrite (about_d n), (about_d n), (about_u n).
    assert (D : text_eqb (lit "X") n = true -> text_eqb (lit "Y") n = true -> False).
    { intros A B. apply text_eqb_eq in A, B. rewrite <- A in B. discriminate B. }
    destruct (text_eqb (lit "X") n) eqn:E1, (text_eqb (lit "Y") n) eqn:E2; try (elim (D eq_refl eq_refl)); cbn [map where_];
      repeat match goal with |- StronglySorted _ _ => constructor | |- Forall _ _ => constructor | |- klt _ _ => reflexivity end.
  - destruct demo_run as [[ts s]| |] eqn:E; [|vm_compute in E; discriminate E|vm_compute in E; discriminate E].
    exists s, ts. split; [reflexivity|]. vm_compute in E. injection E as _ <-. vm_compute. reflexivity.
Qed.
(** The places in files are not the order of time.  In the run above X is defined while a.dm is processed (C36_demo_run),
    but the map recovered for the start of a.dm (file 2) does not have it: the #undef is written in file 1. *)
Example C36_refuted_order : exists s ts t m, demo_run = Ok (ts, s) /\ finalize (defines s) (history s) = Some t /\
  branch_at_file t 2 = Some m /\ dm_get m (lit "X") = None.
Proof.
  destruct demo_run as [[ts s]| |] eqn:E; [|vm_compute in E; discriminate E|vm_compute in E; discriminate E].
  exists s, ts. destruct (finalize (defines s) (history s)) as [t|] eqn:Ef; [|vm_compute in E; injection E as _ <-; vm_compute in Ef; discriminate Ef].
  destruct (branch_at_file t 2) as [m|] eqn:Em; [|vm_compute in E; injection E as _ <-; vm_compute in Ef; injection Ef as <-; vm_compute in Em; discriminate Em].
  exists t, m. split; [reflexivity|]. split; [reflexivity|]. split; [exact Em|].
  vm_compute in E. injection E as _ <-. vm_compute in Ef. injection Ef as <-. vm_compute in Em. injection Em as <-. reflexivity.
Qed.

Print Assumptions C36_reconstruct.
Print Assumptions C36_current.
Print Assumptions C36_run.
