(** The parser of files and the grammar of declarations: C57.  Blocks and paths: C58.  The parser and the end of the file: C59. *)
From Coq Require Import List NArith ZArith Bool String Lia.
From Verif Require Import Common.Text Lexer.Punct Lexer.Model Parse.Ast Parse.Model Parse.Spec Parse.Facts Parse.Grow Parse.Complete Parse.Props
  Stmt.Ast Stmt.Model Stmt.Spec Stmt.Props Tree.Ast Tree.Model Tree.Spec Tree.Sound Tree.Place Tree.Sound2 Tree.Complete.
Import ListNotations.
Open Scope nat_scope.

Section PROPS.
Variable F : Type.
Variables no_relative_types no_relative_procs : bool.
Notation tok := (token F).
Notation event := (event F).
Notation decl := (decl F).
Notation P p := (TPunct F p).
Notation entry_at := (entry_at F no_relative_types no_relative_procs).
Notation entries_at := (entries_at F no_relative_types no_relative_procs).
Notation parse_file := (parse_file F no_relative_types no_relative_procs).
Notation reads_file := (reads_file F no_relative_types no_relative_procs).

(** The declarations [ds] of a file *)
Definition file_at (ds : list decl) (ts : list tok) : Prop := entries_at [] false ds (without_docs F ts) [].
(** The calls [ev] of the builder declare the members that [ds] declares, in this order, and add the types that [ds] names, in the
    order in which it first names them. *)
Definition built (ev : list event) (ds : list decl) : Prop :=
  mems F ev = members_of F ds /\ fresh [] (adds F ev) = fresh [] (types_named F ds).

(** ** C57 *)
(** Parsing ends for every input. *)
Theorem C57_terminates (ts : list tok) : parse_file ts <> TStuck F.
Proof using Type.
  unfold Tree.Model.parse_file. set (ts' := filter _ ts).
  pose proof (entries_spec F no_relative_types no_relative_procs (S (List.length ts')) false root_place {| t_pst := {| toks := ts'; diags := [] |}; t_events := [] |}) as H.
  cbn [t_pst t_events toks] in H. specialize (H ltac:(lia)). intros E. rewrite E in H. exact H.
Qed.

(** What is built from a file that is read without complaint is what the grammar says the file declares ... *)
Theorem C57_sound (ts : list tok) (ev : list event) : reads_file ts ev -> exists ds, file_at ds ts /\ built ev ds.
Proof using Type.
  intros (s & E & D & T & <-). unfold Tree.Model.parse_file in E. rewrite without_docs_eq in E. unfold file_at. set (ts' := without_docs F ts) in *.
  pose proof (entries_spec F no_relative_types no_relative_procs (S (List.length ts')) false root_place {| t_pst := {| toks := ts'; diags := [] |}; t_events := [] |}) as H.
  cbn [t_pst t_events toks] in H. specialize (H ltac:(lia)). rewrite E in H. cbn [tspec diags] in H. destruct H as (_ & _ & e & -> & H).
  destruct (H D [] leads_nil) as (ds & HA & M1 & M2). rewrite T in HA. exists ds. split; [exact HA|]. split; [exact M1|]. apply M2. intros x [].
Qed.
(** ... and whatever the grammar has as a file is read that way. *)
Theorem C57_complete (ts : list tok) (ds : list decl) : file_at ds ts -> exists ev, reads_file ts ev /\ built ev ds.
Proof using Type.
  unfold file_at, Sound2.reads_file, Tree.Model.parse_file. rewrite without_docs_eq. set (ts' := without_docs F ts). intros H.
  destruct (proj2 (entries_yes F no_relative_types no_relative_procs) _ _ _ _ _ H) as [_ HY].
  destruct (HY root_place leads_nil (S (List.length ts')) [] [] ltac:(lia)) as (e & E & M1 & M2). cbn [app] in E.
  exists e. split; [eexists; split; [exact E|auto]|]. split; [exact M1|]. apply M2. intros x [].
Qed.
(** What a file declares is determined by its tokens. *)
Theorem C57_unambiguous (ts : list tok) (ds ds' : list decl) : file_at ds ts -> file_at ds' ts ->
  members_of F ds = members_of F ds' /\ fresh [] (types_named F ds) = fresh [] (types_named F ds').
Proof using Type.
  intros H H'. destruct (C57_complete _ _ H) as (ev & (s & E & _ & _ & <-) & M & A). destruct (C57_complete _ _ H') as (ev' & (s' & E' & _ & _ & <-) & M' & A').
  rewrite E in E'. injection E' as <-. split; congruence.
Qed.
(** Exactly the files of the grammar are read without complaint. *)
Theorem C57_accepted (ts : list tok) : (exists ev, reads_file ts ev) <-> (exists ds, file_at ds ts).
Proof using Type.
  split; [intros [ev H]; destruct (C57_sound _ _ H) as (ds & H' & _); eauto|intros [ds H]; destruct (C57_complete _ _ H) as (ev & H' & _); eauto].
Qed.
(** The code of a procedure is the one the grammar of statements gives for its body. *)
Theorem C57_code (body rest : list tok) (b : block F) : block_at F b (without_docs F body) rest -> code_of F body = Some b.
Proof using Type. intros H. unfold code_of. rewrite (proj2 (C55_parser_is_grammar F _ _ _) H). reflexivity. Qed.

(** ** C58: a block is a way to write a part of the path once *)
(** [q], written with a slash after each name *)
Inductive written : list text -> list tok -> Prop :=
  | Wr_nil : written [] []
  | Wr_cons w ws q l : written q l -> written (w :: q) (TIdent F w ws :: P PSlash :: l).
Definition relative (ts : list tok) : Prop := exists w ws r, ts = TIdent F w ws :: r.

Lemma names_written q l : written q l -> forall ns ts rest, names_at F ns ts rest -> names_at F (q ++ ns) (l ++ ts) rest.
Proof using Type. induction 1 as [|w ws q l H IH]; intros ns ts rest HN; [exact HN|]. exact (Na_more F w ws 0 _ _ _ (IH _ _ _ HN)). Qed.
Lemma names_ident ns ts rest : names_at F ns ts rest -> relative ts.
Proof using Type. intros H. inversion H; subst; repeat eexists. Qed.
Lemma names_inv ns ts rest : names_at F ns ts rest ->
  (exists i ws k, ns = [named i k] /\ ts = TIdent F i ws :: repeat (P PSlash) k ++ rest /\ not_punct F PSlash rest /\ (k <> 0 -> not_ident F rest)) \/
  (exists i ws k ns' ts', ns = named i k :: ns' /\ ts = TIdent F i ws :: P PSlash :: repeat (P PSlash) k ++ ts' /\ names_at F ns' ts' rest).
Proof using Type. intros H. inversion H; subst; [left|right]; repeat eexists; eauto. Qed.
Lemma written_names q l : written q l -> forall ns ts rest, relative ts -> names_at F ns (l ++ ts) rest -> exists ns', ns = q ++ ns' /\ names_at F ns' ts rest.
Proof using Type.
  induction 1 as [|w ws q l H IH]; intros ns ts rest HR HN; [exists ns; auto|]. cbn [app] in HN.
  assert (HI : relative (l ++ ts)) by (destruct H; [exact HR|repeat eexists]). destruct HI as (w1 & ws1 & r1 & E1).
  destruct (names_inv _ _ _ HN) as [(i & ws' & k & -> & E & N1 & N2)|(i & ws' & k & ns' & ts' & -> & E & HN')]; injection E as -> -> E.
  - exfalso. destruct k as [|k]; [exact (N1 _ (eq_sym E))|]. cbn [repeat app] in E. injection E as E. rewrite E1 in E. destruct k as [|k]; cbn in E; [|discriminate].
    assert (Z : not_ident F rest) by (apply N2; discriminate). exact (Z _ _ _ (eq_sym E)).
  - rewrite E1 in E. destruct k as [|k]; cbn [repeat app] in E; [|discriminate]. rewrite <- E1 in E. rewrite <- E in HN'. destruct (IH _ _ _ HR HN') as (ns2 & -> & HN2). exists ns2. auto.
Qed.
Lemma names_nonempty ns ts rest : names_at F ns ts rest -> ns <> [].
Proof using Type. intros H. inversion H; discriminate. Qed.
Lemma relative_head a ns w ts rest : relative ts -> Tree.Spec.head_at F a ns w ts rest -> a = false.
Proof using Type. intros (i & ws & r & ->) (w0 & mid & HR & _). inversion HR; reflexivity. Qed.
Lemma head_written a q l ns w ts rest : written q l -> relative ts -> Tree.Spec.head_at F a ns w ts rest ->
  Tree.Spec.head_at F false (q ++ ns) w (l ++ ts) rest /\ Tree.Spec.head_at F true (q ++ ns) w (P PSlash :: l ++ ts) rest.
Proof using Type.
  intros HW HR H. rewrite (relative_head _ _ _ _ _ HR H) in H. destruct H as (w0 & mid & HRo & HL). inversion HRo as [x y z HN|]; subst.
  pose proof (names_written _ _ HW _ _ _ HN) as HN'. rewrite app_assoc in HN'. split; exists w0, mid; (split; [constructor; exact HN'|exact HL]).
Qed.
Lemma written_head q l ns w ts rest : written q l -> relative ts ->
  Tree.Spec.head_at F false ns w (l ++ ts) rest \/ Tree.Spec.head_at F true ns w (P PSlash :: l ++ ts) rest ->
  exists ns', ns = q ++ ns' /\ Tree.Spec.head_at F false ns' w ts rest.
Proof using Type.
  intros HW HR H. assert (HN : exists w0 mid, names_at F (ns ++ [w0]) (l ++ ts) mid /\ last_at F w0 w mid rest).
  { destruct H as [H|H]; destruct H as (w0 & mid & HRo & HL); inversion HRo; subst; eauto. }
  destruct HN as (w0 & mid & HN & HL). destruct (written_names _ _ HW _ _ _ HR HN) as (ns' & E & HN').
  destruct (@exists_last _ ns' (names_nonempty _ _ _ HN')) as (ns2 & w2 & ->). rewrite app_assoc in E. apply app_inj_tail in E as [-> <-].
  exists ns2. split; [reflexivity|]. exists w0, mid. split; [constructor; exact HN'|exact HL].
Qed.

(** An entry with a relative path, written inside of blocks that spell the path [q], is the entry with [q] in front of its path
    outside of them; for every configuration if it becomes absolute that way ... *)
Theorem C58_out_of_blocks (q : list text) (l ts rest : list tok) (d : list decl) : written q l -> relative ts ->
  entry_at q d ts rest -> entry_at [] d (P PSlash :: l ++ ts) rest.
Proof using Type.
  intros HW HR H.
  assert (K : forall ns : list text, types_ok no_relative_types true [] ns) by (intros ns _ E; discriminate E).
  inversion H as [pre a ns w c c' sz ds ts' t1 t2 rest' HH HO HL1 HS HL' HT HE|pre a ns w c sz e it l0 ts' t1 t2 t3 t4 rest' HH HO HL1 HS HT HE HI HD|
    pre a ns w c sz ps rt b ts' t1 t2 t3 t4 rest' HH HO HL1 HS HT HP HRt HB|pre a ns w c t sz it l0 ts' t1 t2 rest' HH HO HL1 HV HS HB HW' HN HI|pre a ns w ts' rest' HH HO HF HWp HB HT]; subst;
    destruct (head_written _ _ _ _ _ _ _ HW HR HH) as [_ HH']; clear HH.
  - rewrite app_assoc in HL', HE. eapply E_block; cbn [app]; eauto. intros _; exact I.
  - eapply E_value; cbn [app]; eauto. intros _; exact I.
  - eapply E_proc; cbn [app]; eauto. intros _; exact I.
  - eapply E_var; cbn [app]; eauto. intros _; exact I.
  - rewrite app_assoc. apply (E_type F no_relative_types no_relative_procs [] true (q ++ ns) w); auto. intros _; exact I.
Qed.
(** ... and without demands of the configuration between any two ways of writing it. *)
Theorem C58_nesting (pre q : list text) (l ts rest : list tok) (d : list decl) : no_relative_types = false -> no_relative_procs = false ->
  written q l -> relative ts -> entry_at (pre ++ q) d ts rest <-> entry_at pre d (l ++ ts) rest.
Proof using Type.
  intros C1 C2 HW HR.
  assert (K : forall a p ns, types_ok no_relative_types a p ns) by (intros a p ns E; congruence).
  assert (K2 : forall a : bool, no_relative_procs = true -> a = true) by (intros a E; congruence).
  assert (HR' : relative (l ++ ts)) by (destruct HW; [exact HR|repeat eexists]).
  split; intros H.
  - inversion H as [pre0 a ns w c c' sz ds ts' t1 t2 rest' HH HO HL1 HS HL' HT HE|pre0 a ns w c sz e it l0 ts' t1 t2 t3 t4 rest' HH HO HL1 HS HT HE HI HD|
    pre0 a ns w c sz ps rt b ts' t1 t2 t3 t4 rest' HH HO HL1 HS HT HP HRt HB|pre0 a ns w c t sz it l0 ts' t1 t2 rest' HH HO HL1 HV HS HB HW' HN HI|pre0 a ns w ts' rest' HH HO HF HWp HB HT]; subst;
    destruct (head_written _ _ _ _ _ _ _ HW HR HH) as [HH' _]; clear HH.
    + rewrite <- app_assoc in HL1, HL', HE. rewrite (app_assoc q) in HL', HE. eapply E_block; eauto. discriminate.
    + rewrite <- app_assoc in HL1. eapply E_value; eauto. discriminate.
    + rewrite <- app_assoc in HL1. eapply E_proc; eauto. discriminate.
    + rewrite <- app_assoc in HL1. eapply E_var; eauto. discriminate.
    + rewrite <- app_assoc in HF |- *. rewrite (app_assoc q). eapply E_type; eauto. discriminate.
  - inversion H as [pre0 a ns w c c' sz ds ts' t1 t2 rest' HH HO HL1 HS HL' HT HE|pre0 a ns w c sz e it l0 ts' t1 t2 t3 t4 rest' HH HO HL1 HS HT HE HI HD|
    pre0 a ns w c sz ps rt b ts' t1 t2 t3 t4 rest' HH HO HL1 HS HT HP HRt HB|pre0 a ns w c t sz it l0 ts' t1 t2 rest' HH HO HL1 HV HS HB HW' HN HI|pre0 a ns w ts' rest' HH HO HF HWp HB HT]; subst;
    rewrite (relative_head _ _ _ _ _ HR' HH) in HH; destruct (written_head _ _ _ _ _ _ HW HR (or_introl HH)) as (ns' & -> & HH'); clear HH.
    + rewrite <- app_assoc in HL', HE. rewrite (app_assoc pre) in HL1, HL', HE. eapply E_block; eauto. discriminate.
    + rewrite (app_assoc pre) in HL1. eapply E_value; eauto. discriminate.
    + rewrite (app_assoc pre) in HL1. eapply E_proc; eauto. discriminate.
    + rewrite (app_assoc pre) in HL1. eapply E_var; eauto. discriminate.
    + rewrite <- app_assoc, (app_assoc pre q). rewrite (app_assoc pre) in HF. eapply E_type; eauto. discriminate.
Qed.

(** ** C59: the end of the file inside a block *)
(** The grammar's files are read to the end. *)
Theorem C59_no_panic_partial (ts : list tok) (ds : list decl) : file_at ds ts -> forall s, parse_file ts <> TPanic F s.
Proof using Type. intros H s E. destruct (C57_complete _ _ H) as (ev & (s' & E' & _) & _). congruence. Qed.
(** If the parser panics, all tokens have been read. *)
Lemma treq_panic {A : Type} (x : res F A) ev (k : A -> pst F -> tres F) s : treq F x ev k = TPanic F s -> exists a s1, k a s1 = TPanic F s.
Proof using Type. destruct x as [[a|] s1|s1|]; cbn [treq]; try discriminate. eauto. Qed.
Lemma rest_panic block x a n name sz s s' : entry_rest F no_relative_types no_relative_procs block x a n name sz s = TPanic F s' -> exists c0 s0, block c0 s0 = TPanic F s'.
Proof using Type.
  assert (V : entry_value F (w_place F x) name sz (w_events F x) (warn F (w_relative F x) DRelativeType (with_toks F (tl (toks s)) s)) = TPanic F s' -> exists c0 s0, block c0 s0 = TPanic F s').
  { unfold entry_value. intros H. apply treq_panic in H as (? & ? & H). apply treq_panic in H as (? & ? & H). apply treq_panic in H as (? & ? & H). discriminate. }
  assert (Pr : entry_proc F no_relative_procs (w_place F x) a name (w_events F x) (with_toks F (tl (toks s)) s) = TPanic F s' -> exists c0 s0, block c0 s0 = TPanic F s').
  { unfold entry_proc. intros H. apply treq_panic in H as (? & ? & H). apply treq_panic in H as (? & ? & H). apply treq_panic in H as (? & ? & H). discriminate. }
  assert (Ba : entry_bare F x a n name sz s = TPanic F s' -> exists c0 s0, block c0 s0 = TPanic F s').
  { unfold entry_bare. destruct (c_var (w_place F x)) as [t|].
    - intros H. apply treq_panic in H as (? & ? & H). destruct (text_eqb _ _); [discriminate|]. destruct (flag_of name); discriminate.
    - destruct (text_eqb _ _); [discriminate|]. destruct (kind_of name); [discriminate|]. destruct (c_proc _); discriminate. }
  assert (Bl : entry_block F no_relative_types block x a n name (with_toks F (tl (toks s)) s) = TPanic F s' -> exists c0 s0, block c0 s0 = TPanic F s').
  { unfold entry_block. eauto. }
  unfold entry_rest. destruct (toks s) as [|t r]; [exact Ba|]. cbn [tl] in *. destruct t as [p| | | | | | | | |]; try exact Ba. destruct p; first [exact Ba|exact V|exact Pr|exact Bl].
Qed.
Lemma entry_panic block c s s' : entry F no_relative_types no_relative_procs block c s = TPanic F s' -> exists c0 s0, block c0 s0 = TPanic F s'.
Proof using Type.
  unfold entry. intros H. apply treq_panic in H as ([ab path] & s1 & H). destruct (pop path) as [[tr last]|]; [|discriminate].
  apply treq_panic in H as (name & s2 & H). destruct (c_var _).
  - apply treq_panic in H as (sz & s3 & H). eapply rest_panic, H.
  - eapply rest_panic, H.
Qed.
Lemma entries_panic n : forall nested c s s', entries F no_relative_types no_relative_procs n nested c s = TPanic F s' ->
  toks (t_pst F s') = [] /\ (nested = true \/ exists c0 s0 m, entries F no_relative_types no_relative_procs m true c0 s0 = TPanic F s').
Proof using Type.
  induction n as [|n IH]; intros nested c s s'; [discriminate|]. cbn [entries].
  assert (HE : match entry F no_relative_types no_relative_procs (entries F no_relative_types no_relative_procs n true) c s with TOk _ s1 => entries F no_relative_types no_relative_procs n nested c s1 | x => x end = TPanic F s' ->
     toks (t_pst F s') = [] /\ (nested = true \/ exists c0 s0 m, entries F no_relative_types no_relative_procs m true c0 s0 = TPanic F s')).
  { destruct (entry F _ _ _ c s) as [s1|s1|s1|] eqn:E; try discriminate; [apply IH|]. intros Q. injection Q as <-. apply entry_panic in E as (c0 & s0 & E).
    split; [exact (proj1 (IH _ _ _ _ E))|right; eauto]. }
  destruct (toks (t_pst F s)) as [|t r] eqn:T.
  { destruct nested; [|discriminate]. intros Q. injection Q as <-. auto. }
  destruct t as [p| | | | | | | | |]; try (rewrite andb_false_r; exact HE). destruct p; try (rewrite andb_false_r; exact HE).
  - apply IH.
  - destruct nested; cbn [andb]; [discriminate|exact HE].
Qed.
Theorem C59_panic_at_end (ts : list tok) s : parse_file ts = TPanic F s -> toks (t_pst F s) = [].
Proof using Type. intros H. exact (proj1 (entries_panic _ _ _ _ _ H)). Qed.

(** Whatever stands in a block that is not closed, if it is well-formed the parser panics. *)
Lemma entries_open_block pre b ds ts rest : entries_at pre b ds ts rest -> b = false -> forall c, leads pre c -> forall n dg evs, List.length ts < n ->
  exists s, entries F no_relative_types no_relative_procs n true c {| t_pst := Complete.mk F ts dg; t_events := evs |} = TPanic F s.
Proof using Type.
  induction 1 as [pre|pre rest|pre b ds ts rest H IH|pre b d ds ts mid rest H H2 IH]; intros Eb c HL n dg evs Hn; try discriminate Eb; destruct n as [|n]; try lia.
  - eexists; reflexivity.
  - cbn in Hn. apply IH; [exact Eb|exact HL|lia].
  - destruct (proj1 (entries_yes F no_relative_types no_relative_procs) _ _ _ _ H) as [HLt HY]. destruct (HY c HL n dg evs) as (e & E & _); [lia|].
    destruct (IH Eb c HL n dg (evs ++ e)) as (s & ES); [lia|].
    assert (HS : exists t r, ts = t :: r /\ t <> P PSemicolon /\ t <> P PRBrace).
    { assert (HHd : exists a ns w t1, Tree.Spec.head_at F a ns w ts t1) by (inversion H; subst; eauto). destruct HHd as (a & ns & w & t1 & w0 & m & HR & _).
      inversion HR as [ns' ts' r' HN|ns' ts' r' HN]; subst; [inversion HN; subst|]; eexists; eexists; (split; [reflexivity|]); split; discriminate. }
    destruct HS as (t & r & -> & NS & NB). exists s. cbn [entries t_pst toks Complete.mk].
    assert (Z2 : true && match t with TPunct _ PRBrace => true | _ => false end = false) by (destruct t as [p| | | | | | | | |]; try apply andb_false_r; destruct p; try apply andb_false_r; congruence).
    fold (Complete.mk F (t :: r) dg). rewrite Z2. destruct t as [p| | | | | | | | |]; try (rewrite E, ES; reflexivity). destruct p; try congruence; rewrite E, ES; reflexivity.
Qed.
(** The tokens [ts] begin with an entry that opens a block, in which [ds] is declared up to the end of the file. *)
Inductive open_at : list decl -> list tok -> Prop :=
  Open a ns w c c' sz ds ts t1 t2 :
    Tree.Spec.head_at F a ns w ts t1 -> leads ns c -> suffix_at F c sz t1 (P PLBrace :: t2) -> leads (ns ++ [w]) c' ->
    types_ok no_relative_types a [] (ns ++ [w]) -> entries_at (ns ++ [w]) false ds t2 [] -> open_at ds ts.
Theorem C59_open_block (ts : list tok) (ds : list decl) : open_at ds (without_docs F ts) -> exists s, parse_file ts = TPanic F s.
Proof using Type.
  unfold Tree.Model.parse_file. rewrite without_docs_eq. set (ts' := without_docs F ts). intros H. destruct H as [a ns w c1 c' sz ds tk t1 t2 HH HL1 HS HL' HT HE].
  pose proof (head_lt F _ _ _ _ _ HH) as K1. pose proof (suffix_le F _ _ _ _ HS) as K2. cbn in K2.
  assert (HSt : exists t r, tk = t :: r /\ t <> P PSemicolon /\ t <> P PRBrace).
  { destruct HH as (w0 & m & HR & _). inversion HR as [ns' ts' r' HN|ns' ts' r' HN]; subst; [inversion HN; subst|]; eexists; eexists; (split; [reflexivity|]); split; discriminate. }
  set (n := List.length tk). assert (Hn : List.length t2 < n) by (unfold n; lia). clearbody n.
  assert (E : exists s, entry F no_relative_types no_relative_procs (entries F no_relative_types no_relative_procs n true) root_place {| t_pst := Complete.mk F tk []; t_events := [] |} = TPanic F s).
  { destruct (entry_head F no_relative_types no_relative_procs (entries F no_relative_types no_relative_procs n true) a ns w tk t1 sz _ [] root_place c1 [] [] HH (fun _ => I) leads_nil HL1 HS) as (x & k & e0 & l & -> & E1 & E2 & E3 & HA & HM & HC).
    cbn [entry_rest toks Complete.mk]. change (with_toks F t2 (Complete.mk F (P PLBrace :: t2) [])) with (Complete.mk F t2 []). unfold entry_block.
    pose proof (enter_eq F no_relative_types a k w {| w_place := w_place F x; w_relative := w_relative F x; w_events := w_events F x; w_pst := Complete.mk F t2 [] |}) as HX. cbn [w_place w_pst w_relative w_events] in HX.
    set (x1 := enter F no_relative_types a k w _) in *. rewrite E1 in HX.
    pose proof (proj1 (leads_app _ c1 [w] c' HL1) HL') as HF. cbn [follow] in HF.
    destruct (move c1 w) as [c2|]; [|discriminate]. injection HF as ->. destruct HX as (X1 & X2 & X3 & l' & ev1 & X4 & X5 & X6 & X7).
    assert (R : w_relative F x1 = false).
    { rewrite X3, E2. rewrite (relative_snoc no_relative_types a root_place ns w c1); [apply (relative_ok no_relative_types a [] root_place _ leads_nil HT)|]. apply (leads_app [] root_place ns c1 leads_nil), HL1. }
    rewrite X1, X2, R. cbn [warn]. apply (entries_open_block _ _ _ _ _ HE eq_refl c' HL'). exact Hn. }
  destruct E as [s E]. exists s. destruct HSt as (t & r & -> & NS & NB). cbn [entries t_pst toks]. fold (Complete.mk F (t :: r) []). cbn [andb].
  destruct t as [p| | | | | | | | |]; try (rewrite E; reflexivity). destruct p; try congruence; rewrite E; reflexivity.
Qed.
End PROPS.
