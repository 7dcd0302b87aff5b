(** What the grammar of entries has, the parser of files reads. *)
From Coq Require Import List NArith ZArith Bool String Lia.
From Verif Require Import Common.Text Lexer.Punct Lexer.Model Parse.Ast Parse.Model Parse.Spec Parse.Facts Parse.Grow Parse.Complete Parse.Complete2
  Stmt.Ast Stmt.Model Stmt.Spec Stmt.Sound Stmt.Sound2 Stmt.Complete Stmt.Complete2 Tree.Ast Tree.Model Tree.Spec Tree.Sound Tree.Place Tree.Sound2.
Import ListNotations.
Open Scope nat_scope.

Scheme tree_m := Minimality for tree Sort Prop with trees_m := Minimality for trees Sort Prop.
Combined Scheme trees_mind from tree_m, trees_m.
Scheme entry_at_m := Minimality for entry_at Sort Prop with entries_at_m := Minimality for entries_at Sort Prop.
Combined Scheme entries_mind from entry_at_m, entries_at_m.

Section COMPLETE.
Variable F : Type.
Variables nrt nrp : bool.
Notation tok := (token F).
Notation expr := (expr F).
Notation pst := (pst F).
Notation res := (res F).
Notation event := (event F).
Notation P p := (TPunct F p).
Notation W w ws := (TIdent F (lit w) ws).
Notation mk := (Complete.mk F).
Notation length := (@List.length tok).
Notation adds := (adds F). Notation mems := (mems F). Notation means := (means F).

Ltac other := first [intros ? ?; discriminate | let E := fresh in intros ? ? E; (discriminate E || (vm_compute in E; discriminate E)) | let E := fresh in intros ? ? ? E; discriminate E].
Ltac ev L := rewrite L; cbn [opt_ req_ lead_ ret success].

Lemma input_yes a l ts rest ds : input_at F a l ts rest -> input_specifier F (mk ts ds) = Ok (Some (a, l)) (mk rest ds).
Proof using Type.
  intros H. unfold input_specifier.
  assert (K : forall it mid, match l with None => mid = rest /\ not_punct F PIn rest | Some e => exists m2, mid = P PIn :: m2 /\ expr_at F e m2 rest /\ not_word F (lit "as") rest end ->
     in_clause F it (mk mid ds) = Ok (Some (it, l)) (mk rest ds)).
  { intros it mid HK. unfold in_clause. destruct l as [e|].
    - destruct HK as (m2 & -> & HE & N). ev exact_yes. ev (expr_yes F _ _ _ ds HE). ev (word_no F _ _ ds N). reflexivity.
    - destruct HK as [-> N]. ev (punct_no F _ _ ds N). reflexivity. }
  inversion H as [a0 ts0 r0 HA HN|a0 e ts0 mid r0 HA HE HN]; subst; inversion HA as [n ws ts1 r1 HI|ts1 HW]; subst.
  - ev word_yes. ev (itype_yes F _ _ _ ds HI). apply K. auto.
  - ev (word_no F _ _ ds HW). apply K. auto.
  - ev word_yes. ev (itype_yes F _ _ _ ds HI). apply K. eauto.
  - ev (word_no F _ _ ds HW). apply K. eauto.
Qed.
Lemma input_le a l ts rest : input_at F a l ts rest -> length rest <= length ts.
Proof using Type. intros H. inversion H as [a0 ts0 r0 HA HN|a0 e ts0 mid r0 HA HE HN]; subst; apply as_le in HA; [exact HA|]. apply expr_lt in HE. cbn in HA. lia. Qed.
Lemma suffix_yes sz ts rest ds : sizes_at F sz ts rest -> var_suffix F (mk ts ds) = Ok (Some sz) (mk rest ds).
Proof using Type. intros H. unfold var_suffix. apply (fl_suffix F _ _ (srun_full F _) [] sz ts rest ds); [unfold stmt_fuel; cbn; lia|exact H]. Qed.
Lemma parameter_yes q ts rest ds : param_at F q ts rest -> parameter F (mk ts ds) = Ok (Some q) (mk rest ds).
Proof using Type.
  intros H. unfold parameter. inversion H as [r0|p name n t sz d a l ts0 t1 t2 t3 r0 HP HV HT HS HD HI HN]; subst.
  - ev exact_yes. reflexivity.
  - ev (punct_no F PEllipsis ts ds (path_ident F _ _ _ HP PEllipsis ltac:(discriminate))). ev (path_yes F _ _ _ ds HP). rewrite pop_snoc.
    assert (E : strip_var p = (false, p)).
    { unfold strip_var. destruct p as [|w p]; [reflexivity|]. change (lit "var") with VAR. rewrite (eqb_ne _ _ HV). reflexivity. }
    unfold param_rest. rewrite E, (param_type_yes p n t HT), N.lor_0_l. cbn [v_flags]. rewrite (param_type_static p n t HT). cbn [N.eqb negb warn].
    unfold param_tail. ev (suffix_yes _ _ _ ds HS). rewrite with_suffix_eq. cbn [v_flags v_path].
    assert (K : forall dd, param_end F {| v_flags := n; v_path := list_type F sz t |} name dd (mk t3 ds) =
      Ok (Some {| q_type := {| v_flags := n; v_path := list_type F sz t |}; q_name := name; q_default := dd; q_input := a; q_in := l |}) (mk rest ds)).
    { intros dd. unfold param_end. ev (input_yes _ _ _ _ ds HI). ev (punct_no F _ _ ds HN). reflexivity. }
    inversion HD as [ts1 HA|e ts1 r1 HE]; subst.
    + ev (punct_no F _ _ ds HA). apply K.
    + ev exact_yes. ev (expr_yes F _ _ _ ds HE). apply K.
Qed.
Lemma default_le d ts rest : default_at F d ts rest -> length rest <= length ts.
Proof using Type. intros H. inversion H as [|e ts1 r1 HE]; subst; [lia|]. apply expr_lt in HE. cbn. lia. Qed.
Lemma parameter_lt q ts rest : param_at F q ts rest -> length rest < length ts.
Proof using Type.
  intros H. inversion H as [r0|p name n t sz d a l ts0 t1 t2 t3 r0 HP HV HT HS HD HI HN]; subst; [cbn; lia|].
  apply path_lt in HP. apply sizes_le in HS. apply default_le in HD. apply input_le in HI. lia.
Qed.
Lemma parameters_yes n : forall c l x ts rest ds, length ts < n -> after_item F (param_at F) c x ts rest ->
  parameters F n c l (mk ts ds) = Ok (Some (l ++ x)) (mk rest ds).
Proof using Type.
  induction n as [|n IH]; intros c l x ts rest ds Hn H; [lia|]. cbn [parameters]. eapply separated_yes; [exact parameter_lt|exact parameter_yes| |exact H].
  intros c' l' x' ts' rest' ds' HL H'. apply IH; [lia|exact H'].
Qed.
Lemma type_path_yes n : forall p x ts rest ds, length ts < n -> type_path_at F x ts rest -> type_path F n p (mk ts ds) = Ok (Some (p ++ x)) (mk rest ds).
Proof using Type.
  induction n as [|n IH]; intros p x ts rest ds Hn H; [lia|]. cbn [type_path]. inversion H as [ts0 N|i ws p0 ts0 r0 HT]; subst.
  - ev (punct_no F _ _ ds N). rewrite app_nil_r. reflexivity.
  - ev exact_yes. cbn [Model.ident toks Complete.mk success req_ with_toks diags]. change {| toks := ts0; diags := ds |} with (mk ts0 ds). rewrite (IH _ p0 ts0 rest ds); [|cbn in Hn; lia|exact HT].
    rewrite <- app_assoc. reflexivity.
Qed.
Lemma return_yes d rt ts rest ds : return_at F d rt ts rest -> return_type F (match d with None => true | Some _ => false end) (mk ts ds) = Ok (Some rt) (mk rest ds).
Proof using Type.
  intros H. unfold return_type. inversion H as [d0 ts0 N|d0 n ws ts0 r0 HI|d0 p ws ts0 r0 HN HT]; subst.
  - ev (word_no F _ _ ds N). reflexivity.
  - ev word_yes. cbn [warn]. ev (itype_yes F _ _ _ ds HI). reflexivity.
  - ev word_yes. cbn [warn]. inversion HT as [|i ws' p0 ts1 r1 HT']; subst; [congruence|].
    change (Model.input_type F (mk (P PSlash :: TIdent F i ws' :: ts1) ds)) with (@Ok F N None (mk (P PSlash :: TIdent F i ws' :: ts1) ds)). cbn [opt_].
    ev exact_yes. cbn [Model.ident toks Complete.mk success req_ with_toks diags]. change {| toks := ts1; diags := ds |} with (mk ts1 ds).
    change (with_toks F ts1 (mk (TIdent F i ws' :: ts1) ds)) with (mk ts1 ds).
    ev (type_path_yes (S (length ts1)) [i] p0 ts1 rest ds (le_n _) HT'). reflexivity.
Qed.
Lemma type_path_le x ts rest : type_path_at F x ts rest -> length rest <= length ts.
Proof using Type. induction 1; cbn; lia. Qed.
Lemma return_le d rt ts rest : return_at F d rt ts rest -> length rest <= length ts.
Proof using Type.
  intros H. inversion H as [d0 ts0 N|d0 n ws ts0 r0 HI|d0 p ws ts0 r0 HN HT]; subst; [lia| |apply type_path_le in HT; cbn; lia].
  destruct HI as (pre & A & -> & _). cbn. rewrite app_length. lia.
Qed.

(** ** Bodies *)
Lemma terminator_no ts ds : not_punct F PSemicolon ts -> not_punct F PRBrace ts -> statement_terminator F (mk ts ds) = Ok None (mk ts ds).
Proof using Type.
  intros H1 H2. unfold statement_terminator. cbn [toks Complete.mk]. destruct ts as [|[p| | | | | | | | |] r]; try reflexivity.
  destruct p; try reflexivity; exfalso; [exact (H1 _ eq_refl)|exact (H2 _ eq_refl)].
Qed.
Lemma pair_closer p q : In (p, q) pairs -> closer p = Some q.
Proof using Type. clear. cbn. intros H. decompose [or] H; try contradiction; match goal with K : (_, _) = (_, _) |- _ => injection K as <- <- end; reflexivity. Qed.
Lemma trees_yes :
  (forall l, tree F l -> forall n rest ds, 2 * length (l ++ rest) + 1 <= n -> tt F n (mk (l ++ rest) ds) = Ok (Some l) (mk rest ds)) /\
  (forall A l, trees F A l ->
     (forall q n acc rest ds, A (P q) -> 2 * length (l ++ P q :: rest) + 2 <= n -> group F n q acc (mk (l ++ P q :: rest) ds) = Ok (Some (acc ++ l ++ [P q])) (mk rest ds)) /\
     (forall n acc mid rest ds, A (P PSemicolon) -> A (P PRBrace) -> ended F mid rest -> 2 * length (l ++ mid) + 2 <= n ->
        line F n acc (mk (l ++ mid) ds) = Ok (Some (acc ++ l ++ [P PSemicolon])) (mk rest ds))).
Proof using Type.
  apply trees_mind.
  - intros t N n rest ds Hn. destruct n as [|n]; [lia|]. rewrite tt_eq. cbn [toks Complete.mk app]. destruct t as [p| | | | | | | | |]; try reflexivity.
    destruct (closer p) as [q|] eqn:E; [|reflexivity]. exfalso. apply N. pose proof (closer_pair p) as HP. rewrite E in HP. exists p, q. auto.
  - intros p q l HI HT IH n rest ds Hn. destruct n as [|n]; [lia|]. rewrite tt_eq. cbn [toks Complete.mk app]. rewrite (pair_closer p q HI).
    change (with_toks F ((l ++ [P q]) ++ rest) (mk (P p :: (l ++ [P q]) ++ rest) ds)) with (mk ((l ++ [P q]) ++ rest) ds).
    rewrite <- app_assoc. cbn [app]. cbn [app List.length] in Hn. rewrite <- app_assoc in Hn. cbn [app] in Hn.
    rewrite (proj1 IH q n [] rest ds eq_refl) by lia. reflexivity.
  - intros A. split.
    + intros q n acc rest ds HA Hn. destruct n as [|n]; [lia|]. rewrite group_eq. cbn [app]. ev exact_yes. reflexivity.
    + intros n acc mid rest ds H1 H2 HE Hn. destruct n as [|n]; [lia|]. cbn [line app]. ev (terminator_yes F _ _ ds HE). reflexivity.
  - intros A t g l HT IHt N HTs [IHg IHl]. split.
    + intros q n acc rest ds HA Hn. destruct n as [|n]; [lia|]. rewrite group_eq. cbn [app].
      rewrite (punct_no F q (t :: (g ++ l) ++ P q :: rest) ds) by (intros r E; injection E as -> _; contradiction). cbn [opt_].
      rewrite <- app_assoc. cbn [List.length app] in Hn. rewrite <- app_assoc in Hn. change (t :: g ++ l ++ P q :: rest) with ((t :: g) ++ l ++ P q :: rest).
      rewrite (IHt n (l ++ P q :: rest) ds) by (cbn [List.length app]; lia). cbn [req_].
      rewrite (IHg q n _ rest ds HA) by (rewrite !app_length in *; cbn in *; lia). rewrite <- app_assoc. cbn [app]. rewrite <- !app_assoc. reflexivity.
    + intros n acc mid rest ds H1 H2 HE Hn. destruct n as [|n]; [lia|]. cbn [line app].
      rewrite (terminator_no (t :: (g ++ l) ++ mid) ds) by (intros r E; injection E as -> _; contradiction). cbn [opt_].
      rewrite <- app_assoc. cbn [List.length app] in Hn. rewrite <- app_assoc in Hn. change (t :: g ++ l ++ mid) with ((t :: g) ++ l ++ mid).
      rewrite (IHt n (l ++ mid) ds) by (cbn [List.length app]; lia). cbn [req_].
      rewrite (IHl n _ mid rest ds H1 H2 HE) by (rewrite !app_length in *; cbn in *; lia). rewrite <- app_assoc. cbn [app]. rewrite <- !app_assoc. reflexivity.
Qed.
Lemma trees_head A l : trees F A l -> match l with t :: _ => ~ A t | [] => True end.
Proof using Type. intros H. inversion H; subst; [exact I|assumption]. Qed.
Lemma body_yes b ts rest ds : body_at F b ts rest -> body F (mk ts ds) = Ok (Some b) (mk rest ds).
Proof using Type.
  intros H. unfold body. inversion H as [ts0 r0 HE|l r0 HT|l mid r0 HN HB HT HE]; subst.
  - ev (terminator_yes F _ _ ds HE). reflexivity.
  - rewrite terminator_no by other. cbn [opt_]. ev exact_yes. rewrite (proj1 (proj2 trees_yes _ _ HT) PRBrace _ [] rest ds eq_refl) by (unfold tt_fuel; cbn; lia). reflexivity.
  - pose proof (trees_head _ _ HT) as HH. destruct l as [|t l]; [congruence|]. cbn [app].
    rewrite terminator_no by (intros r E; injection E as -> _; apply HH; auto). cbn [opt_].
    rewrite punct_no by (intros r E; injection E as -> _; exact (HB l eq_refl)). cbn [opt_]. change (t :: l ++ mid) with ((t :: l) ++ mid).
    rewrite (proj2 (proj2 trees_yes _ _ HT) _ [] mid rest ds) by (auto; unfold tt_fuel; cbn; lia). reflexivity.
Qed.
Lemma body_le b ts rest : body_at F b ts rest -> length rest <= length ts.
Proof using Type.
  intros H. inversion H as [ts0 r0 HE|l r0 HT|l mid r0 HN HB HT HE]; subst; [apply ended_le in HE; exact HE|cbn; rewrite app_length; cbn; lia|apply ended_le in HE; rewrite app_length; lia].
Qed.

(** ** The path *)
Lemma operator_yes l p x r ds : NoDup (map fst l) -> In (p, x) l -> operator_of F l (mk (P p :: r) ds) = Ok (Some x) (mk r ds).
Proof using Type.
  induction l as [|[q y] l IH]; intros HD HI; [destruct HI|]. cbn [operator_of]. inversion HD as [|? ? HX HD']; subst. destruct HI as [E|HI].
  - injection E as -> ->. ev exact_yes. reflexivity.
  - assert (N : q <> p) by (intros ->; apply HX; apply (in_map fst) in HI; exact HI).
    rewrite punct_no by (intros r' E; congruence). cbn [opt_]. apply IH; assumption.
Qed.
Lemma operator_none l ts ds : (forall p x, In (p, x) l -> not_punct F p ts) -> operator_of F l (mk ts ds) = operator_of F [] (mk ts ds).
Proof using Type.
  induction l as [|[q y] l IH]; intros H; [reflexivity|]. cbn [operator_of]. rewrite punct_no by (eapply H; left; reflexivity). cbn [opt_]. apply IH. intros p x HI. eapply H. right. exact HI.
Qed.
Lemma overloadable_nodup : NoDup (map fst operator_names).
Proof using Type. clear. cbn. repeat constructor; cbn; intuition discriminate. Qed.
Lemma last_yes w x ts rest ds : last_at F w x ts rest -> last_name F w (mk ts ds) = Ok (Some x) (mk rest ds).
Proof using Type.
  intros H. unfold last_name. change (lit "operator") with OPERATOR. inversion H as [w0 ts0 HN|p r0 HI|r0 HN|r0|r0]; subst.
  - destruct (text_eqb_spec x OPERATOR) as [E|E]; [|reflexivity]. destruct (HN E) as (H1 & H2 & H3).
    rewrite operator_none by (intros p y HI; apply operator_table_in in HI as [HI _]; exact (H1 p HI)). cbn [operator_of]. rewrite punct_no by exact H2. cbn [opt_ toks Complete.mk].
    destruct rest as [|[| |[|c s]| | | | | | |] r]; try reflexivity. exfalso. exact (H3 r eq_refl).
  - change (text_eqb OPERATOR OPERATOR) with true. cbv iota. rewrite (operator_yes operator_names p (OPERATOR ++ value p)); [reflexivity|exact overloadable_nodup|]. apply operator_table_in. auto.
  - change (text_eqb OPERATOR OPERATOR) with true. cbv iota. rewrite operator_none by (intros p y HI; apply operator_table_in in HI as [HI _]; intros r E; injection E as <- _; cbn in HI; intuition discriminate).
    cbn [operator_of]. ev exact_yes. ev exact_yes. ev (punct_no F _ _ ds HN). reflexivity.
  - reflexivity.
  - reflexivity.
Qed.
Lemma last_le w x ts rest : last_at F w x ts rest -> length rest <= length ts.
Proof using Type. intros H. inversion H; subst; cbn; lia. Qed.
Lemma route_path a p ts rest : route_at F a p ts rest -> path_at F p ts rest.
Proof using Type. intros H. inversion H; subst; constructor; assumption. Qed.
Lemma route_yes a p ts rest ds : route_at F a p ts rest -> entry_path F (mk ts ds) = Ok (Some (a, p)) (mk rest ds).
Proof using Type.
  intros H. unfold entry_path. rewrite (path_yes F _ _ _ ds (route_path _ _ _ _ H)). cbn [lead_ ret toks Complete.mk].
  inversion H as [ns ts0 r0 HN|ns ts0 r0 HN]; subst; [|reflexivity]. inversion HN; subst; reflexivity.
Qed.
Lemma head_lt a ns w ts rest : Tree.Spec.head_at F a ns w ts rest -> length rest < length ts.
Proof using Type. intros (w0 & mid & HR & HL). apply route_path, path_lt in HR. apply last_le in HL. lia. Qed.

(** ** Entries *)
Lemma entry_head block a ns w ts t1 sz t2 pre c c1 dg evs : Tree.Spec.head_at F a ns w ts t1 -> (a = true -> outside pre) -> leads pre c -> leads (pre ++ ns) c1 -> suffix_at F c1 sz t1 t2 ->
  exists x k e0 l, entry F nrt nrp block c {| t_pst := mk ts dg; t_events := evs |} = entry_rest F nrt nrp block x a k w sz (mk t2 dg) /\
    w_place F x = c1 /\ w_relative F x = relative_now nrt a c ns /\ w_events F x = evs ++ e0 /\ adds e0 = extensions (c_type c) l /\ mems e0 = [] /\ c_type c1 = c_type c ++ l.
Proof using Type.
  intros (w0 & mid & HR & HLast) HO HL HL1 HS. unfold entry. cbn [t_pst t_events]. rewrite (route_yes _ _ _ _ dg HR). cbn [treq].
  assert (E : a && match c_type c with [] => false | _ => true end = false).
  { destruct a; [|reflexivity]. rewrite (proj1 (leads_outside _ _ HL) (HO eq_refl)). reflexivity. }
  rewrite E. cbn [warn]. rewrite pop_snoc. set (k := List.length (ns ++ [w0])). set (x0 := {| w_place := c; w_relative := false; w_events := evs; w_pst := mk mid dg |}).
  change (fold_left _ ns x0) with (walked F nrt a k ns x0). pose proof (walked_eq F nrt a k ns x0) as HW. destruct HW as [HW _]. cbn [x0 w_place w_pst w_relative w_events] in HW. fold x0 in HW.
  rewrite (proj1 (leads_app pre c ns c1 HL) HL1) in HW. destruct HW as (W1 & W2 & W3 & l & e0 & W4 & W5 & W6 & W7). set (x := walked F nrt a k ns x0) in *. cbn [orb] in W3.
  exists x, k, e0, l. split; [|auto 10]. rewrite W2. rewrite (last_yes _ _ _ _ dg HLast). cbn [treq]. rewrite W1. inversion HS as [t sz' ts' r' Q1 Q2|ts' Q1]; subst.
  - rewrite Q1. rewrite (suffix_yes _ _ _ dg Q2). reflexivity.
  - rewrite Q1. reflexivity.
Qed.
Lemma suffix_le c sz ts rest : suffix_at F c sz ts rest -> length rest <= length ts.
Proof using Type. intros H. inversion H as [t sz' ts' r' Q1 Q2|]; subst; [apply sizes_le in Q2; exact Q2|lia]. Qed.
Lemma bare_rest (ts : list tok) : bare F ts -> forall (A : Type) (f g h : list tok -> A) (d : A),
  match ts with TPunct _ PLBrace :: r => f r | TPunct _ PAssign :: r => g r | TPunct _ PLParen :: r => h r | _ => d end = d.
Proof using Type.
  intros (N1 & N2 & N3). destruct (rest_cases F ts) as [[r E]|[[r E]|[[r E]|[_ E]]]]; [exfalso; exact (N1 _ E)|exfalso; exact (N2 _ E)|exfalso; exact (N3 _ E)|exact E].
Qed.

Definition entry_ok (pre : list text) (d : list (decl F)) (ts rest : list tok) : Prop :=
  length rest < length ts /\
  forall c, leads pre c -> forall n dg evs, length ts <= n ->
    exists e, entry F nrt nrp (entries F nrt nrp n true) c {| t_pst := mk ts dg; t_events := evs |} = TOk F {| t_pst := mk rest dg; t_events := evs ++ e |} /\ means c e d.
Definition entries_ok (pre : list text) (b : bool) (d : list (decl F)) (ts rest : list tok) : Prop :=
  length rest <= length ts /\
  forall c, leads pre c -> forall n dg evs, length ts < n ->
    exists e, entries F nrt nrp n b c {| t_pst := mk ts dg; t_events := evs |} = TOk F {| t_pst := mk rest dg; t_events := evs ++ e |} /\ means c e d.
Lemma relative_ok a pre c ns : leads pre c -> types_ok nrt a pre ns -> relative_now nrt a c ns = false.
Proof using Type. intros HL H. apply (relative_names nrt a pre c ns HL), H. Qed.
Lemma entries_yes :
  (forall pre d ts rest, entry_at F nrt nrp pre d ts rest -> entry_ok pre d ts rest) /\
  (forall pre b d ts rest, entries_at F nrt nrp pre b d ts rest -> entries_ok pre b d ts rest).
Proof using Type.
  apply entries_mind.
  - intros pre a ns w c1 c' sz ds ts t1 t2 rest HH HO HL1 HS HL' HT HE [IHl IH]. pose proof (head_lt _ _ _ _ _ HH) as K1. pose proof (suffix_le _ _ _ _ HS) as K2. cbn in K2.
    split; [lia|]. intros c HL n dg evs Hn. destruct (entry_head (entries F nrt nrp n true) a ns w ts t1 sz _ pre c c1 dg evs HH HO HL HL1 HS) as (x & k & e0 & l & -> & E1 & E2 & E3 & HA & HM & HC).
    cbn [entry_rest toks Complete.mk]. change (with_toks F t2 (mk (P PLBrace :: t2) dg)) with (mk t2 dg). unfold entry_block.
    pose proof (enter_eq F nrt a k w {| w_place := w_place F x; w_relative := w_relative F x; w_events := w_events F x; w_pst := mk t2 dg |}) as HX. cbn [w_place w_pst w_relative w_events] in HX.
    set (x1 := enter F nrt a k w _) in *. rewrite E1 in HX.
    pose proof HL' as HL2. rewrite app_assoc in HL2. pose proof (proj1 (leads_app _ c1 [w] c' HL1) HL2) as HF. cbn [follow] in HF.
    destruct (move c1 w) as [c2|]; [|discriminate]. injection HF as ->. destruct HX as (X1 & X2 & X3 & l' & ev1 & X4 & X5 & X6 & X7).
    assert (R : w_relative F x1 = false).
    { rewrite X3, E2. rewrite (relative_snoc nrt a c ns w c1); [apply (relative_ok a pre c _ HL HT)|]. apply (leads_app pre c ns c1 HL), HL1. }
    rewrite X1, X2, X5, R, E3. cbn [warn]. destruct (IH c' HL' n dg ((evs ++ e0) ++ ev1)) as (e & EE & ME); [lia|].
    exists (e0 ++ ev1 ++ e). split; [rewrite EE; rewrite !app_assoc; reflexivity|]. rewrite app_assoc. apply (means_walk F c c' (l ++ l')).
    + rewrite adds_app, HA, X6, HC. symmetry. apply extensions_app.
    + rewrite mems_app, HM, X7. reflexivity.
    + rewrite X4, HC, app_assoc. reflexivity.
    + exact ME.
  - intros pre a ns w c1 sz v it l0 ts t1 t2 t3 t4 rest HH HO HL1 HS HT HE HI HD. pose proof (head_lt _ _ _ _ _ HH) as K1. pose proof (suffix_le _ _ _ _ HS) as K2. cbn in K2.
    pose proof (expr_lt F _ _ _ HE). pose proof (input_le _ _ _ _ HI). pose proof (ended_le F _ _ HD). split; [lia|].
    intros c HL n dg evs Hn. destruct (entry_head (entries F nrt nrp n true) a ns w ts t1 sz _ pre c c1 dg evs HH HO HL HL1 HS) as (x & k & e0 & l & -> & E1 & E2 & E3 & HA & HM & HC).
    cbn [entry_rest toks Complete.mk]. change (with_toks F t2 (mk (P PAssign :: t2) dg)) with (mk t2 dg).
    rewrite E2, (relative_ok a pre c _ HL HT). cbn [warn]. unfold entry_value. rewrite (expr_yes F _ _ _ dg HE). cbn [treq]. rewrite (input_yes _ _ _ _ dg HI). cbn [treq].
    rewrite (terminator_yes F _ _ dg HD). cbn [treq]. rewrite E1, E3. eexists. split; [unfold done; rewrite <- app_assoc; reflexivity|]. cbn [fst].
    replace (match c_var c1 with Some t => MVar (with_suffix F t sz) it (Some v) | None => MSet v end) with (match c_var c1 with Some t => MVar (sized F sz t) it (Some v) | None => MSet v end)
      by (destruct (c_var c1); [rewrite with_suffix_eq|]; reflexivity).
    apply (means_member F c c1 e0 l); assumption.
  - intros pre a ns w c1 sz ps rt b ts t1 t2 t3 t4 rest HH HO HL1 HS HT HP HR HB. pose proof (head_lt _ _ _ _ _ HH) as K1. pose proof (suffix_le _ _ _ _ HS) as K2. cbn in K2.
    pose proof (items_le F _ parameter_lt _ _ _ HP). pose proof (return_le _ _ _ _ HR). pose proof (body_le _ _ _ HB). split; [lia|].
    intros c HL n dg evs Hn. destruct (entry_head (entries F nrt nrp n true) a ns w ts t1 sz _ pre c c1 dg evs HH HO HL HL1 HS) as (x & k & e0 & l & -> & E1 & E2 & E3 & HA & HM & HC).
    cbn [entry_rest toks Complete.mk]. change (with_toks F t2 (mk (P PLParen :: t2) dg)) with (mk t2 dg). unfold entry_proc.
    rewrite (parameters_yes _ false [] ps t2 t3 dg) by (cbn; auto). cbn [treq app]. rewrite E1, (return_yes _ _ _ _ dg HR). cbn [treq]. rewrite (body_yes _ _ _ dg HB). cbn [treq].
    assert (R : negb a && nrp = false) by (destruct a, nrp; try reflexivity; discriminate (HT eq_refl)). rewrite R, E3. cbn [warn].
    eexists. split; [unfold done; rewrite <- app_assoc; reflexivity|]. apply (means_member F c c1 e0 l); assumption.
  - intros pre a ns w c1 t sz it l0 ts t1 t2 rest HH HO HL1 HV HS HB HW HN HI. pose proof (head_lt _ _ _ _ _ HH) as K1. pose proof (sizes_le F _ _ _ HS). pose proof (input_le _ _ _ _ HI). split; [lia|].
    intros c HL n dg evs Hn. destruct (entry_head (entries F nrt nrp n true) a ns w ts t1 sz _ pre c c1 dg evs HH HO HL HL1 (Su_var F c1 t sz t1 t2 HV HS)) as (x & k & e0 & l & -> & E1 & E2 & E3 & HA & HM & HC).
    unfold entry_rest. cbn [toks Complete.mk]. rewrite (bare_rest t2 HB). unfold entry_bare. rewrite E1, HV, (input_yes _ _ _ _ dg HI). cbn [treq fst]. change (lit "var") with VAR. rewrite (eqb_ne _ _ HW).
    pose proof (flag_word w) as V. destruct (flag_of w) as [f|]; [exfalso; apply HN; apply (in_map fst) in V; exact V|]. rewrite E3, with_suffix_eq.
    eexists. split; [unfold done; rewrite <- app_assoc; reflexivity|]. apply (means_member F c c1 e0 l); assumption.
  - intros pre a ns w ts rest HH HO HF HW HB HT. pose proof (head_lt _ _ _ _ _ HH) as K1. split; [lia|].
    intros c HL n dg evs Hn. set (c1 := {| c_type := pre ++ ns; c_proc := None; c_var := None |}). assert (HL1 : leads (pre ++ ns) c1) by (constructor; exact HF).
    destruct (entry_head (entries F nrt nrp n true) a ns w ts rest [] _ pre c c1 dg evs HH HO HL HL1 (Su_none F c1 rest eq_refl)) as (x & k & e0 & l & -> & E1 & E2 & E3 & HA & HM & HC).
    unfold entry_rest. cbn [toks Complete.mk]. rewrite (bare_rest rest HB). unfold entry_bare. rewrite E1. cbn [c1 c_var c_proc c_type]. change (lit "var") with VAR. destruct HW as (N1 & N2 & N3).
    rewrite (eqb_ne _ _ N1), (plain_kind w) by (repeat split; assumption). rewrite E2, (relative_ok a pre c _ HL HT), E3. cbn [warn].
    exists (e0 ++ [EAdd F (pre ++ ns) w (slashes (pre ++ ns) + k)]). split; [unfold done; rewrite <- app_assoc; reflexivity|]. rewrite app_assoc.
    pose proof (means_walk F c {| c_type := (pre ++ ns) ++ [w]; c_proc := None; c_var := None |} (l ++ [w]) (e0 ++ [EAdd F (pre ++ ns) w (slashes (pre ++ ns) + k)]) [] []) as Q.
    cbn [c_type] in Q. rewrite app_nil_r in Q. cbn [c1 c_type] in HC. apply Q; [| | |apply means_nil].
    + rewrite adds_app, HA, extensions_app. cbn. rewrite HC. reflexivity.
    + rewrite mems_app, HM. reflexivity.
    + rewrite HC, app_assoc. reflexivity.
  - intros pre. split; [lia|]. intros c HL n dg evs Hn. destruct n; [lia|]. exists []. rewrite app_nil_r. split; [reflexivity|apply means_nil].
  - intros pre rest. split; [cbn; lia|]. intros c HL n dg evs Hn. destruct n; [lia|]. exists []. rewrite app_nil_r. split; [reflexivity|apply means_nil].
  - intros pre b d ts rest H [IHl IH]. split; [cbn; lia|]. intros c HL n dg evs Hn. destruct n as [|n]; [lia|]. cbn in Hn. destruct (IH c HL n dg evs) as (e & E & M); [lia|]. exists e. split; [exact E|exact M].
  - intros pre b d ds ts mid rest H [IHl IH] H2 [IH2l IH2]. split; [lia|]. intros c HL n dg evs Hn. destruct n as [|n]; [lia|].
    destruct (IH c HL n dg evs) as (e & E & M); [lia|]. destruct (IH2 c HL n dg (evs ++ e)) as (e2 & E2 & M2); [lia|]. exists (e ++ e2). split; [|apply means_app; assumption].
    assert (HS : exists t r, ts = t :: r /\ t <> P PSemicolon /\ t <> P PRBrace).
    { assert (HHd : exists a ns w t1, Tree.Spec.head_at F a ns w ts t1) by (inversion H; subst; eauto). destruct HHd as (a & ns & w & t1 & w0 & m & HR & _).
      inversion HR as [ns' ts' r' HN|ns' ts' r' HN]; subst; [inversion HN; subst|]; eexists; eexists; (split; [reflexivity|]); split; discriminate. }
    destruct HS as (t & r & -> & NS & NB). cbn [entries t_pst toks Complete.mk].
    assert (Z : forall (X Y : tres F) (s' : tst F), match t with TPunct _ PSemicolon => X | _ => Y end = Y) by (intros; destruct t as [p| | | | | | | | |]; try reflexivity; destruct p; try reflexivity; congruence).
    assert (Z2 : b && match t with TPunct _ PRBrace => true | _ => false end = false) by (destruct t as [p| | | | | | | | |]; try apply andb_false_r; destruct p; try apply andb_false_r; congruence).
    fold (mk (t :: r) dg). rewrite Z2. destruct t as [p| | | | | | | | |]; try (rewrite E, E2, app_assoc; reflexivity). destruct p; try congruence; rewrite E, E2, app_assoc; reflexivity.
Qed.
End COMPLETE.
