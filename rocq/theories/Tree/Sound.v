(** The pieces of an entry: what is read without a diagnostic is what the grammar says; the loops end. *)
From Coq Require Import List NArith ZArith Bool String Lia.
From Verif Require Import Common.Text Lexer.Punct Lexer.Model Parse.Ast Parse.Model Parse.Spec Parse.Facts Parse.Grow Stmt.Ast Stmt.Model Stmt.Spec
  Stmt.Sound Stmt.Sound2 Stmt.Complete Tree.Ast Tree.Model Tree.Spec.
Import ListNotations.
Open Scope nat_scope.

Section SOUND.
Variable F : Type.
Notation tok := (token F).
Notation expr := (expr F).
Notation pst := (pst F).
Notation res := (res F).
Notation P p := (TPunct F p).
Notation W w ws := (TIdent F (lit w) ws).
Notation len s := (List.length (toks s)).
Notation spec := (spec F). Notation strictly := (strictly F). Notation present := (present F). Notation present_lt := (present_lt F).

Ltac norm :=
  repeat match goal with
         | H : Sound.strictly _ _ (Some _) _ |- _ => cbn [Sound.strictly] in H
         | H : Sound.strictly _ _ None _ |- _ => cbn [Sound.strictly] in H; subst
         | H : Sound.present_lt _ _ _ _ |- _ => destruct H as [_ H]
         end.
Ltac bind L :=
  match goal with
  | |- Sound.spec _ _ (req_ _ _ _) _ _ => eapply spec_req; [L|]
  | |- Sound.spec _ _ (opt_ _ _ _) _ _ => eapply spec_opt; [L|]
  | |- Sound.spec _ _ (lead_ _ _ _) _ _ => eapply spec_lead; [L| | |]
  end.
Ltac leave := apply spec_ret; [try discriminate|].

Lemma spec_warned {X : Type} b d s (r : res X) (U : option X -> pst -> Prop) (G : option X -> list tok -> Prop) :
  spec (warn F b d s) r U G -> spec s r U (fun o t => G o t /\ b = false).
Proof using Type. unfold warn. destruct b; [apply spec_register|]. intros H. eapply spec_weaken; [exact H|auto|auto]. Qed.
Lemma warned_toks b d (s : pst) : toks (warn F b d s) = toks s.
Proof using Type. destruct b; reflexivity. Qed.

(** ** [as] and [in] *)
Lemma input_spec s : spec s (input_specifier F s) present (fun o r => match o with Some (a, l) => input_at F a l (toks s) r | None => True end).
Proof using Type.
  unfold input_specifier. bind ltac:(apply exact_ident_spec). intros a s1 L1 U1.
  assert (K : forall it s2, spec s2 (in_clause F it s2) present (fun o r => match o with
    | Some (a', None) => a' = it /\ r = toks s2 /\ not_punct F PIn r
    | Some (a', Some e) => a' = it /\ exists mid, toks s2 = P PIn :: mid /\ expr_at F e mid r /\ not_word F (lit "as") r | None => True end)).
  { intros it s2. unfold in_clause. bind ltac:(apply exact_spec). intros [u|] s3 L3 U3; norm.
    - bind ltac:(apply expression_spec'). intros e s4 L4 U4. bind ltac:(apply exact_ident_spec). intros [v|] s5 L5 U5; norm.
      + apply (spec_register F DAsOrder s5 _ _ (fun _ _ => True)). bind ltac:(apply input_type_spec). intros n s6 L6 U6. leave. intros _. exact I.
      + leave. intros [_ N] HE T. split; [reflexivity|]. exists (toks s3). auto.
    - leave. intros [_ N]. auto. }
  destruct a as [u|]; norm.
  - bind ltac:(apply input_type_spec). intros n s2 L2 U2. eapply spec_weaken; [apply K|auto|]. intros [[a [e|]]|] t; auto.
    + intros (-> & mid & T & HE & N) HI [ws T']. rewrite T'. eapply In_some; [|exact HE|exact N]. rewrite <- T. constructor. exact HI.
    + intros (-> & -> & N) HI [ws T']. rewrite T'. apply In_none; [|exact N]. constructor. exact HI.
  - eapply spec_weaken; [apply K|auto|]. intros [[a [e|]]|] t; auto.
    + intros (-> & mid & T & HE & N) [_ N']. eapply In_some; [|exact HE|exact N]. rewrite <- T. constructor. exact N'.
    + intros (-> & -> & N) [_ N']. apply In_none; [|exact N]. constructor. exact N'.
Qed.

(** ** Parameters *)
Lemma suffix_spec s : spec s (var_suffix F s) present (fun o r => match o with Some sz => sizes_at F sz (toks s) r | None => True end).
Proof using Type.
  unfold var_suffix. eapply spec_weaken; [apply (gd_suffix F _ _ (srun_good F _)); unfold stmt_fuel; lia|auto|].
  intros [sz|] t; auto. intros (x & -> & H). exact H.
Qed.
Lemma flag_word w : match flag_of w with Some f => In (w, f) var_words | None => ~ In w (map fst var_words) end.
Proof using Type.
  clear. unfold flag_of, var_words.
  repeat match goal with |- context [text_eqb w ?x] => destruct (text_eqb_spec w x) as [->|?] end; cbn [orb]; try (cbn; tauto).
  cbn [map fst]. intros H. cbn [In] in H. intuition congruence.
Qed.
Lemma word_flag w f : In (w, f) var_words -> flag_of w = Some f.
Proof using Type.
  clear. cbn [var_words In]. intros H. repeat (destruct H as [H|H]; [injection H as <- <-; vm_compute; reflexivity|]). destruct H.
Qed.
Lemma param_type_sound p : forall acc, N.testbit (v_flags (var_type acc p)) 0 = false ->
  exists n, param_type p n (v_path (var_type acc p)) /\ v_flags (var_type acc p) = N.lor acc n.
Proof using Type.
  clear. induction p as [|w p IH]; intros acc Hc.
  - exists 0%N. split; [constructor; exact I|]. cbn. symmetry. apply N.lor_0_r.
  - cbn [var_type] in *. pose proof (flag_word w) as V. destruct (flag_of w) as [f|].
    + destruct (IH _ Hc) as (n & T & E). exists (N.lor f n). split; [|rewrite E; symmetry; apply N.lor_assoc].
      econstructor; [exact V| |exact T]. intros ->. pose proof (var_type_bits p (N.lor acc 1) 0%N) as B. rewrite N.lor_spec, orb_true_r in B. rewrite (B eq_refl) in Hc. discriminate.
    + exists 0%N. cbn. split; [constructor; exact V|]. symmetry. apply N.lor_0_r.
Qed.
Lemma param_type_yes p n t : param_type p n t -> forall acc, var_type acc p = {| v_flags := N.lor acc n; v_path := t |}.
Proof using Type.
  clear. induction 1 as [p H|w f p n t H HN HT IH]; intros acc.
  - destruct p as [|w p]; cbn [var_type]; [rewrite N.lor_0_r; reflexivity|]. pose proof (flag_word w) as V. destruct (flag_of w) as [f|]; [|rewrite N.lor_0_r; reflexivity].
    exfalso. apply H. apply (in_map fst) in V. exact V.
  - cbn [var_type]. rewrite (word_flag w f H), IH, N.lor_assoc. reflexivity.
Qed.
Lemma param_type_static p n t : param_type p n t -> N.land n 1 = 0%N.
Proof using Type.
  clear. induction 1 as [p H|w f p n t H HN HT IH]; [reflexivity|]. rewrite N.land_lor_distr_l, IH, N.lor_0_r.
  cbn [var_words In] in H. repeat (destruct H as [H|H]; [injection H as <- <-; first [reflexivity|congruence]|]). destruct H.
Qed.
Lemma param_end_spec t name d s : spec s (param_end F t name d s) present (fun o r => match o with
  | Some q => exists a l, q = {| q_type := t; q_name := name; q_default := d; q_input := a; q_in := l |} /\ input_at F a l (toks s) r /\ not_punct F PSemicolon r
  | None => True end).
Proof using Type.
  unfold param_end. bind ltac:(apply input_spec). intros [a l] s1 L1 U1. bind ltac:(apply exact_spec). intros [u|] s2 L2 U2; norm.
  - cbn [warn]. apply (spec_register F DSemicolonInParam s2 _ _ (fun _ _ => True)). leave. exact I.
  - leave. intros [_ N] H. exists a, l. auto.
Qed.
Lemma param_tail_spec ty name s : spec s (param_tail F ty name s) present (fun o r => match o with
  | Some q => exists sz d a l t2 t3, sizes_at F sz (toks s) t2 /\ default_at F d t2 t3 /\ input_at F a l t3 r /\ not_punct F PSemicolon r /\
     q = {| q_type := {| v_flags := v_flags ty; v_path := list_type F sz (v_path ty) |}; q_name := name; q_default := d; q_input := a; q_in := l |}
  | None => True end).
Proof using Type.
  unfold param_tail. bind ltac:(apply suffix_spec). intros sz s1 L1 U1. bind ltac:(apply exact_spec). intros [u|] s2 L2 U2; norm.
  - bind ltac:(apply expression_spec'). intros e s3 L3 U3; norm. eapply spec_weaken; [apply param_end_spec|auto|]. intros [q|] t; auto.
    intros (a & l & -> & HI & N) HE T HS. rewrite with_suffix_eq. exists sz, (Some e), a, l, (P PAssign :: toks s2), (toks s3). rewrite <- T.
    repeat split; auto. rewrite T. constructor. exact HE.
  - eapply spec_weaken; [apply param_end_spec|auto|]. intros [q|] t; auto. intros (a & l & -> & HI & N) [_ HN] HS. rewrite with_suffix_eq.
    exists sz, None, a, l, (toks s1), (toks s1). repeat split; auto. constructor. exact HN.
Qed.
Lemma param_rest_spec p name s : spec s (param_rest F p name s) present (fun o r => match o with
  | Some q => forall ts, path_at F (p ++ [name]) ts (toks s) -> param_at F q ts r
  | None => True end).
Proof using Type.
  unfold param_rest.
  assert (SV : exists v p', strip_var p = (v, p') /\ (v = false -> p' = p /\ match p with w :: _ => w <> VAR | [] => True end)).
  { unfold strip_var. destruct p as [|w q]; [eauto|]. change (lit "var") with VAR. destruct (text_eqb_spec w VAR); [exists true; eexists; split; [reflexivity|discriminate]|eauto]. }
  destruct SV as (v & p' & -> & HV). cbv zeta.
  pose proof (param_tail_spec (var_type 0 p') name (warn F (negb (N.land (v_flags (var_type 0 p')) 1 =? 0)%N) DStaticInParam (warn F v DVarInParam s))) as H.
  rewrite !warned_toks in H. apply spec_warned in H. apply spec_warned in H. eapply spec_weaken; [exact H|auto|]. cbv beta.
  intros [q|] t; auto. intros [[(sz & d & a & l & t2 & t3 & HS & HD & HI & N & ->) E] Ev] ts HP. destruct (HV Ev) as [-> HW].
  apply negb_false_iff, N.eqb_eq in E. destruct (param_type_sound p 0%N) as (n & T & Q); [apply (land_bit _ 0), E|]. rewrite N.lor_0_l in Q. rewrite Q.
  econstructor; eassumption.
Qed.
Lemma parameter_spec s : spec s (parameter F s) (strictly s) (fun o r => match o with Some q => param_at F q (toks s) r | None => True end).
Proof using Type.
  unfold parameter. bind ltac:(apply exact_spec). intros [u|] s1 L1 U1; norm.
  - leave; [cbn; lia|]. intros ->. constructor.
  - bind ltac:(apply tree_path_spec); [|auto|auto]. intros p s2 L2 U2; norm.
    assert (K : forall (o : option (param F)) s', len s' <= len s2 -> present o s' -> strictly s o s').
    { intros [q|] s' L HP; [cbn; lia|]. exfalso. apply HP. reflexivity. }
    destruct (pop p) as [[q name]|] eqn:Ep.
    + apply pop_some in Ep. subst p. eapply spec_weaken; [apply param_rest_spec|exact K|]. intros [x|] t; auto.
    + eapply spec_weaken; [eapply (spec_register F DParse s2 _ present _ (fun _ _ => False)); apply param_rest_spec|exact K|]. intros o t [].
Qed.
Lemma parameters_spec n : forall c l s, len s < n -> spec s (parameters F n c l s) present (appended F l (fun x r => after_item F (param_at F) c x (toks s) r)).
Proof using Type.
  induction n as [|n IH]; intros c l s H; [lia|]. cbn [parameters]. apply separated_spec; [exact parameter_spec|]. intros c' l' s1 L. apply IH. lia.
Qed.

(** ** Return types *)
Lemma type_path_spec n : forall p s, len s < n -> spec s (type_path F n p s) present (appended F p (fun x r => type_path_at F x (toks s) r)).
Proof using Type.
  induction n as [|n IH]; intros p s H; [lia|]. cbn [type_path]. bind ltac:(apply exact_spec). intros [u|] s1 L1 U1; norm.
  - bind ltac:(apply ident_spec). intros i s2 L2 U2; norm. eapply spec_weaken; [apply IH; lia|auto|]. intros [y|] t; auto.
    intros (x & -> & HX) [ws T2] T1. exists (i :: x). rewrite <- app_assoc. split; [reflexivity|]. rewrite T1, T2. constructor. exact HX.
  - leave. intros [_ N]. exists []. rewrite app_nil_r. split; [reflexivity|]. constructor. exact N.
Qed.
Lemma return_spec (d : option procdecl) s : spec s (return_type F (match d with None => true | Some _ => false end) s) present
  (fun o r => match o with Some rt => return_at F d rt (toks s) r | None => True end).
Proof using Type.
  unfold return_type. bind ltac:(apply exact_ident_spec). intros [u|] s1 L1 U1; norm.
  2:{ leave. intros [_ N]. constructor. exact N. }
  set (b := match d with None => true | Some _ => false end).
  match goal with |- Sound.spec _ _ ?R _ _ => assert (H : spec (warn F b DReturnType s1) R present (fun o r => match o with
     | Some (Some (RInput n)) => itype_at F n (toks s1) r | Some (Some (RPath p)) => p <> [] /\ type_path_at F p (toks s1) r | Some None => False | None => True end)) end.
  { rewrite <- (warned_toks b DReturnType s1). generalize (warn F b DReturnType s1). intros s2. bind ltac:(apply input_type_spec). intros [n|] s3 L3 U3; norm.
    - leave. auto.
    - bind ltac:(apply exact_spec). intros u3 s4 L4 U4; norm. bind ltac:(apply ident_spec). intros i s5 L5 U5; norm.
      bind ltac:(apply type_path_spec; lia). intros p s6 L6 U6. leave. intros (x & -> & HX) [ws T5] T4 _. split; [discriminate|]. rewrite T4, T5. constructor. exact HX. }
  apply spec_warned in H. eapply spec_weaken; [exact H|auto|]. cbv beta. intros [[[n|p]|]|] t [HG E]; auto.
  - intros [ws T]. rewrite T. destruct d; [|discriminate]. constructor. exact HG.
  - intros [ws T]. rewrite T. destruct d; [|discriminate]. destruct HG. constructor; assumption.
  - destruct HG.
Qed.

(** ** Bodies *)
Lemma terminator_spec' s : spec s (statement_terminator F s) (fun o s' => o = None -> s' = s)
  (fun o r => match o with Some _ => ended F (toks s) r | None => r = toks s /\ not_punct F PSemicolon r /\ not_punct F PRBrace r end).
Proof using Type.
  unfold statement_terminator.
  destruct (toks s) as [|[p| | | | | | | | |] r] eqn:E; try (apply spec_ret; [auto|]; rewrite E; repeat split; intros ? ?; discriminate).
  destruct p; try (apply spec_ret; [auto|]; rewrite E; repeat split; intros ? ?; discriminate).
  - cbn [ret spec with_toks toks diags]. rewrite E. split; [apply le_refl|]. split; [cbn; lia|]. split; [discriminate|]. intros _. constructor.
  - cbn [ret spec]. rewrite E. split; [apply le_refl|]. split; [lia|]. split; [discriminate|]. intros _. constructor.
Qed.
Lemma closer_pair p : match closer p with Some q => In (p, q) pairs | None => forall q, ~ In (p, q) pairs end.
Proof using Type. destruct p; cbn; try tauto; intros q H; decompose [or] H; try congruence; tauto. Qed.
Definition tt_result (ts : list tok) (o : option (list tok)) (r : list tok) : Prop :=
  match o with Some l => ts = l ++ r /\ tree F l | None => True end.
Definition group_result (q : punct) (acc ts : list tok) (o : option (list tok)) (r : list tok) : Prop :=
  match o with Some y => exists l, y = acc ++ l ++ [P q] /\ ts = l ++ P q :: r /\ trees F (eq (P q)) l | None => True end.
Lemma tree_cons l : tree F l -> exists t g, l = t :: g.
Proof using Type. intros H. inversion H; eauto. Qed.
Lemma tt_eq n s : tt F (S n) s =
  match toks s with
  | [] => Ok None s
  | t :: r => match t with
    | TPunct _ p => match closer p with Some q => req_ F (group F n q [] (with_toks F r s)) (fun l s1 => ret F (t :: l) s1) | None => ret F [t] (with_toks F r s) end
    | _ => ret F [t] (with_toks F r s)
    end
  end.
Proof using Type. reflexivity. Qed.
Lemma group_eq n q acc s : group F (S n) q acc s =
  opt_ F (exact F q s) (fun e s1 => match e with Some _ => ret F (acc ++ [P q]) s1 | None => req_ F (tt F n s1) (fun l s2 => group F n q (acc ++ l) s2) end).
Proof using Type. reflexivity. Qed.
Lemma groups_spec n :
  (forall s, 2 * len s + 1 <= n -> spec s (tt F n s) (strictly s) (tt_result (toks s))) /\
  (forall q acc s, 2 * len s + 2 <= n -> spec s (group F n q acc s) (present_lt s) (group_result q acc (toks s))).
Proof using Type.
  induction n as [|n [IHt IHg]]; (split; [intros s H; try lia|intros q acc s H; try lia]).
  - rewrite tt_eq. assert (K : forall t r, toks s = t :: r -> ~ opens F t -> spec s (ret F [t] (with_toks F r s)) (strictly s) (tt_result (toks s))).
    { intros t r E N. cbn [spec ret with_toks toks diags]. rewrite E. split; [apply le_refl|]. split; [cbn; lia|]. split; [cbn [strictly toks]; rewrite E; cbn; lia|].
      intros _. split; [reflexivity|]. constructor. exact N. }
    destruct (toks s) as [|t r] eqn:E.
    { rewrite <- E. apply spec_ret; [reflexivity|exact I]. }
    destruct t as [p| | | | | | | | |]; try (apply K; [reflexivity|]; intros (? & ? & _ & Q); discriminate Q).
    pose proof (closer_pair p) as HC. destruct (closer p) as [q|].
    2:{ apply K; [reflexivity|]. intros (p' & q & HI & Q). injection Q as <-. exact (HC q HI). }
    pose proof (IHg q [] (with_toks F r s)) as HG. cbn [with_toks toks List.length] in *. specialize (HG ltac:(lia)). fold (with_toks F r s) in HG.
    destruct (group F n q [] (with_toks F r s)) as [[y|] s1|s1|]; cbn [req_ ret spec] in *; try exact I; try contradiction.
    destruct HG as (D & L & U & G). cbn [with_toks diags toks] in *. destruct U as [_ U]. cbn in U.
    split; [exact D|]. split; [rewrite E; cbn; lia|]. split; [cbn; rewrite E; cbn; lia|]. intros Q. destruct (G Q) as (l & -> & T & HL).
    unfold tt_result. split; [cbn; rewrite <- app_assoc; cbn; f_equal; exact T|]. cbn. constructor; assumption.
  - rewrite group_eq. bind ltac:(apply exact_spec). intros [u|] s1 L1 U1; norm.
    + leave; [split; [discriminate|exact U1]|]. intros T. exists []. split; [reflexivity|]. split; [exact T|]. constructor.
    + bind ltac:(apply IHt; lia). intros l s2 L2 U2; norm. eapply spec_weaken; [apply IHg; lia| |].
      * intros o s' L [HO _]. split; [exact HO|lia].
      * intros [y|] t; auto. intros (l' & -> & T & HL) [T2 HT] [_ N]. exists (l ++ l'). rewrite !app_assoc. split; [reflexivity|].
        split; [rewrite T2, T, app_assoc; reflexivity|]. destruct (tree_cons _ HT) as (t0 & g & ->). constructor; [exact HT| |exact HL].
        intros <-. cbn in T2. exact (N _ T2).
Qed.
Definition line_result (acc ts : list tok) (o : option (list tok)) (r : list tok) : Prop :=
  match o with Some y => exists l mid, y = acc ++ l ++ [P PSemicolon] /\ ts = l ++ mid /\ trees F (fun t => t = P PSemicolon \/ t = P PRBrace) l /\ ended F mid r | None => True end.
Lemma line_spec n : forall acc s, 2 * len s + 2 <= n -> spec s (line F n acc s) present (line_result acc (toks s)).
Proof using Type.
  induction n as [|n IH]; intros acc s H; [lia|]. cbn [line]. bind ltac:(apply terminator_spec'). intros [u|] s1 L1 U1.
  - leave. intros HE. exists [], (toks s). repeat split; try reflexivity; [constructor|exact HE].
  - rewrite (U1 eq_refl) in *. bind ltac:(apply (proj1 (groups_spec n)); lia). intros l s2 L2 U2; norm. eapply spec_weaken; [apply IH; lia|auto|].
    intros [y|] t; auto. intros (l' & mid & -> & T & HL & HE) [T2 HT] (_ & N1 & N2). exists (l ++ l'), mid. rewrite !app_assoc. split; [reflexivity|].
    split; [rewrite T2, T, app_assoc; reflexivity|]. split; [|exact HE]. destruct (tree_cons _ HT) as (t0 & g & ->). constructor; [exact HT| |exact HL].
    cbn in T2. intros [-> | ->]; [exact (N1 _ T2)|exact (N2 _ T2)].
Qed.
Lemma body_spec s : spec s (body F s) present (fun o r => match o with Some b => body_at F b (toks s) r | None => True end).
Proof using Type.
  unfold body. bind ltac:(apply terminator_spec'). intros [u|] s1 L1 U1.
  - leave. intros HE. constructor. exact HE.
  - rewrite (U1 eq_refl) in *. clear U1 s1. bind ltac:(apply exact_spec). intros [u|] s2 L2 U2; norm.
    + bind ltac:(apply (proj2 (groups_spec _)); unfold tt_fuel; lia). intros l s3 L3 U3. leave. intros (l' & -> & T & HL) T2 _. rewrite T2, T. cbn [app].
      constructor. exact HL.
    + eapply spec_weaken; [apply line_spec; unfold tt_fuel; lia|auto|]. intros [y|] t; auto. intros (l & mid & -> & T & HL & HE) [_ NB] (_ & N1 & N2).
      cbn [app]. rewrite T. constructor; [| |exact HL|exact HE].
      * intros ->. cbn in T. rewrite T in *. destruct HE as [r0|r0]; [exact (N1 _ eq_refl)|exact (N2 _ eq_refl)].
      * intros r ->. cbn in T. exact (NB _ T).
Qed.

(** ** The path *)
Definition string_name (s : pst) : res text :=
  match toks s with TString _ [] :: r => ret F (lit "operator" ++ [34%N; 34%N]) (with_toks F r s) | _ => Ok None s end.
Lemma string_name_spec s : spec s (string_name s) (fun _ _ => True) (fun o r => match o with
  | Some x => last_at F OPERATOR x (toks s) r | None => r = toks s /\ forall r', r <> TString F [] :: r' end).
Proof using Type.
  assert (H : (exists r, toks s = TString F [] :: r) \/ (forall r, toks s <> TString F [] :: r)).
  { destruct (toks s) as [|[| |[|c w]| | | | | | |] r]; first [left; eexists; reflexivity|right; intros; discriminate]. }
  destruct H as [[r E]|N].
  - unfold string_name. rewrite E. cbn [ret spec with_toks toks diags]. rewrite E. split; [apply le_refl|]. split; [cbn; lia|]. split; [exact I|]. intros _. apply La_string.
  - assert (E : string_name s = Ok None s).
    { unfold string_name. destruct (toks s) as [|[| |[|c w]| | | | | | |] r]; try reflexivity. exfalso. eapply N. reflexivity. }
    rewrite E. apply spec_ret; [exact I|]. auto.
Qed.
Lemma operator_of_spec l s : spec s (operator_of F l s) (fun _ _ => True) (fun o r => match o with
  | Some x => (exists p, In (p, x) l /\ toks s = P p :: r) \/ last_at F OPERATOR x (toks s) r
  | None => r = toks s /\ (forall p x, In (p, x) l -> not_punct F p r) /\ not_punct F PLBracket r /\ forall r', r <> TString F [] :: r' end).
Proof using Type.
  induction l as [|[p x] l IH]; cbn [operator_of].
  - bind ltac:(apply exact_spec). intros [u|] s1 L1 U1; norm.
    + bind ltac:(apply exact_spec). intros v s2 L2 U2; norm. bind ltac:(apply exact_spec). intros [w|] s3 L3 U3; norm.
      * leave; [exact I|]. intros T3 T2 T1. right. rewrite T1, T2, T3. apply La_index_assign.
      * leave; [exact I|]. intros [_ N] T2 T1. right. rewrite T1, T2. apply La_index. exact N.
    + fold (string_name s). eapply spec_weaken; [apply string_name_spec|auto|]. intros [x|] t; [auto|]. intros [-> N] [_ NB]. repeat split; auto. intros ? ? [].
  - bind ltac:(apply exact_spec). intros [u|] s1 L1 U1; norm.
    + leave; [exact I|]. intros T. left. exists p. cbn. auto.
    + eapply spec_weaken; [exact IH|auto|]. intros [y|] t.
      * intros [(p' & HI & T)|HL] [_ _]; [left; exists p'; cbn; auto|auto].
      * intros (-> & H1 & H2 & H3) [_ N]. repeat split; auto. intros p' x' [Q|HI]; [injection Q as <- <-; exact N|eauto].
Qed.
Lemma operator_table : map (fun p => (p, OPERATOR ++ value p)) overloadable = operator_names.
Proof using Type. clear. vm_compute. reflexivity. Qed.
Lemma operator_table_in p x : In (p, x) operator_names <-> In p overloadable /\ x = OPERATOR ++ value p.
Proof using Type.
  clear. rewrite <- operator_table. rewrite in_map_iff. split; [intros (q & E & H); injection E as <- <-; auto|intros [H ->]; eauto].
Qed.
Lemma last_name_spec w s : spec s (last_name F w s) present (fun o r => match o with Some x => last_at F w x (toks s) r | None => True end).
Proof using Type.
  unfold last_name. change (lit "operator") with OPERATOR. destruct (text_eqb_spec w OPERATOR) as [->|N].
  - bind ltac:(apply operator_of_spec). intros [x|] s1 L1 U1.
    + leave. intros [(p & HI & T)|HL]; [|exact HL]. apply operator_table_in in HI as [HI ->]. rewrite T. apply La_punct. exact HI.
    + leave. intros (E & H1 & H2 & H3). rewrite <- E. apply La_name. intros _. repeat split; auto. intros p HI. apply (H1 p (OPERATOR ++ value p)), operator_table_in. auto.
  - leave. apply La_name. congruence.
Qed.
Lemma entry_path_spec s : spec s (entry_path F s) (strictly s) (fun o r => match o with Some (a, p) => route_at F a p (toks s) r | None => True end).
Proof using Type.
  unfold entry_path. bind ltac:(apply tree_path_spec); [|auto|auto]. intros p s1 L1 U1; norm. leave; [cbn; lia|]. intros H.
  inversion H as [ns ts r HN|ns ts r HN]; subst.
  - assert (E : exists i ws r, toks s = TIdent F i ws :: r) by (inversion HN; eauto). destruct E as (i & ws & r & E). rewrite E in HN |- *. constructor. exact HN.
  - constructor. exact HN.
Qed.
End SOUND.
