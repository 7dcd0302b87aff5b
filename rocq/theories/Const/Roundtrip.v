(** What is printed for a constant reads back as that constant.  Property C46. *)
From Coq Require Import List NArith ZArith Bool String Lia.
From Verif Require Import Common.Text Common.Utf8 Loc.Model Lexer.Punct Lexer.Model Lexer.Spec Lexer.LexProps Lexer.QuoteProps
  Parse.Ast Parse.Model Parse.Spec Parse.Props Const.Model Const.Spec Const.Lexing Const.Texts.
Import ListNotations.
Open Scope nat_scope.

Scheme ok_ind2 := Induction for ok Sort Prop
  with ok_pop_ind2 := Induction for ok_pop Sort Prop
  with ok_vars_ind2 := Induction for ok_vars Sort Prop
  with ok_args_ind2 := Induction for ok_args Sort Prop.
Combined Scheme ok_mutual from ok_ind2, ok_pop_ind2, ok_vars_ind2, ok_args_ind2.

Section ROUND.
Variable F : Type.
Variable fl : f32 F.
Notation token := (token F).
Notation P p := (TPunct F p).
Notation constant := (constant F).
Notation lexeme := (lexeme F fl).
Notation spelt := (spelt F fl).
Notation show := (show F fl).
Context {St : Type}.
Variable E : env F St.
Notation ev_expr := (ev_expr F fl E).
Notation ev_term := (ev_term F fl E).
Notation sub := (fun (e : expr F) (s : St) => ev_expr e None s).

(** ** Texts in pieces *)
Lemma encode_ident w : Forall ident_byte w -> encode w = w.
Proof using Type. intro H. apply encode_ascii. eapply Forall_impl; [|exact H]. intros a Ha. unfold ident_byte in Ha. lia. Qed.
Lemma encode_name w : name w -> encode w = w.
Proof using Type. intros (_ & H & _). apply encode_ident. exact H. Qed.
Definition nameb (w : text) : bool :=
  match w with b :: _ => negb (is_digit b) | [] => false end && forallb (fun b => is_ident_byte b || is_digit b) w && negb (text_eqb w (lit "in")).
Lemma nameb_name w : nameb w = true -> name w.
Proof using Type.
  unfold nameb. rewrite !andb_true_iff, !negb_true_iff. intros [[H1 H2] H3]. split; [|split].
  - destruct w as [|b w]; [discriminate|]. exists b, w. split; [reflexivity|]. apply negb_true_iff in H1. unfold is_digit in H1. rewrite andb_false_iff, !N.leb_gt in H1. unfold digit. lia.
  - apply Forall_forall. intros b Hb. rewrite forallb_forall in H2. apply is_ident_iff. apply H2. exact Hb.
  - intros ->. discriminate.
Qed.
Definition lead (sp : list N) : Prop := sp = [] \/ sp = [32%N].
Lemma spelt_lead sp w t r ts : lead sp -> lexeme w t r -> spelt r ts -> spelt (sp ++ w ++ r) (t :: ts).
Proof using Type. intros [-> | ->] H1 H2; cbn [app]; [apply sp_tok|apply sp_space]; assumption. Qed.
Lemma stop_not_ident r : stop r -> first_in (fun b => ~ ident_byte b) r.
Proof using Type.
  intros [-> | (b & r' & -> & Hb)]; [exact I|]. cbn. unfold ident_byte. cbn in Hb. intuition (subst; lia).
Qed.
Lemma name_first w r : name w -> first_in ident_byte (w ++ r).
Proof using Type. intros ((b & w' & -> & _) & H & _). inversion H; subst. assumption. Qed.
Lemma stop_cons b r : In b [32; 44; 41; 59; 125]%N -> stop (b :: r).
Proof using Type. intro H. right. exists b, r. auto. Qed.

(** ** What is shown for each kind of phrase *)
Definition ends : list punct := [PComma; PRParen; PAssign; PSemicolon; PRBrace; PNewline].
Definition good (c : constant) : Prop := forall sp r ts, lead sp -> spelt r ts -> stop r -> exists te e A,
  spelt (sp ++ encode (show c) ++ r) (te ++ ts) /\ sp_group F false e te A /\ (forall p, In p ends -> A (P p) = false) /\
  (forall s, ev_expr e None s = EOk c s) /\ key_ident F e = None.
Definition good_pop (p : pop F) : Prop := forall sp r ts, lead sp -> spelt r ts -> first_in (fun b => ~ ident_byte b) r -> exists te path vars A,
  spelt (sp ++ encode (show_pop F fl p) ++ r) (P PSlash :: te ++ ts) /\ sp_prefab F [] path vars (P PSlash :: te) A /\
  (forall q, In q (PLParen :: ends) -> A (P q) = false) /\
  (forall s, exists m, ev_vars F sub vars [] s = EOk m s /\ ev_prefab F E path m s = EOk p s).
Definition good_vars (vs : list (text * constant)) : Prop := Forall (fun e => name (fst e) /\ good (snd e)) vs.
Definition good_args (l : arguments_t F) : Prop := Forall (fun e => good (fst e) /\ match snd e with Some v => good v | None => True end) l.

(** ** Single terms *)
Lemma ev_base m fs hint s : ev_expr (Base m fs) hint s = ebind (ev_term m (match fs with [] => hint | _ => None end) s) (fun c s1 => ev_follows F fl E c fs s1).
Proof using Type. reflexivity. Qed.
Lemma term_group m chain tm M : sp_term F m chain tm M -> (forall p, In p ends -> M (P p) = false) ->
  exists A, sp_group F false (Base m []) tm A /\ (forall p, In p ends -> A (P p) = false).
Proof using Type.
  intros H HM. exists (either F (follow_start F chain false) M). split.
  - pose proof (G F false [] [] m chain tm M [] [] _ (Forall2_nil _) H (Fs_nil F chain false M)) as Q. cbn [map rev app] in Q. rewrite app_nil_r in Q. exact Q.
  - intros p Hp. unfold either. rewrite (HM p Hp), orb_false_r. cbn in Hp. destruct chain; intuition (subst; reflexivity).
Qed.
Lemma nothing_ends p : In p ends -> nothing F (P p) = false.
Proof using Type. reflexivity. Qed.

Lemma ev_list_eq es s : ev_term (MList es) None s = ebind (ev_args F sub es s) (fun a s1 => EOk (CList a) s1).
Proof using Type. reflexivity. Qed.
Lemma ev_fn_eq f es s : ev_term (MCall (fn_name f) es) None s = ebind (ev_args F sub es s) (fun a s1 => EOk (CCall f a) s1).
Proof using Type. destruct f; reflexivity. Qed.
Lemma ev_prefab_eq path vars s : ev_term (MPrefab path vars) None s = ebind (ev_vars F sub vars [] s) (fun m s1 => ebind (ev_prefab F E path m s1) (fun p s2 => EOk (CPrefab p) s2)).
Proof using Type. reflexivity. Qed.
Lemma ev_new_eq path vars es s : ev_term (MNewPrefab path vars es) None s = ebind (ev_vars F sub vars [] s) (fun m s1 => ebind (ev_prefab F E path m s1) (fun p s2 =>
  ebind (ev_opt (ev_args F sub) es s2) (fun a s3 => EOk (CNew (Some p) a) s3))).
Proof using Type. reflexivity. Qed.
Lemma ev_implicit_eq es s : ev_term (MNewImplicit es) None s = ebind (ev_opt (ev_args F sub) es s) (fun a s1 => EOk (CNew None a) s1).
Proof using Type. reflexivity. Qed.

(** a constant that is one lexeme *)
Lemma good_lexeme c w t m chain M : encode (show c) = w -> (forall r, stop r -> exists t', lexeme w t' r /\ sp_term F m chain [t'] M) ->
  (forall p, In p ends -> M (P p) = false) -> (forall s, ev_term m None s = EOk c s) -> key_ident F (Base m []) = None -> t = tt -> good c.
Proof using Type.
  intros Ew Hx HM Hev Hk _ sp r ts Hsp Hr Hst. destruct (Hx r Hst) as (t' & Hl & Ht). destruct (term_group m chain [t'] M Ht HM) as (A & HA & Hend).
  exists [t'], (Base m []), A. rewrite Ew. split; [apply spelt_lead; assumption|]. split; [exact HA|]. split; [exact Hend|]. split; [|exact Hk].
  intro s. cbn [Const.Model.ev_expr]. rewrite Hev. reflexivity.
Qed.
Lemma good_null : good (CNull None).
Proof using Type.
  eapply (good_lexeme _ (lit "null") tt MNull false (nothing F)); try reflexivity.
  intros r Hr. eexists. split; [apply lx_name; [apply nameb_name; reflexivity|apply stop_not_ident; exact Hr]|apply T_null].
Qed.
Lemma good_string s : string_ok s -> good (CString s).
Proof using Type.
  intro H. eapply (good_lexeme _ (encode (quote s)) tt (MString s) false (nothing F)); try reflexivity.
  intros r Hr. eexists. split; [apply lx_string; exact H|apply T_string].
Qed.
Lemma good_resource s : resource_ok s -> good (CResource s).
Proof using Type.
  intro H. eapply (good_lexeme _ (39%N :: encode s ++ [39%N]) tt (MResource s) false (nothing F)); try reflexivity.
  - cbn [Const.Model.show]. rewrite !encode_app. reflexivity.
  - intros r Hr. eexists. split; [apply lx_resource; exact H|apply T_resource].
Qed.

(** ** Numbers *)
Lemma literal_lexeme w v : literal F fl w v -> Forall digit w \/ ~ Forall digit w.
Proof using Type.
  intros _. induction w as [|b w IH]; [left; constructor|]. destruct IH as [IH|IH].
  - destruct (N.leb_spec 48 b); [destruct (N.leb_spec b 57)|]; [left; constructor; [unfold digit; lia|exact IH]|right; intro Q; inversion Q as [|? ? H1 H2]; unfold digit in H1; lia..].
  - right. intro Q. inversion Q; auto.
Qed.
Lemma literal_term w v : literal F fl w v -> exists m, (forall r, stop r -> exists t, lexeme w t r /\ sp_term F m false [t] (nothing F)) /\
  (forall s, ev_term m None s = EOk (CFloat v) s) /\ (forall fs, key_ident F (Base m fs) = None).
Proof using Type.
  intro H. destruct (literal_lexeme _ _ H) as [Hd|Hd].
  - destruct H as [w H1 H2 H3 H4|i f x v H1 H2 H3 H4 H5 H6|v Hv|v Hv].
    + exists (MInt (decimal w)). split; [|split; [reflexivity|intros []; reflexivity]]. intros r Hr. eexists. split; [apply lx_int; assumption|apply T_int].
    + exfalso. apply Forall_app in Hd. destruct Hd as [_ Hd]. apply Forall_app in Hd. destruct Hd as [D1 D2].
      destruct H3 as [->|(d & -> & _)]; [|inversion D1 as [|? ? Q _]; unfold digit in Q; lia]. destruct H4 as [->|(s & d & -> & _)]; [exact (H5 eq_refl)|inversion D2 as [|? ? Q _]; unfold digit in Q; lia].
    + exfalso. inversion Hd as [|? ? _ Q]. inversion Q as [|? ? Q1 _]. unfold digit in Q1. lia.
    + exfalso. inversion Hd as [|? ? _ Q]. inversion Q as [|? ? Q1 _]. unfold digit in Q1. lia.
  - exists (MFloat v). split; [|split; [reflexivity|intros []; reflexivity]]. intros r Hr. eexists. split; [apply lx_float; eassumption|apply T_float].
Qed.
Lemma literal_ascii w v : literal F fl w v -> encode w = w.
Proof using Type.
  assert (HD : forall l, Forall digit l -> Forall (fun c => c < 128)%N l) by (intros l; apply Forall_impl; intros a Ha; unfold digit in Ha; lia).
  intro H. apply encode_ascii. destruct H as [w H1 H2 H3 H4|i f x v H1 H2 H3 H4 H5 H6|v Hv|v Hv]; [apply HD; exact H2| |repeat constructor|repeat constructor].
  apply Forall_app. split; [apply HD; exact H2|]. apply Forall_app. split.
  - destruct H3 as [->|(d & -> & _ & Hd)]; [constructor|]. apply Forall_app. split; [repeat constructor|apply HD; exact Hd].
  - destruct H4 as [->|(s & d & -> & Hs & _ & Hd)]; [constructor|]. apply Forall_app. split; [repeat constructor|]. apply Forall_app. split; [|apply HD; exact Hd]. cbn in Hs. destruct Hs as [<-|[<-|[]]]; repeat constructor.
Qed.
Lemma literal_first w v r : literal F fl w v -> first_in digit (w ++ r).
Proof using Type.
  intro H. destruct H as [w H1 H2 H3 H4|i f x v H1 H2 H3 H4 H5 H6|v Hv|v Hv]; [| |cbn; unfold digit; lia|cbn; unfold digit; lia].
  - destruct w; [congruence|]. inversion H2; subst. assumption.
  - destruct i; [congruence|]. inversion H2; subst. assumption.
Qed.
Lemma good_float f : float_ok F fl f -> good (CFloat f).
Proof using Type.
  intros [H|(w & v & Ew & H & ->)].
  - destruct (literal_term _ _ H) as (m & Hx & Hev & Hk). eapply (good_lexeme (CFloat f) _ tt m false (nothing F)); try reflexivity; auto.
    cbn [Const.Model.show]. rewrite (literal_ascii _ _ H). exact Hx.
  - destruct (literal_term _ _ H) as (m & Hx & Hev & Hk). intros sp r ts Hsp Hr Hst. destruct (Hx r Hst) as (t & Hl & Ht).
    exists [P PSub; t], (Base m [FUnary Neg]), (either F (follow_start F false false) (nothing F)).
    assert (Ee : encode (show (CFloat (f_neg F fl v))) = [45%N] ++ w) by (cbn [Const.Model.show]; rewrite Ew, encode_app, (literal_ascii _ _ H); reflexivity).
    rewrite Ee, <- app_assoc. split; [|split; [|split; [|split]]].
    + cbn [app]. change (sp ++ 45%N :: w ++ r) with (sp ++ [45%N] ++ (w ++ r)). apply spelt_lead; [exact Hsp|apply lx_minus; eapply literal_first; exact H|]. apply sp_tok; assumption.
    + assert (Hop : Forall2 (fun p u => Spec.prefix_op p = Some u) [PSub] [Neg]) by (repeat constructor).
      pose proof (G F false [PSub] [Neg] m false [t] (nothing F) [] [] _ Hop Ht (Fs_nil F false false (nothing F))) as Q. exact Q.
    + intros p Hp. cbn in Hp. intuition (subst; reflexivity).
    + intro s. cbn [Const.Model.ev_expr]. rewrite Hev. reflexivity.
    + apply Hk.
Qed.

(** ** Arguments *)
Definition ev_item (f : expr F -> St -> eres St constant) (e : expr F) (s : St) : eres St (constant * option constant) :=
  match e with
  | Assign AAssign l r =>
      ebind (match key_ident F l with Some i => EOk (CString i) s | None => f l s end) (fun k s1 =>
      ebind (f r s1) (fun v s2 => EOk (k, Some v) s2))
  | _ => ebind (f e s) (fun k s1 => EOk (k, None) s1)
  end.
Lemma ev_args_cons f e es s : ev_args F f (e :: es) s = ebind (ev_item f e s) (fun a s1 => ebind (ev_args F f es s1) (fun l s2 => EOk (a :: l) s2)).
Proof using Type. reflexivity. Qed.
Definition show_item (e : constant * option constant) : text := show (fst e) ++ match snd e with Some v => lit " = " ++ show v | None => [] end.
Lemma item_spelt k v : good k -> (match v with Some v => good v | None => True end) -> forall sp r ts, lead sp -> spelt r ts -> stop r -> exists te e A,
  spelt (sp ++ encode (show_item (k, v)) ++ r) (te ++ ts) /\ sp_expr F 14 false e te A /\ (forall s, ev_item sub e s = EOk (k, v) s).
Proof using Type.
  intros Hk Hv sp r ts Hsp Hr Hst. unfold show_item. cbn [fst snd]. destruct v as [v|].
  - destruct (Hv [32%N] r ts (or_intror eq_refl) Hr Hst) as (tv & ev & B & S1 & G1 & _ & V1 & _).
    assert (S2 : spelt (lit " = " ++ encode (show v) ++ r) (P PAssign :: tv ++ ts)).
    { change (lit " = " ++ encode (show v) ++ r) with ([32%N] ++ [61%N] ++ ([32%N] ++ encode (show v) ++ r)). apply spelt_lead; [right; reflexivity|apply lx_assign; reflexivity|exact S1]. }
    destruct (Hk sp _ _ Hsp S2 ltac:(apply stop_cons; cbn; tauto)) as (tk & ek & A & S3 & G3 & A3 & V3 & K3).
    exists (tk ++ P PAssign :: tv), (Assign AAssign ek ev), B. split; [|split].
    + rewrite encode_app, encode_app, (encode_ascii (lit " = ")) by (repeat constructor). rewrite <- !app_assoc. cbn [app] in S3 |- *. exact S3.
    + eapply S_assign; [reflexivity|lia|apply S_group; exact G3|apply A3; cbn; tauto|apply S_group; exact G1].
    + intro s. cbn [ev_item]. rewrite K3, V3. cbn [ebind]. rewrite V1. reflexivity.
  - destruct (Hk sp r ts Hsp Hr Hst) as (tk & ek & A & S3 & G3 & A3 & V3 & K3). exists tk, ek, A. rewrite app_nil_r. split; [exact S3|]. split; [apply S_group; exact G3|].
    intro s. inversion G3 as [? ? ? m ? ? ? fs]; subst. unfold ev_item. cbv beta. rewrite V3. reflexivity.
Qed.
(** the separators: a comma and perhaps a space *)
Inductive joined : bool -> arguments_t F -> text -> Prop :=
  | j_nil first : joined first [] []
  | j_first e l w : joined false l w -> joined true (e :: l) (show_item e ++ w)
  | j_next e l w (sp : list N) : lead sp -> joined false l w -> joined false (e :: l) (lit "," ++ sp ++ show_item e ++ w).
Lemma joined_args first l : joined first l (show_args F show first l).
Proof using Type.
  revert first. induction l as [|[k v] l IH]; intros first; [constructor|].
  assert (Es : show_args F show first ((k, v) :: l) = (if first then [] else lit ", ") ++ show_item (k, v) ++ show_args F show false l) by (unfold show_item; cbn [fst snd]; rewrite <- app_assoc; reflexivity).
  rewrite Es. destruct first; [apply j_first, IH|]. change (lit ", ") with (lit "," ++ [32%N]). rewrite <- app_assoc. apply j_next; [right; reflexivity|apply IH].
Qed.
Lemma joined_elements first pa l : joined first l (show_elements F show first pa l).
Proof using Type.
  revert first pa. induction l as [|[k v] l IH]; intros first pa; [constructor|].
  assert (Es : show_elements F show first pa ((k, v) :: l) = (if first then [] else lit "," ++ if pa then lit " " else []) ++ show_item (k, v) ++ show_elements F show false (match v with Some _ => true | None => false end) l) by (unfold show_item; cbn [fst snd]; rewrite <- app_assoc; reflexivity).
  rewrite Es. destruct first; [apply j_first, IH|]. rewrite <- app_assoc. apply j_next; [destruct pa; [right|left]; reflexivity|apply IH].
Qed.
Lemma args_next l w : joined false l w -> good_args l -> forall r ts, spelt r ts -> exists ta es,
  spelt (encode w ++ 41%N :: r) (ta ++ ts) /\ sp_args F true es ta /\ (forall s, ev_args F sub es s = EOk l s) /\ stop (encode w ++ 41%N :: r).
Proof using Type.
  intro Hj. remember false as first eqn:Ef. induction Hj as [first|e l w Hj IH|[k v] l w sp Hsp Hj IH]; intros Hg r ts Hr; [|discriminate Ef|].
  - exists [P PRParen], []. split; [|split; [apply Args_end|split; [reflexivity|apply stop_cons; cbn; tauto]]].
    change (encode [] ++ 41%N :: r) with ([41%N] ++ r). apply sp_tok; [apply lx_punct; cbn; tauto|exact Hr].
  - inversion Hg as [|? ? [Hk Hv] Hl]; subst. destruct (IH eq_refl Hl r ts Hr) as (ta & es & S1 & A1 & V1 & T1). cbn [fst snd] in Hk, Hv.
    destruct (item_spelt k v Hk Hv sp _ _ Hsp S1 T1) as (te & e & A & S2 & G2 & V2).
    assert (Ee : encode (lit "," ++ sp ++ show_item (k, v) ++ w) ++ 41%N :: r = [44%N] ++ (sp ++ encode (show_item (k, v)) ++ encode w ++ 41%N :: r)).
    { rewrite !encode_app. rewrite (encode_ascii (lit ",")) by (repeat constructor). rewrite (encode_ascii sp) by (destruct Hsp as [-> | ->]; repeat constructor). rewrite <- !app_assoc. reflexivity. }
    exists (P PComma :: te ++ ta), (e :: es). rewrite Ee. split; [|split; [|split]].
    + cbn [app]. rewrite <- app_assoc. change (44%N :: sp ++ encode (show_item (k, v)) ++ encode w ++ 41%N :: r) with ([44%N] ++ (sp ++ encode (show_item (k, v)) ++ encode w ++ 41%N :: r)).
      apply sp_tok; [apply lx_punct; cbn; tauto|exact S2].
    + apply Args_comma. eapply Args_item; [exact G2|exact A1].
    + intro s. rewrite ev_args_cons, V2. cbn [ebind]. rewrite V1. reflexivity.
    + apply stop_cons. cbn. tauto.
Qed.
Lemma args_first l w : joined true l w -> good_args l -> forall r ts, spelt r ts -> exists ta es,
  spelt (encode w ++ 41%N :: r) (ta ++ ts) /\ sp_args F false es ta /\ (forall s, ev_args F sub es s = EOk l s).
Proof using Type.
  intros Hj Hg r ts Hr. inversion Hj as [|[k v] l' w' Hj' E1 E2|]; subst.
  - exists [P PRParen], []. split; [|split; [apply Args_end|reflexivity]].
    change (encode [] ++ 41%N :: r) with ([41%N] ++ r). apply sp_tok; [apply lx_punct; cbn; tauto|exact Hr].
  - inversion Hg as [|? ? [Hk Hv] Hl]; subst. cbn [fst snd] in Hk, Hv. destruct (args_next l' w' Hj' Hl r ts Hr) as (ta & es & S1 & A1 & V1 & T1).
    destruct (item_spelt k v Hk Hv [] _ _ (or_introl eq_refl) S1 T1) as (te & e & A & S2 & G2 & V2).
    exists (te ++ ta), (e :: es). split; [rewrite encode_app, <- !app_assoc; exact S2|]. split; [eapply Args_item; [exact G2|exact A1]|].
    intro s. rewrite ev_args_cons, V2. cbn [ebind]. rewrite V1. reflexivity.
Qed.

(** a name with arguments *)
Lemma good_call c n w l (m : list (expr F) -> term F) : encode (show c) = n ++ 40%N :: encode w ++ [41%N] -> nameb n = true -> joined true l w -> good_args l ->
  (forall ws es ta, sp_args F false es ta -> sp_term F (m es) false (TIdent F n ws :: P PLParen :: ta) (nothing F)) ->
  (forall es s, ev_args F sub es s = EOk l s -> ev_term (m es) None s = EOk c s) -> (forall es, key_ident F (Base (m es) []) = None) -> good c.
Proof using Type.
  intros Ee Hn Hj Hg Ht Hev Hk sp r ts Hsp Hr Hst. destruct (args_first l w Hj Hg r ts Hr) as (ta & es & S1 & A1 & V1).
  destruct (term_group _ false _ (nothing F) (Ht false es ta A1) (fun p _ => eq_refl)) as (A & HA & Hend).
  exists (TIdent F n false :: P PLParen :: ta), (Base (m es) []), A. split; [|split; [exact HA|split; [exact Hend|split; [|apply Hk]]]].
  - rewrite Ee. rewrite <- app_assoc. cbn [app]. rewrite <- app_assoc. cbn [app].
    apply spelt_lead; [exact Hsp| |].
    + apply (lx_name F fl n (40%N :: encode w ++ 41%N :: r)); [apply nameb_name; exact Hn|]. cbn. unfold ident_byte. lia.
    + change (40%N :: encode w ++ 41%N :: r) with ([40%N] ++ (encode w ++ 41%N :: r)). apply sp_tok; [apply lx_punct; cbn; tauto|exact S1].
  - intro s. rewrite ev_base, (Hev es s (V1 s)). reflexivity.
Qed.
Lemma good_list l : good_args l -> good (CList l).
Proof using Type.
  intro Hg. eapply (good_call (CList l) (lit "list") _ l MList); [|reflexivity|apply (joined_elements true false l)|exact Hg| | |reflexivity].
  - cbn [Const.Model.show]. rewrite !encode_app. reflexivity.
  - intros ws es ta Ha. apply T_list; [left; reflexivity|exact Ha].
  - intros es s Ev. rewrite ev_list_eq, Ev. reflexivity.
Qed.
Lemma good_fn f l : good_args l -> good (CCall f l).
Proof using Type.
  intro Hg. eapply (good_call (CCall f l) (fn_name f) _ l (MCall (fn_name f))); [|destruct f; reflexivity|apply (joined_args true l)|exact Hg| | |reflexivity].
  - cbn [Const.Model.show]. rewrite !encode_app. rewrite (encode_ascii (fn_name f)) by (destruct f; repeat constructor). reflexivity.
  - intros ws es ta Ha. apply T_call; [|exact Ha]. intro Q. destruct f; cbn in Q; repeat (destruct Q as [Q|Q]; [discriminate Q|]); exact Q.
  - intros es s Ev. rewrite ev_fn_eq, Ev. reflexivity.
Qed.

(** ** Paths and variables *)
Lemma map_insert_new k v (m : list (text * constant)) : ~ In k (map fst m) -> map_insert F k v m = m ++ [(k, v)].
Proof using Type.
  induction m as [|[k' v'] m IH]; intro H; [reflexivity|]. cbn [map_insert fst app map] in *. destruct (text_eqb_spec k' k) as [->|_]; [exfalso; apply H; left; reflexivity|].
  f_equal. apply IH. intro Q. apply H. right. exact Q.
Qed.
Definition show_var (e : text * constant) : text := fst e ++ lit " = " ++ show (snd e).
Lemma vars_next vs : good_vars vs -> forall r ts, spelt r ts -> exists tv vars,
  spelt (encode (show_vars F show false vs) ++ r) (tv ++ ts) /\ sp_vars F true vars tv /\ stop (encode (show_vars F show false vs) ++ r) /\
  (forall m s, NoDup (map fst (m ++ vs)) -> ev_vars F sub vars m s = EOk (m ++ vs) s).
Proof using Type.
  induction 1 as [|[k v] vs [Hk Hv] Hvs IH]; intros r ts Hr.
  - exists [P PRBrace], []. split; [|split; [apply Vars_end|split; [apply stop_cons; cbn; tauto|intros m s _; cbn; rewrite app_nil_r; reflexivity]]].
    change (encode (show_vars F show false []) ++ r) with ([125%N] ++ r). apply sp_tok; [apply lx_punct; cbn; tauto|exact Hr].
  - destruct (IH r ts Hr) as (tv & vars & S1 & V1 & T1 & E1). cbn [fst snd] in Hk, Hv.
    destruct (Hv [32%N] _ _ (or_intror eq_refl) S1 T1) as (te & e & A & S2 & G2 & _ & V2 & _).
    exists (P PSemicolon :: TIdent F k true :: P PAssign :: te ++ tv), ((k, e) :: vars).
    assert (Ee : encode (show_vars F show false ((k, v) :: vs)) ++ r = [59%N] ++ [32%N] ++ k ++ [32%N] ++ [61%N] ++ ([32%N] ++ encode (show v) ++ encode (show_vars F show false vs) ++ r)).
    { change (show_vars F show false ((k, v) :: vs)) with (lit "; " ++ k ++ lit " = " ++ show v ++ show_vars F show false vs). rewrite !encode_app.
      rewrite (encode_ascii (lit "; ")) by (repeat constructor). rewrite (encode_ascii (lit " = ")) by (repeat constructor). rewrite (encode_name k Hk). rewrite <- !app_assoc. reflexivity. }
    rewrite Ee. split; [|split; [|split]].
    + cbn [app]. rewrite <- app_assoc. apply (sp_tok F fl [59%N]); [apply lx_punct; cbn; tauto|].
      apply (sp_space F fl k (TIdent F k true) ([32%N] ++ [61%N] ++ ([32%N] ++ encode (show v) ++ encode (show_vars F show false vs) ++ r))).
      * apply (lx_name F fl k ([32%N] ++ [61%N] ++ ([32%N] ++ encode (show v) ++ encode (show_vars F show false vs) ++ r))); [exact Hk|]. cbn. unfold ident_byte. lia.
      * apply (sp_space F fl [61%N]); [apply lx_assign; reflexivity|exact S2].
    + apply Vars_semicolon. eapply Vars_item; [apply S_group; exact G2|exact V1].
    + apply stop_cons. cbn. tauto.
    + intros m s Hnd. cbn [ev_vars]. rewrite V2. cbn [ebind].
      assert (Hni : ~ In k (map fst m)) by (rewrite map_app in Hnd; cbn [map fst] in Hnd; apply NoDup_remove_2 in Hnd; intro Q; apply Hnd; apply in_or_app; left; exact Q).
      rewrite (map_insert_new k v m Hni). change (m ++ (k, v) :: vs) with (m ++ [(k, v)] ++ vs) in Hnd |- *. rewrite app_assoc in Hnd |- *. apply E1. exact Hnd.
Qed.
Lemma path_spelt path : path <> [] -> Forall name path -> forall sp r ts, lead sp -> spelt r ts -> first_in (fun b => ~ ident_byte b) r -> exists te,
  spelt (sp ++ encode (show_path path) ++ r) (P PSlash :: te ++ ts) /\ sp_segments F (map (fun i => (PathSlash, i)) path) (P PSlash :: te) false.
Proof using Type.
  intros Hne Hp. induction Hp as [|i path Hi Hp IH]; [congruence|]. intros sp r ts Hsp Hr Hf.
  assert (Hrest : exists tl, spelt (encode (show_path path) ++ r) (tl ++ ts) /\ sp_segments F (map (fun i => (PathSlash, i)) path) tl false /\ first_in (fun b => ~ ident_byte b) (encode (show_path path) ++ r)).
  { destruct path as [|j path]; [exists []; split; [exact Hr|split; [apply Seg_nil|exact Hf]]|].
    destruct (IH ltac:(discriminate) [] r ts (or_introl eq_refl) Hr Hf) as (te & S1 & G1). exists (P PSlash :: te). split; [exact S1|]. split; [exact G1|].
    change (show_path (j :: path)) with (lit "/" ++ (j ++ show_path path)). rewrite encode_app. cbn. unfold ident_byte. lia. }
  destruct Hrest as (tl & S1 & G1 & F1). set (R := encode (show_path path) ++ r) in *.
  exists (TIdent F i (blank_next R) :: tl). split.
  - assert (Ee : sp ++ encode (show_path (i :: path)) ++ r = sp ++ [47%N] ++ (i ++ R)).
    { change (show_path (i :: path)) with (lit "/" ++ i ++ show_path path) || (unfold show_path; cbn [map List.concat]; fold (show_path path)). unfold R. rewrite !encode_app. rewrite (encode_name i Hi). rewrite <- !app_assoc. reflexivity. }
    rewrite Ee. apply spelt_lead; [exact Hsp|apply lx_slash; apply name_first; exact Hi|]. cbn [app]. apply sp_tok; [apply lx_name; assumption|exact S1].
  - cbn [map]. apply (Seg_named F PSlash PathSlash i (blank_next R)); [reflexivity|exact G1].
Qed.
Lemma whole_path_id (path : list text) : path <> [] -> whole_path ([] ++ map (fun i => (PathSlash, i)) path) = map (fun i => (PathSlash, i)) path.
Proof using Type. destruct path; [congruence|reflexivity]. Qed.
Lemma prefab_ev path vs s : ev_prefab F E (map (fun i => (PathSlash, i)) path) vs s = EOk (Pop path vs) s.
Proof using Type.
  unfold ev_prefab. replace (absolute (map (fun i => (PathSlash, i)) path)) with true.
  - rewrite map_map. cbn [snd]. rewrite map_id. reflexivity.
  - symmetry. unfold absolute. apply forallb_forall. intros x Hx. apply in_map_iff in Hx. destruct Hx as (i & <- & _). reflexivity.
Qed.
Lemma good_Pop path vs : path <> [] -> Forall name path -> NoDup (map fst vs) -> good_vars vs -> good_pop (Pop path vs).
Proof using Type.
  intros Hne Hp Hnd Hvs sp r ts Hsp Hr Hf. change (show_pop F fl (Pop path vs)) with (show_path path ++ show_vars F show true vs). destruct vs as [|[k v] vs].
  - destruct (path_spelt path Hne Hp sp r ts Hsp Hr Hf) as (te & S1 & G1).
    eexists te, _, [], _. split; [cbn [show_vars]; rewrite app_nil_r; exact S1|]. split; [eapply Prefab_path; [exact G1|discriminate]|]. split.
    + intros q Hq. cbn in Hq. intuition (subst; reflexivity).
    + intro s. exists []. split; [reflexivity|]. rewrite (whole_path_id path Hne). apply prefab_ev.
  - inversion Hvs as [|? ? [Hk Hv] Hvs']; subst. cbn [fst snd] in Hk, Hv.
    destruct (vars_next vs Hvs' r ts Hr) as (tv & vars & S1 & V1 & T1 & E1).
    destruct (Hv [32%N] _ _ (or_intror eq_refl) S1 T1) as (te & e & A & S2 & G2 & _ & V2 & _).
    set (R := [32%N] ++ [61%N] ++ ([32%N] ++ encode (show v) ++ encode (show_vars F show false vs) ++ r)).
    assert (S3 : spelt ([32%N] ++ [123%N] ++ (k ++ R)) (P PLBrace :: TIdent F k true :: P PAssign :: te ++ tv ++ ts)).
    { apply spelt_lead; [right; reflexivity|apply lx_brace; apply name_first; exact Hk|].
      apply sp_tok; [apply (lx_name F fl k R); [exact Hk|cbn; unfold ident_byte; lia]|].
      apply (sp_space F fl [61%N]); [apply lx_assign; reflexivity|exact S2]. }
    destruct (path_spelt path Hne Hp sp _ _ Hsp S3) as (tp & S4 & G4); [cbn; unfold ident_byte; lia|].
    eexists (tp ++ P PLBrace :: TIdent F k true :: P PAssign :: te ++ tv), _, ((k, e) :: vars), (nothing F). split; [|split; [|split]].
    + assert (Ee : sp ++ encode (show_path path ++ show_vars F show true ((k, v) :: vs)) ++ r = sp ++ encode (show_path path) ++ [32%N] ++ [123%N] ++ (k ++ R)).
      { change (show_vars F show true ((k, v) :: vs)) with (lit " {" ++ k ++ lit " = " ++ show v ++ show_vars F show false vs). unfold R. rewrite !encode_app.
        rewrite (encode_ascii (lit " {")) by (repeat constructor). rewrite (encode_ascii (lit " = ")) by (repeat constructor). rewrite (encode_name k Hk). rewrite <- !app_assoc. reflexivity. }
      rewrite Ee. rewrite <- !app_assoc. cbn [app]. rewrite <- app_assoc. exact S4.
    + apply (Prefab_vars F [] (map (fun i => (PathSlash, i)) path) (P PSlash :: tp) false ((k, e) :: vars) (TIdent F k true :: P PAssign :: te ++ tv)); [exact G4|discriminate|]. eapply Vars_item; [apply S_group; exact G2|exact V1].
    + reflexivity.
    + intro s. exists ((k, v) :: vs). rewrite (whole_path_id path Hne). split; [|apply prefab_ev]. cbn [ev_vars]. rewrite V2. cbn [ebind map_insert]. apply (E1 [(k, v)] s). exact Hnd.
Qed.
Lemma good_prefab p : good_pop p -> good (CPrefab p).
Proof using Type.
  intros Hp sp r ts Hsp Hr Hst. destruct (Hp sp r ts Hsp Hr (stop_not_ident r Hst)) as (te & path & vars & A & S1 & P1 & A1 & V1).
  destruct (term_group (MPrefab path vars) false (P PSlash :: te) A) as (B & HB & Hend); [apply T_path; [left; reflexivity|exact P1]|intros q Hq; apply A1; right; exact Hq|].
  exists (P PSlash :: te), (Base (MPrefab path vars) []), B. split; [exact S1|]. split; [exact HB|]. split; [exact Hend|]. split; [|reflexivity].
  intro s. rewrite ev_base, ev_prefab_eq. destruct (V1 s) as (m & E1 & E2). rewrite E1. cbn [ebind]. rewrite E2. reflexivity.
Qed.

(** ** New *)
Definition show_optargs (a : option (arguments_t F)) : text := match a with Some l => lit "(" ++ show_args F show true l ++ lit ")" | None => [] end.
Lemma optargs_spelt a : (forall l, a = Some l -> good_args l) -> forall r ts, spelt r ts -> stop r -> exists ta es,
  spelt (encode (show_optargs a) ++ r) (ta ++ ts) /\ sp_optargs F es ta /\ (forall s, ev_opt (ev_args F sub) es s = EOk a s) /\
  first_in (fun b => ~ ident_byte b) (encode (show_optargs a) ++ r) /\ (es = None <-> a = None).
Proof using Type.
  intros Hg r ts Hr Hst. destruct a as [l|].
  - destruct (args_first l _ (joined_args true l) (Hg l eq_refl) r ts Hr) as (ta & es & S1 & A1 & V1). exists (P PLParen :: ta), (Some es).
    assert (Ee : encode (show_optargs (Some l)) ++ r = [40%N] ++ (encode (show_args F show true l) ++ 41%N :: r)) by (cbn [show_optargs]; rewrite !encode_app, <- !app_assoc; reflexivity).
    rewrite Ee. split; [|split; [|split; [|split]]].
    + cbn [app]. apply (sp_tok F fl [40%N]); [apply lx_punct; cbn; tauto|exact S1].
    + apply Optargs_some. exact A1.
    + intro s. cbn [ev_opt]. rewrite V1. reflexivity.
    + cbn. unfold ident_byte. lia.
    + split; discriminate.
  - exists [], None. split; [exact Hr|]. split; [apply Optargs_none|]. split; [reflexivity|]. split; [apply stop_not_ident; exact Hst|]. split; reflexivity.
Qed.
Lemma good_new p a : (forall q, p = Some q -> good_pop q) -> (forall l, a = Some l -> good_args l) -> good (CNew p a).
Proof using Type.
  intros Hp Ha sp r ts Hsp Hr Hst. destruct (optargs_spelt a Ha r ts Hr Hst) as (ta & es & S1 & O1 & V1 & F1 & N1).
  assert (Hargs : forall A q, In q ends -> A (P q) = false -> then_args F es A (P q) = false).
  { intros A q Hq HA. destruct es; [reflexivity|]. cbn [then_args]. unfold either. rewrite HA. cbn in Hq. intuition (subst; reflexivity). }
  destruct p as [q|].
  - destruct (Hp q eq_refl [32%N] _ _ (or_intror eq_refl) S1 F1) as (te & path & vars & A & S2 & P2 & A2 & V2).
    destruct (term_group (MNewPrefab path vars es) false (TIdent F (lit "new") true :: P PSlash :: te ++ ta) (then_args F es A)) as (B & HB & Hend).
    { apply (T_new_path F true PSlash path vars te A es ta); [left; reflexivity|exact P2|exact O1]. }
    { intros x Hx. apply Hargs; [exact Hx|]. apply A2. right. exact Hx. }
    eexists _, _, B. split; [|split; [exact HB|split; [exact Hend|split; [|reflexivity]]]].
    + assert (Ee : sp ++ encode (show (CNew (Some q) a)) ++ r = sp ++ lit "new" ++ ([32%N] ++ encode (show_pop F fl q) ++ encode (show_optargs a) ++ r)).
      { change (show (CNew (Some q) a)) with (lit "new" ++ (lit " " ++ show_pop F fl q) ++ show_optargs a). rewrite !encode_app. rewrite (encode_ascii (lit "new")) by (repeat constructor).
        rewrite (encode_ascii (lit " ")) by (repeat constructor). rewrite <- !app_assoc. reflexivity. }
      rewrite Ee. cbn [app]. rewrite <- app_assoc. apply (spelt_lead sp (lit "new")); [exact Hsp| |exact S2].
      apply (lx_name F fl (lit "new") ([32%N] ++ encode (show_pop F fl q) ++ encode (show_optargs a) ++ r)); [apply nameb_name; reflexivity|cbn; unfold ident_byte; lia].
    + intro s. rewrite ev_base, ev_new_eq. destruct (V2 s) as (m & E1 & E2). rewrite E1. cbn [ebind]. rewrite E2. cbn [ebind]. rewrite V1. reflexivity.
  - destruct (term_group (MNewImplicit es) false (TIdent F (lit "new") (blank_next (encode (show_optargs a) ++ r)) :: ta) (then_args F es (either F (path_separators F) (an_ident F)))) as (B & HB & Hend).
    { apply T_new. exact O1. }
    { intros x Hx. apply Hargs; [exact Hx|]. cbn in Hx. intuition (subst; reflexivity). }
    eexists _, _, B. split; [|split; [exact HB|split; [exact Hend|split; [|reflexivity]]]].
    + assert (Ee : sp ++ encode (show (CNew None a)) ++ r = sp ++ lit "new" ++ (encode (show_optargs a) ++ r)).
      { change (show (CNew None a)) with (lit "new" ++ [] ++ show_optargs a). rewrite !encode_app. rewrite (encode_ascii (lit "new")) by (repeat constructor). rewrite <- !app_assoc. reflexivity. }
      rewrite Ee. cbn [app]. apply spelt_lead; [exact Hsp| |exact S1]. apply lx_name; [apply nameb_name; reflexivity|exact F1].
    + intro s. rewrite ev_base, ev_implicit_eq, V1. reflexivity.
Qed.

Theorem all_good : (forall c, ok F fl c -> good c) /\ (forall p, ok_pop F fl p -> good_pop p) /\ (forall vs, ok_vars F fl vs -> good_vars vs) /\ (forall l, ok_args F fl l -> good_args l).
Proof using Type.
  apply (ok_mutual F fl (fun c _ => good c) (fun p _ => good_pop p) (fun vs _ => good_vars vs) (fun l _ => good_args l)).
  - exact good_null.
  - intros p a _ Hp _ Ha. apply good_new; assumption.
  - intros l _ H. apply good_list. exact H.
  - intros f l _ H. apply good_fn. exact H.
  - intros p _ H. apply good_prefab. exact H.
  - intros s H. apply good_string. exact H.
  - intros s H. apply good_resource. exact H.
  - intros f H. apply good_float. exact H.
  - intros path vars H1 H2 H3 _ H4. apply good_Pop; assumption.
  - constructor.
  - intros k v l Hk _ Hv _ Hl. constructor; auto.
  - constructor.
  - intros k l _ Hk _ Hl. constructor; [split; [exact Hk|exact I]|exact Hl].
  - intros k v l _ Hk _ Hv _ Hl. constructor; [split; assumption|exact Hl].
Qed.
End ROUND.
