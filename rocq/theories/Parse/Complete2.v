(** Completeness, continued: terms and what follows them. *)
From Coq Require Import List NArith ZArith Bool String Lia.
From Verif Require Import Common.Text Lexer.Punct Lexer.Model Parse.Ast Parse.Model Parse.Spec Parse.Facts Parse.Grow
  Parse.Term Parse.Gram Parse.Sound Parse.Mono Parse.Complete.
Import ListNotations.
Open Scope nat_scope.

Section COMPLETE.
Variable F : Type.
Notation tok := (token F).
Notation expr := (expr F).
Notation term := (term F).
Notation follow := (follow F).
Notation pst := (pst F).
Notation P p := (TPunct F p).
Notation sp_expr := (sp_expr F).
Notation swallow := (swallow F).
Notation delimited := (delimited F).
Notation ends_before := (ends_before F).
Notation mk := (mk F).
Notation ev := (ev F).

(** *** Tokens that no phrase swallows *)
Definition closer (x : tok) : bool :=
  match x with
  | TPunct _ p => match p with PRParen | PRBracket | PRBrace | PComma | PSemicolon => true | _ => false end
  | TInterpPart _ _ | TInterpEnd _ _ => true
  | _ => false
  end.
Definition open (A : swallow) : Prop := forall x, closer x = true -> A x = false.
Ltac closers := let x := fresh "x" in let Hx := fresh "Hx" in intros x Hx; destruct x as [p| | | | | | | | |]; try discriminate; try reflexivity;
  destruct p; try discriminate; try reflexivity.
Lemma open_nothing : open (nothing F).
Proof using Type. intros x _. reflexivity. Qed.
Lemma open_either (A B : swallow) : open A -> open B -> open (either F A B).
Proof using Type. intros H1 H2 x Hx. unfold either. rewrite H1, H2 by exact Hx. reflexivity. Qed.
Lemma open_ident : open (an_ident F).
Proof using Type. closers. Qed.
Lemma open_word w : open (the_word F w).
Proof using Type. closers. Qed.
Lemma open_operator : open (operator F).
Proof using Type. closers. Qed.
Lemma open_paths : open (path_separators F).
Proof using Type. closers. Qed.
Lemma open_lparen : open (punct_in F [PLParen]).
Proof using Type. closers. Qed.
Lemma open_lbrace : open (punct_in F [PLBrace]).
Proof using Type. closers. Qed.
Lemma open_in : open (punct_in F [PIn]).
Proof using Type. closers. Qed.
Lemma open_or : open (punct_in F [PBitOr]).
Proof using Type. closers. Qed.
Lemma open_fields : open (punct_in F [PDot; PCloseColon; PSafeDot; PSafeColon]).
Proof using Type. closers. Qed.
Lemma open_follow b t : open (follow_start F b t).
Proof using Type. closers. Qed.
Lemma open_q (q : bool) : open (fun t => q && an_ident F t).
Proof using Type. intros x Hx. cbv beta. rewrite (open_ident x Hx). apply andb_false_r. Qed.
Lemma open_args o A : open A -> open (then_args F o A).
Proof using Type. intros H. destruct o; cbn; [apply open_nothing|]. apply open_either; [exact H|apply open_lparen]. Qed.
Lemma open_itype n ts A : sp_itype F n ts A -> open A.
Proof using Type. intros D; destruct D; [apply open_nothing|apply open_or]. Qed.
Ltac openers := first [ apply open_nothing | apply open_ident | apply open_word | apply open_operator | apply open_paths
  | apply open_lparen | apply open_lbrace | apply open_in | apply open_fields | apply open_follow | apply open_q
  | apply open_args | apply open_either | eapply open_itype; eassumption ].

Fixpoint expr_open l t e ts A (D : sp_expr l t e ts A) {struct D} : open A
with group_open t e ts A (D : sp_group F t e ts A) {struct D} : open A
with follows_open c t M fs ts B (D : sp_follows F c t M fs ts B) {struct D} : open M -> open B
with follow_open c t f ts N (D : sp_follow F c t f ts N) {struct D} : open N
with prefab_open pre path vars ts A (D : sp_prefab F pre path vars ts A) {struct D} : open A
with inlist_open il ts I (D : sp_inlist F il ts I) {struct D} : open I
with term_open m c ts M (D : sp_term F m c ts M) {struct D} : open M.
Proof using Type.
  - destruct D; try (eapply expr_open; eassumption).
    + eapply group_open; eassumption.
    + apply open_either; [apply open_word|eapply expr_open; eassumption].
    + apply open_either; [apply open_operator|eapply expr_open; eassumption].
  - destruct D. eapply follows_open; [eassumption|]. eapply term_open; eassumption.
  - destruct D; intros HM.
    + apply open_either; [apply open_follow|exact HM].
    + eapply follows_open; [eassumption|]. eapply follow_open; eassumption.
  - destruct D; openers.
  - destruct D; repeat openers.
  - destruct D; [openers|]. apply open_either; [apply open_operator|eapply expr_open; eassumption].
  - destruct D; repeat first [openers | eapply prefab_open; eassumption | eapply inlist_open; eassumption
      | match goal with |- open (match ?il with _ => _ end) => destruct il end ].
Qed.

(** An expression in front of a closing token is a whole one. *)
Lemma closed (l : nat) A (x : tok) (rest : list tok) : open A -> closer x = true -> ends_before l A (x :: rest).
Proof using Type.
  intros HA Hx. split; [apply HA, Hx|]. destruct x as [p| | | | | | | | |]; try exact I.
  destruct p; cbn in Hx |- *; try discriminate; repeat split; try discriminate; congruence.
Qed.

(** *** The first token *)
Definition starter (x : tok) : bool :=
  match x with
  | TPunct _ p =>
      match p with
      | PSub | PNot | PBitNot | PPlusPlus | PMinusMinus | PBitAnd | PMul
      | PSuper | PDot | PScope | PLParen | PSlash | PCloseColon => true
      | _ => false
      end
  | TInterpPart _ _ | TInterpEnd _ _ | TDoc _ _ _ _ => false
  | _ => true
  end.
Definition starts (ts : list tok) : Prop := match ts with x :: _ => starter x = true | [] => False end.
Lemma starts_app ts r : starts ts -> starts (ts ++ r).
Proof using Type. destruct ts; [contradiction|auto]. Qed.
Lemma term_starts m c ts M : sp_term F m c ts M -> starts ts /\ match ts with x :: _ => Model.prefix_op F x = None | [] => False end.
Proof using Type.
  intros D; destruct D; try (split; reflexivity).
  all: match goal with H : _ = PSlash \/ _ = PCloseColon |- _ => destruct H as [->| ->]; split; reflexivity end.
Qed.
Lemma group_starts t e ts A : sp_group F t e ts A -> starts ts.
Proof using Type.
  intros D; destruct D as [t ps us m chain tm M fs tf B Hp Ht Hf].
  destruct ps as [|p ps]; cbn [map app].
  - apply term_starts in Ht as [Ht _]. apply starts_app, Ht.
  - inversion Hp; subst. cbn. destruct p; cbn in *; congruence.
Qed.
Lemma expr_starts l t e ts A : sp_expr l t e ts A -> starts ts.
Proof using Type.
  intros D; induction D; try (apply starts_app; assumption). eapply group_starts; eassumption.
Qed.
Lemma starts_not (p : punct) ts r ds : starts ts -> starter (P p) = false -> at_punct F p (mk (ts ++ r) ds) = false.
Proof using Type.
  unfold at_punct. cbn [toks Complete.mk]. destruct ts as [|x ts]; [contradiction|]. cbn [starts app].
  destruct x as [q| | | | | | | | |]; try reflexivity. intros H1 H2. destruct (peqb_spec p q); [subst; congruence|reflexivity].
Qed.

(** *** Primitives *)
Lemma exact_yes (p : punct) r ds : exact F p (mk (P p :: r) ds) = Ok (Some tt) (mk r ds).
Proof using Type. unfold exact, at_punct. cbn [toks Complete.mk]. rewrite peqb_refl. reflexivity. Qed.
Lemma exact_no (p : punct) r ds : at_punct F p (mk r ds) = false -> exact F p (mk r ds) = Ok None (mk r ds).
Proof using Type. unfold exact. intros ->. reflexivity. Qed.
Lemma at_punct_no (p : punct) r ds : delimited (punct_in F [p]) r -> at_punct F p (mk r ds) = false.
Proof using Type.
  unfold at_punct. cbn [toks Complete.mk]. destruct r as [|[q| | | | | | | | |] r]; try reflexivity.
  cbn [Spec.delimited]. rewrite punct_in_one. destruct (peqb_spec q p), (peqb_spec p q); congruence.
Qed.
Lemma exact_no' (p : punct) r ds : delimited (punct_in F [p]) r -> exact F p (mk r ds) = Ok None (mk r ds).
Proof using Type. intros H. apply exact_no, at_punct_no, H. Qed.
Lemma exact_starts (p : punct) ts r ds : starts ts -> starter (P p) = false ->
  exact F p (mk (ts ++ r) ds) = Ok None (mk (ts ++ r) ds).
Proof using Type. intros H1 H2. apply exact_no, starts_not; assumption. Qed.
Lemma ident_no r ds : delimited (an_ident F) r -> ident F (mk r ds) = Ok None (mk r ds).
Proof using Type. unfold ident. cbn [toks Complete.mk]. destruct r as [|[] r]; try reflexivity. discriminate. Qed.
Lemma ident_yes i ws r ds : ident F (mk (TIdent F i ws :: r) ds) = Ok (Some i) (mk r ds).
Proof using Type. reflexivity. Qed.
Lemma word_no w r ds : delimited (the_word F w) r -> exact_ident F w (mk r ds) = Ok None (mk r ds).
Proof using Type.
  unfold exact_ident. cbn [toks Complete.mk]. destruct r as [|[] r]; try reflexivity. cbn [Spec.delimited the_word]. intros ->. reflexivity.
Qed.
Lemma word_yes w ws r ds : exact_ident F w (mk (TIdent F w ws :: r) ds) = Ok (Some tt) (mk r ds).
Proof using Type. unfold exact_ident. cbn [toks Complete.mk]. destruct (text_eqb_spec w w); [reflexivity|congruence]. Qed.
Lemma delimited_split (A B : swallow) r : delimited (either F A B) r -> delimited A r /\ delimited B r.
Proof using Type. destruct r; [split; exact I|]. cbn. unfold either. apply orb_false_iff. Qed.

(** *** Input types, paths, fields *)
Lemma input_loop_c (n : N) (ts : list tok) : sp_names F n ts -> forall b rest ds, delimited (punct_in F [PBitOr]) rest ->
  input_loop F (P PBitOr :: ts ++ rest) b ds = Ok (Some (N.lor b n)) (mk rest ds).
Proof using Type.
  intros H. assert (Stop : forall rest b ds, delimited (punct_in F [PBitOr]) rest -> input_loop F rest b ds = Ok (Some b) (mk rest ds)).
  { intros rest b ds HD. destruct rest as [|[q| | | | | | | | |] r]; try reflexivity. cbn [Spec.delimited] in HD.
    rewrite punct_in_one in HD. destruct q; try reflexivity. discriminate. }
  assert (Step : forall i ws r b ds, input_loop F (P PBitOr :: TIdent F i ws :: r) b ds =
    match input_type_of i with Some w => input_loop F r (N.lor b w) ds | None => input_loop F r b (ds ++ [DBadInput i]) end) by reflexivity.
  induction H as [i ws n Hi|i ws n m ts Hi Hs IH]; intros b rest ds HD; cbn [app]; rewrite Step, Hi.
  - apply Stop, HD.
  - rewrite IH by exact HD. rewrite N.lor_assoc. reflexivity.
Qed.
Lemma input_type_c (n : N) ts A rest ds : sp_itype F n ts A -> delimited A rest ->
  input_type F (mk (ts ++ rest) ds) = Ok (Some n) (mk rest ds).
Proof using Type.
  intros D HA. destruct D as [|n ts Hn]; [reflexivity|].
  assert (Stop : forall b, input_loop F rest b ds = Ok (Some b) (mk rest ds)).
  { intros b. destruct rest as [|[q| | | | | | | | |] r]; try reflexivity. cbn [Spec.delimited] in HA.
    rewrite punct_in_one in HA. destruct q; try reflexivity. discriminate. }
  destruct Hn as [i ws n Hi|i ws n m ts Hi Hs].
  - unfold input_type. cbn [app]. rewrite exact_no by reflexivity. cbn. rewrite Hi. apply Stop.
  - unfold input_type. cbn [app]. rewrite exact_no by reflexivity. cbn [opt_ ident toks Complete.mk lead_ success with_toks diags]. rewrite Hi.
    apply input_loop_c; assumption.
Qed.
Lemma itype_starts n ts A : sp_itype F n ts A ->
  match ts with TIdent _ _ _ :: _ => True | TPunct _ PLParen :: TPunct _ PRParen :: [] => True | _ => False end.
Proof using Type. intros D. destruct D as [|n ts Hn]; [exact I|]. destruct Hn; exact I. Qed.

Lemma path_stop rest : delimited (path_separators F) rest -> path_loop F rest = ([], rest).
Proof using Type.
  destruct rest as [|x rest]; [reflexivity|]. cbn [Spec.delimited path_loop]. intros H.
  destruct (separator_of F x) as [o|] eqn:E; [|reflexivity].
  destruct x as [q| | | | | | | | |]; try discriminate. destruct q; cbn in E, H; discriminate.
Qed.
Lemma separator_yes p o : path_op p = Some o -> separator_of F (P p) = Some o.
Proof using Type. destruct p; cbn; congruence. Qed.
Lemma path_c ps ts q : sp_segments F ps ts q -> forall rest,
  delimited (path_separators F) rest -> delimited (fun t => q && an_ident F t) rest -> path_loop F (ts ++ rest) = (ps, rest).
Proof using Type.
  intros D. induction D as [|p o i ws ps ts q Hp Ds IH|p o ps ts q Hp Ds IH]; intros rest H1 H2.
  - apply path_stop, H1.
  - cbn [app path_loop]. rewrite (separator_yes p o Hp). rewrite IH by assumption. reflexivity.
  - cbn [app path_loop]. rewrite (separator_yes p o Hp).
    assert (E : path_loop F (ts ++ rest) = (ps, rest)).
    { destruct ts; [inversion Ds; subst; apply path_stop, H1|apply IH; assumption]. }
    assert (N : delimited (an_ident F) (ts ++ rest)).
    { destruct ts as [|x ts]; [|inversion Ds; subst; reflexivity]. destruct rest; [exact I|]. exact H2. }
    destruct (ts ++ rest) as [|[] r]; try exact E. discriminate N.
Qed.
Lemma fields_c fs ts : sp_fields F fs ts -> forall rest ds,
  delimited (punct_in F [PDot; PCloseColon; PSafeDot; PSafeColon]) rest ->
  fields_loop F (ts ++ rest) ds = (fs, mk rest ds).
Proof using Type.
  intros D. induction D as [|p k i ws fs ts Hp Ds IH]; intros rest ds H.
  - cbn [app]. destruct rest as [|x rest]; [reflexivity|]. cbn [fields_loop]. cbn [Spec.delimited] in H.
    destruct (field_kind F x) eqn:E; [|reflexivity]. destruct x as [q| | | | | | | | |]; try discriminate.
    destruct q; cbn in E, H; discriminate.
  - cbn [app fields_loop].
    assert (E : field_kind F (P p) = Some k) by (destruct p; cbn in Hp |- *; congruence).
    rewrite E, IH by exact H. reflexivity.
Qed.
Lemma prefix_c ps us : Forall2 (fun p u => Spec.prefix_op p = Some u) ps us -> forall ts rest,
  match ts with x :: _ => Model.prefix_op F x = None | [] => False end ->
  prefix_loop F (map (fun p => P p) ps ++ ts ++ rest) = (us, ts ++ rest).
Proof using Type.
  intros D. induction D as [|p u ps us Hp D IH]; intros ts rest H.
  - cbn [map app]. destruct ts as [|x ts]; [contradiction|]. cbn [app prefix_loop]. rewrite H. reflexivity.
  - cbn [map app prefix_loop]. assert (E : Model.prefix_op F (P p) = Some u) by (destruct p; cbn in Hp |- *; congruence).
    rewrite E, IH by exact H. reflexivity.
Qed.

Section WITH.
Variable k : nat.
Hypothesis HE : forall e ts A rest ds, List.length ts <= k -> sp_expr 14 false e ts A -> ends_before 14 A rest ->
  ev (fun R => expression F R (mk (ts ++ rest) ds)) (Some e) (mk rest ds).
Lemma HEc e ts A x rest ds : List.length ts <= k -> sp_expr 14 false e ts A -> closer x = true ->
  ev (fun R => expression F R (mk (ts ++ x :: rest) ds)) (Some e) (mk (x :: rest) ds).
Proof using HE. intros Hk D Hx. eapply HE; [exact Hk|exact D|]. apply closed; [eapply expr_open; exact D|exact Hx]. Qed.

Lemma args_next c es ts : sp_args F c es ts -> c = true -> exists x r, ts = x :: r /\ closer x = true.
Proof using Type. clear. intros D; destruct D; intros Hc; try discriminate; eexists _, _; split; reflexivity. Qed.
Lemma pick_next c es ts : sp_pick F c es ts -> c = true -> exists x r, ts = x :: r /\ closer x = true.
Proof using Type. clear. intros D; destruct D; intros Hc; try discriminate; eexists _, _; split; reflexivity. Qed.
Lemma pick_next' c es ts : sp_pick F c es ts -> c = true -> exists x r, ts = x :: r /\ closer x = true /\ x <> P PSemicolon.
Proof using Type. clear. intros D; destruct D; intros Hc; try discriminate; eexists _, _; repeat split; discriminate. Qed.
Lemma vars_next c es ts : sp_vars F c es ts -> c = true -> exists x r, ts = x :: r /\ closer x = true.
Proof using Type. clear. intros D; destruct D; intros Hc; try discriminate; eexists _, _; split; reflexivity. Qed.

Ltac len := repeat (rewrite app_length in * || cbn [List.length] in * ); lia.

Lemma args_c c es ts : sp_args F c es ts -> List.length ts <= S k -> forall l rest ds,
  exists l', somes l' = somes l ++ es /\ ev (fun R => f_args F R c l (mk (ts ++ rest) ds)) (Some l') (mk rest ds).
Proof using HE.
  intros D. induction D as [c|c es ts D IH|e te A es ts De D IH]; intros Hk l rest ds.
  - exists l. rewrite app_nil_r. split; [reflexivity|]. apply ev_step. cbn [step f_args]. unfold args_body, separated_body.
    cbn [app]. rewrite exact_yes. cbn [opt_]. apply ev_const.
  - cbn [List.length] in Hk. destruct c.
    + destruct (IH ltac:(lia) l rest ds) as (l' & El & H). exists l'. split; [exact El|].
      apply ev_step. cbn [step f_args]. unfold args_body, separated_body. cbn [app].
      rewrite exact_no by reflexivity. cbn [opt_]. rewrite exact_yes. cbn [opt_]. exact H.
    + destruct (IH ltac:(lia) (l ++ [None]) rest ds) as (l' & El & H). exists l'.
      split; [rewrite El; unfold somes; rewrite flat_map_app; cbn; rewrite app_nil_r; reflexivity|].
      apply ev_step. cbn [step f_args]. unfold args_body, separated_body. cbn [app].
      rewrite exact_no by reflexivity. cbn [opt_]. rewrite exact_yes. cbn [opt_]. exact H.
  - rewrite app_length in Hk. destruct (args_next _ _ _ D eq_refl) as (x & r & -> & Hx). cbn [List.length] in Hk.
    destruct (IH ltac:(cbn; lia) (l ++ [Some e]) rest ds) as (l' & El & H). exists l'.
    split; [rewrite El; unfold somes; rewrite flat_map_app, <- app_assoc; reflexivity|].
    apply ev_step. cbn [step f_args]. unfold args_body, separated_body. rewrite <- app_assoc.
    pose proof (expr_starts _ _ _ _ _ De) as St.
    rewrite exact_starts by (exact St || reflexivity). cbn [opt_]. rewrite exact_starts by (exact St || reflexivity). cbn [opt_].
    eapply ev_req; [|exact H]. eapply ev_lead; [cbn [app]; eapply HEc; [lia|exact De|exact Hx]|]. apply ev_const.
Qed.
Lemma pick_c c es ts : sp_pick F c es ts -> List.length ts <= S k -> forall l rest ds,
  ev (fun R => f_pick F R c l (mk (ts ++ rest) ds)) (Some (l ++ es)) (mk rest ds).
Proof using HE.
  intros D. induction D as [c|es ts D IH|e te A es ts De D IH|w tw W e te A es ts Dw De D IH]; intros Hk l rest ds.
  - rewrite app_nil_r. apply ev_step. cbn [step f_pick]. unfold pick_body, separated_body.
    cbn [app]. rewrite exact_yes. cbn [opt_]. apply ev_const.
  - cbn [List.length] in Hk. specialize (IH ltac:(lia) l rest ds).
    apply ev_step. cbn [step f_pick]. unfold pick_body, separated_body. cbn [app].
    rewrite exact_no by reflexivity. cbn [opt_]. rewrite exact_yes. cbn [opt_]. exact IH.
  - rewrite app_length in Hk. destruct (pick_next' _ _ _ D eq_refl) as (x & r & -> & Hx & Hs). cbn [List.length] in Hk.
    specialize (IH ltac:(cbn; lia) (l ++ [(None, e)]) rest ds). rewrite <- app_assoc in IH.
    apply ev_step. cbn [step f_pick]. unfold pick_body, separated_body. rewrite <- app_assoc.
    pose proof (expr_starts _ _ _ _ _ De) as St.
    rewrite exact_starts by (exact St || reflexivity). cbn [opt_]. rewrite exact_starts by (exact St || reflexivity). cbn [opt_].
    eapply ev_req; [|exact IH]. unfold pick_item. eapply ev_lead; [cbn [app]; eapply HEc; [lia|exact De|exact Hx]|].
    rewrite exact_no.
    + cbn [opt_]. apply ev_const.
    + unfold at_punct; cbn [toks Complete.mk]. destruct x as [q| | | | | | | | |]; try reflexivity.
      destruct (peqb_spec PSemicolon q); [subst; congruence|reflexivity].
  - rewrite app_length in Hk. cbn [List.length] in Hk. rewrite app_length in Hk.
    destruct (pick_next' _ _ _ D eq_refl) as (x & r & -> & Hx & Hs). cbn [List.length] in Hk.
    specialize (IH ltac:(cbn; lia) (l ++ [(Some w, e)]) rest ds). rewrite <- app_assoc in IH.
    apply ev_step. cbn [step f_pick]. unfold pick_body, separated_body. rewrite <- app_assoc. cbn [app]. rewrite <- app_assoc.
    pose proof (expr_starts _ _ _ _ _ Dw) as St.
    rewrite exact_starts by (exact St || reflexivity). cbn [opt_]. rewrite exact_starts by (exact St || reflexivity). cbn [opt_].
    eapply ev_req; [|exact IH]. unfold pick_item. eapply ev_lead; [eapply HEc; [lia|exact Dw|reflexivity]|].
    rewrite exact_yes. cbn [opt_]. eapply ev_req; [cbn [app]; eapply HEc; [lia|exact De|exact Hx]|]. apply ev_const.
Qed.
Lemma vars_c c es ts : sp_vars F c es ts -> List.length ts <= S k -> forall l rest ds,
  exists l', somes l' = somes l ++ es /\ ev (fun R => f_vars F R c l (mk (ts ++ rest) ds)) (Some l') (mk rest ds).
Proof using HE.
  intros D. induction D as [c|c es ts D IH|key ws e te A es ts De D IH]; intros Hk l rest ds.
  - exists l. rewrite app_nil_r. split; [reflexivity|]. apply ev_step. cbn [step f_vars]. unfold vars_body, separated_body.
    cbn [app]. rewrite exact_yes. cbn [opt_]. apply ev_const.
  - cbn [List.length] in Hk. destruct c.
    + destruct (IH ltac:(lia) l rest ds) as (l' & El & H). exists l'. split; [exact El|].
      apply ev_step. cbn [step f_vars]. unfold vars_body, separated_body. cbn [app].
      rewrite exact_no by reflexivity. cbn [opt_]. rewrite exact_yes. cbn [opt_]. exact H.
    + destruct (IH ltac:(lia) (l ++ [None]) rest ds) as (l' & El & H). exists l'.
      split; [rewrite El; unfold somes; rewrite flat_map_app; cbn; rewrite app_nil_r; reflexivity|].
      apply ev_step. cbn [step f_vars]. unfold vars_body, separated_body. cbn [app].
      rewrite exact_no by reflexivity. cbn [opt_]. rewrite exact_yes. cbn [opt_]. exact H.
  - cbn [List.length] in Hk. rewrite app_length in Hk. destruct (vars_next _ _ _ D eq_refl) as (x & r & -> & Hx). cbn [List.length] in Hk.
    destruct (IH ltac:(cbn; lia) (l ++ [Some (key, e)]) rest ds) as (l' & El & H). exists l'.
    split; [rewrite El; unfold somes; rewrite flat_map_app, <- app_assoc; reflexivity|].
    apply ev_step. cbn [step f_vars]. unfold vars_body, separated_body. cbn [app]. rewrite <- app_assoc.
    rewrite exact_no by reflexivity. cbn [opt_]. rewrite exact_no by reflexivity. cbn [opt_].
    eapply ev_req; [|exact H]. unfold var_item. rewrite ident_yes. cbn [req_]. rewrite exact_yes. cbn [req_].
    eapply ev_req; [cbn [app]; eapply HEc; [lia|exact De|exact Hx]|]. apply ev_const.
Qed.
(** an interpolated part without an expression *)
Lemma no_expression x rest ds : closer x = true ->
  ev (fun R => expression F R (mk (x :: rest) ds)) None (mk (x :: rest) ds).
Proof using Type.
  clear. intros Hx. exists 3. intros n Hn. destruct n as [|[|[|n]]]; try lia.
  destruct x as [p| | | | | | | | |]; try discriminate; try reflexivity. destruct p; try discriminate; reflexivity.
Qed.
Lemma interp_c ps ts : sp_interp F ps ts -> List.length ts <= S k -> forall l rest ds,
  ev (fun R => f_interp F R l (mk (ts ++ rest) ds)) (Some (l ++ ps)) (mk rest ds).
Proof using HE.
  intros D. induction D as [s|e te A s De|s ps ts D IH|e te A s ps ts De D IH]; intros Hk l rest ds.
  - apply ev_step. cbn [step f_interp]. unfold interp_body. cbn [app].
    eapply ev_opt; [apply no_expression; reflexivity|]. apply ev_const.
  - rewrite app_length in Hk. cbn in Hk. apply ev_step. cbn [step f_interp]. unfold interp_body. rewrite <- app_assoc. cbn [app].
    eapply ev_opt; [eapply HEc; [lia|exact De|reflexivity]|]. apply ev_const.
  - cbn [List.length] in Hk. specialize (IH ltac:(lia) (l ++ [(None, s)]) rest ds). rewrite <- app_assoc in IH.
    apply ev_step. cbn [step f_interp]. unfold interp_body. cbn [app].
    eapply ev_opt; [apply no_expression; reflexivity|]. exact IH.
  - rewrite app_length in Hk. cbn [List.length] in Hk.
    specialize (IH ltac:(lia) (l ++ [(Some e, s)]) rest ds). rewrite <- app_assoc in IH.
    apply ev_step. cbn [step f_interp]. unfold interp_body. rewrite <- app_assoc. cbn [app].
    eapply ev_opt; [eapply HEc; [lia|exact De|reflexivity]|]. exact IH.
Qed.
Lemma arguments_c es ts rest ds : sp_args F false es ts -> List.length ts <= S k ->
  ev (fun R => arguments F R (mk (P PLParen :: ts ++ rest) ds)) (Some es) (mk rest ds).
Proof using HE.
  intros D Hk. unfold arguments. rewrite exact_yes. cbn [lead_].
  destruct (args_c false es ts D Hk [] rest ds) as (l' & El & H). eapply ev_req; [exact H|].
  unfold somes in El. rewrite El. apply ev_const.
Qed.
Lemma arguments_no R rest ds : delimited (punct_in F [PLParen]) rest -> arguments F R (mk rest ds) = Ok None (mk rest ds).
Proof using Type. clear. intros H. unfold arguments. rewrite exact_no' by exact H. reflexivity. Qed.
Lemma optargs_c o ta A rest ds : sp_optargs F o ta -> List.length ta <= S (S k) -> delimited (then_args F o A) rest ->
  ev (fun R => arguments F R (mk (ta ++ rest) ds)) o (mk rest ds).
Proof using HE.
  intros D Hk HD. destruct D as [|es ts D].
  - cbn [then_args] in HD. apply delimited_split in HD as [_ HD]. cbn [app].
    exists 0. intros n _. apply arguments_no, HD.
  - cbn [app]. cbn [List.length] in Hk. apply arguments_c; [exact D|lia].
Qed.
Lemma optargs_before o ta A rest : sp_optargs F o ta -> delimited (then_args F o A) rest ->
  A (P PLParen) = false -> delimited A (ta ++ rest).
Proof using Type.
  clear. intros D HD HA. destruct D as [|es ts D]; cbn [app].
  - cbn [then_args] in HD. apply delimited_split in HD. apply HD.
  - exact HA.
Qed.
Lemma prefab_c pre path vars ts A rest ds : sp_prefab F pre path vars ts A -> List.length ts <= S k -> delimited A rest ->
  ev (fun R => prefab_ex F R pre (mk (ts ++ rest) ds)) (Some (path, vars)) (mk rest ds).
Proof using HE.
  intros D Hk HA. destruct D as [pre Hpre|pre ps ts q Ds Hne|pre ps ts q vs tv Ds Hne Dv].
  - cbn [app]. exists 0. intros n _. unfold prefab_ex. cbn [toks Complete.mk].
    destruct rest as [|x rest]; [destruct pre; [congruence|reflexivity]|].
    cbn [Spec.delimited] in HA. assert (E : separator_of F x = None).
    { destruct x as [q| | | | | | | | |]; try reflexivity. destruct q; try reflexivity; discriminate. }
    rewrite E. destruct pre; [congruence|reflexivity].
  - apply delimited_split in HA as [H1 HA]. apply delimited_split in HA as [H2 H3].
    exists 0. intros n _. unfold prefab_ex. cbn [toks Complete.mk].
    rewrite (path_c _ _ _ Ds rest H1 H3).
    assert (E : exists x r o, ts = x :: r /\ separator_of F x = Some o).
    { destruct Ds; [congruence| |]; eexists _, _, _; (split; [reflexivity|apply separator_yes; eassumption]). }
    destruct E as (x & r & o & -> & Es). cbn [app]. rewrite Es.
    change (with_toks F rest (mk (x :: r ++ rest) ds)) with (mk rest ds). rewrite exact_no' by exact H2. reflexivity.
  - rewrite app_length in Hk. cbn [List.length] in Hk. rewrite <- app_assoc. cbn [app].
    destruct (vars_c false vs tv Dv ltac:(lia) [] rest ds) as (l' & El & H). unfold somes in El. cbn [flat_map app] in El.
    unfold prefab_ex. cbn [toks Complete.mk]. rewrite (path_c _ _ _ Ds (P PLBrace :: tv ++ rest)).
    2: reflexivity. 2: { cbn. apply andb_false_r. }
    assert (E : exists x r o, ts = x :: r /\ separator_of F x = Some o).
    { destruct Ds; [congruence| |]; eexists _, _, _; (split; [reflexivity|apply separator_yes; eassumption]). }
    destruct E as (x & r & o & -> & Es). cbn [app]. rewrite Es.
    change (with_toks F (P PLBrace :: tv ++ rest) (mk (x :: r ++ P PLBrace :: tv ++ rest) ds)) with (mk (P PLBrace :: tv ++ rest) ds).
    rewrite exact_yes. cbn [opt_]. eapply ev_opt; [exact H|]. cbv beta iota. rewrite El. apply ev_const.
Qed.
End WITH.
End COMPLETE.
