(** Completeness, continued: terms, what follows them, and the whole grammar. *)
From Coq Require Import List NArith ZArith Bool String Lia.
From Verif Require Import Common.Text Lexer.Punct Lexer.Model Parse.Ast Parse.Model Parse.Spec Parse.Facts Parse.Grow
  Parse.Term Parse.Gram Parse.Sound Parse.Mono Parse.Complete Parse.Complete2.
Import ListNotations.
Open Scope nat_scope.

Section COMPLETE.
Variable F : Type.
Notation tok := (token F).
Notation expr := (expr F).
Notation term := (term F).
Notation follow := (follow F).
Notation pst := (pst F).
Notation P p := (TPunct F p).
Notation sp_expr := (sp_expr F).
Notation swallow := (swallow F).
Notation delimited := (delimited F).
Notation ends_before := (ends_before F).
Notation mk := (mk F).
Notation ev := (ev F).

(** *** The branches of the model, one equation each *)
Definition plain (x : Model.res F term) : Model.res F (term * bool) := req_ F x (fun t s1 => success F (t, false) s1).
Lemma ev_plain (f : fns F -> Model.res F term) m s : ev f (Some m) s -> ev (fun R => plain (f R)) (Some (m, false)) s.
Proof using Type. intros H. unfold plain. eapply ev_req; [exact H|]. apply ev_const. Qed.
Lemma at_ident R i ws r ds : term_body F R (mk (TIdent F i ws :: r) ds) = ident_term F R i (mk r ds).
Proof using Type. reflexivity. Qed.
Lemma at_dot R r ds : term_body F R (mk (P PDot :: r) ds) = plain (dot_term F R (mk r ds)).
Proof using Type. reflexivity. Qed.
Lemma at_scope R r ds : term_body F R (mk (P PScope :: r) ds) = plain (scope_term F R (mk r ds)).
Proof using Type. reflexivity. Qed.
Lemma at_super R r ds : term_body F R (mk (P PSuper :: r) ds) =
  plain (req_ F (arguments F R (mk r ds)) (fun a s2 => success F (MParentCall a) s2)).
Proof using Type. reflexivity. Qed.
Lemma at_paren R r ds : term_body F R (mk (P PLParen :: r) ds) = plain (paren_term F R (mk r ds)).
Proof using Type. reflexivity. Qed.
Lemma at_interp R s r ds : term_body F R (mk (TInterpBegin F s :: r) ds) =
  plain (req_ F (f_interp F R [] (mk r ds)) (fun parts s2 => success F (MInterp s parts) s2)).
Proof using Type. reflexivity. Qed.
Lemma at_path R p r ds : p = PSlash \/ p = PCloseColon -> term_body F R (mk (P p :: r) ds) =
  plain (req_ F (prefab_ex F R [] (mk (P p :: r) ds)) (fun q s2 => success F (MPrefab (fst q) (snd q)) s2)).
Proof using Type. intros [->| ->]; reflexivity. Qed.
Lemma at_new R s : ident_term F R (lit "new") s = plain (new_term F R s).
Proof using Type. reflexivity. Qed.
Lemma at_call R s : ident_term F R (lit "call") s =
  plain (req_ F (arguments F R s) (fun a s1 => req_ F (arguments F R s1) (fun b s2 => success F (MDynCall a b) s2))).
Proof using Type. reflexivity. Qed.
Lemma at_call_ext R s : ident_term F R (lit "call_ext") s = plain (call_ext_term F R s).
Proof using Type. reflexivity. Qed.
Lemma at_input R s : ident_term F R (lit "input") s = plain (input_term F R (lit "input") s).
Proof using Type. reflexivity. Qed.
Lemma at_locate R s : ident_term F R (lit "locate") s = plain (locate_term F R (lit "locate") s).
Proof using Type. reflexivity. Qed.
Lemma at_list R s : ident_term F R (lit "list") s = plain (list_term F R (lit "list") s).
Proof using Type. reflexivity. Qed.
Lemma at_alist R s : ident_term F R (lit "alist") s = plain (list_term F R (lit "alist") s).
Proof using Type. reflexivity. Qed.
Lemma at_pick R s : ident_term F R (lit "pick") s =
  plain (opt_ F (pick_arguments F R s) (fun a s1 => success F (match a with Some a => MPick a | None => MIdent (lit "pick") end) s1)).
Proof using Type. reflexivity. Qed.
Lemma at_as R s : ident_term F R (lit "as") s = plain (as_term F s).
Proof using Type. reflexivity. Qed.
Lemma at_other R i s : ~ In i reserved -> ident_term F R i s =
  opt_ F (arguments F R s) (fun a s1 => match a with
    | Some args => success F (MCall i args, false) s1 | None => success F (MIdent i, true) s1 end).
Proof using Type.
  intros H. unfold ident_term.
  repeat match goal with
  | |- context [text_eqb i ?w] => destruct (text_eqb_spec i w) as [E|_]; [exfalso; apply H; rewrite E; unfold reserved; cbn; tauto|]
  end. reflexivity.
Qed.

Lemma ends_operator l (A : swallow) rest : delimited (either F (operator F) A) rest -> ends_before l A rest.
Proof using Type.
  intros H. apply delimited_split in H as [H1 H2]. split; [exact H2|]. destruct rest as [|[p| | | | | | | | |] rest]; try exact I.
  cbn [Spec.delimited] in H1. destruct p; cbn in H1 |- *; try discriminate; repeat split; congruence.
Qed.

Section WITH.
Variable k : nat.
Hypothesis HE : forall e ts A rest ds, List.length ts <= k -> sp_expr 14 false e ts A -> ends_before 14 A rest ->
  ev (fun R => expression F R (mk (ts ++ rest) ds)) (Some e) (mk rest ds).
Ltac args H := eapply (arguments_c F k HE); [exact H|lia].
Ltac noargs H := instantiate (1 := mk _ _); exists 0; intros n _; apply arguments_no, H.
Ltac at_ L := eapply ev_ext; [intros R; symmetry; apply L|].
Ltac lens := repeat (rewrite app_length in * || cbn [List.length] in * ).

Lemma new_c ts rest ds : forall m M ws, sp_term F m false (TIdent F (lit "new") ws :: ts) M -> List.length ts <= k -> delimited M rest ->
  ev (fun R => new_term F R (mk (ts ++ rest) ds)) (Some m) (mk rest ds).
Proof using HE.
  intros m M ws D Hk HM. inversion D as [ | | | | | | | |i ws0 Hi|i ws0 Hi|i ws0 es ts0 Hi| i ws0 es ts0 Hi| | | | | | | | | |
     ws0 args ta Ha | ws0 args ta Ha | ws0 i ws' fs tf args ta Hf Ha | ws0 i ws' path vars ts0 A args ta Hp Ha
    | ws0 p path vars ts0 A args ta Hc Hp Ha | | | | | | | | | ]; subst; clear D.
  - exfalso. destruct Hi as [E|[E|[E|[E|[E|[]]]]]]; discriminate E.
  - exfalso; apply Hi; unfold reserved; cbn; tauto.
  - destruct Hi; discriminate.
  - assert (HB : delimited (either F (path_separators F) (an_ident F)) (ts ++ rest)) by (eapply optargs_before; [exact Ha|exact HM|reflexivity]).
    apply delimited_split in HB as [B1 B2].
    unfold new_term. rewrite exact_no' by (destruct (ts ++ rest) as [|[q| | | | | | | | |] r]; try exact I; try reflexivity; destruct q; try reflexivity; discriminate B1).
    cbn [opt_]. rewrite ident_no by exact B2. cbn [opt_].
    eapply ev_opt.
    + exists 0. intros n _. unfold prefab_ex. cbn [toks Complete.mk]. 
      instantiate (1 := mk (ts ++ rest) ds). instantiate (1 := None).
      destruct (ts ++ rest) as [|x r]; [reflexivity|]. cbn [Spec.delimited] in B1.
      destruct x as [q| | | | | | | | |]; try reflexivity. destruct q; try reflexivity; discriminate.
    + cbv beta iota. eapply ev_opt; [eapply (optargs_c F k HE); [exact Ha|lia|exact HM]|]. apply ev_const.
  - lens. assert (HB : delimited (an_ident F) (ta ++ rest)) by (eapply optargs_before; [exact Ha|exact HM|reflexivity]).
    cbn [app]. unfold new_term. rewrite exact_yes. cbn [opt_]. rewrite ident_no by exact HB. cbn [opt_].
    eapply ev_opt; [eapply (optargs_c F k HE); [exact Ha|lia|exact HM]|]. apply ev_const.
  - lens. assert (HB : delimited (punct_in F [PDot; PCloseColon; PSafeDot; PSafeColon]) (ta ++ rest)) by (eapply optargs_before; [exact Ha|exact HM|reflexivity]).
    cbn [app]. unfold new_term. rewrite exact_no by reflexivity. cbn [opt_]. rewrite ident_yes. cbn [opt_]. cbn [toks diags Complete.mk].
    rewrite <- app_assoc. rewrite (fields_c F fs tf Hf (ta ++ rest) ds HB).
    eapply ev_opt; [eapply (optargs_c F k HE); [exact Ha|lia|exact HM]|]. apply ev_const.
  - lens. cbn [app]. unfold new_term. rewrite exact_yes. cbn [opt_]. rewrite ident_yes. cbn [opt_]. rewrite <- app_assoc.
    eapply ev_req.
    + eapply (prefab_c F k HE); [exact Hp|lia|]. eapply optargs_before; [exact Ha|exact HM|].
      inversion Hp; subst; try reflexivity. unfold either. cbn. apply andb_false_r.
    + eapply ev_opt; [eapply (optargs_c F k HE); [exact Ha|lia|exact HM]|]. apply ev_const.
  - lens. cbn [app]. unfold new_term. rewrite <- app_assoc.
    rewrite exact_no by (destruct Hc as [->| ->]; reflexivity). cbn [opt_]. rewrite ident_no by reflexivity. cbn [opt_].
    eapply ev_opt.
    + change (P p :: ts0 ++ ta ++ rest) with ((P p :: ts0) ++ (ta ++ rest)). eapply (prefab_c F k HE); [exact Hp|cbn [List.length]; lia|]. eapply optargs_before; [exact Ha|exact HM|].
      inversion Hp; subst; try reflexivity. unfold either. cbn. apply andb_false_r.
    + cbv beta iota. eapply ev_opt; [eapply (optargs_c F k HE); [exact Ha|lia|exact HM]|]. apply ev_const.
Qed.

(** [in] and [as] after input() *)
Lemma specifier_c it il ti I rest ds ti' A :
  sp_inlist F il ti I -> List.length ti <= S k -> delimited I rest ->
  (il <> None -> delimited (the_word F (lit "as")) rest) ->
  match it with
  | None => ti' = [] /\ (il = None -> delimited (the_word F (lit "as")) rest)
  | Some n => exists ws tn, ti' = TIdent F (lit "as") ws :: tn /\ sp_itype F n tn A /\ (il = None -> delimited A rest)
  end ->
  ev (fun R => input_specifier F R (mk (ti' ++ ti ++ rest) ds)) (Some (it, il)) (mk rest ds).
Proof using HE.
  intros D Hk HI Has Hit.
  assert (K : ev (fun R => opt_ F (exact F PIn (mk (ti ++ rest) ds)) (fun i s3 =>
      match i with
      | Some _ =>
          req_ F (expression F R s3) (fun e s4 =>
          opt_ F (exact_ident F (lit "as") s4) (fun a2 s5 =>
          match a2 with
          | Some _ => req_ F (input_type F (register F DAsOrder s5)) (fun _ s6 => success F (it, Some e) s6)
          | None => success F (it, Some e) s5
          end))
      | None => success F (it, None) s3
      end)) (Some (it, il)) (mk rest ds)).
  { destruct D as [|e te A' De].
    - cbn [app]. rewrite exact_no' by exact HI. cbn [opt_]. apply ev_const.
    - cbn [app List.length] in *. rewrite exact_yes. cbn [opt_].
      eapply ev_req; [eapply HE; [lia|exact De|apply ends_operator, HI]|].
      rewrite word_no by (apply Has; discriminate). cbn [opt_]. apply ev_const. }
  assert (HT : forall B, open F B -> B (P PIn) = false -> (il = None -> delimited B rest) -> delimited B (ti ++ rest)).
  { intros B _ HB Hn. destruct D; [apply Hn; reflexivity|exact HB]. }
  unfold input_specifier. destruct it as [n|].
  - destruct Hit as (ws & tn & -> & Dn & HA). cbn [app]. rewrite word_yes. cbn [opt_].
    rewrite <- ?app_assoc. rewrite (input_type_c F n tn A (ti ++ rest) ds Dn).
    + cbn [req_]. exact K.
    + apply HT; [eapply open_itype; exact Dn| |exact HA]. destruct Dn; reflexivity.
  - destruct Hit as [-> HA]. cbn [app]. rewrite word_no by (apply HT; [apply open_word|reflexivity|exact HA]).
    cbn [opt_]. exact K.
Qed.
Lemma locate_c es ts il ti I rest ds : sp_args F false es ts -> sp_inlist F il ti I ->
  match es with Bin BIn _ _ :: _ => False | _ => True end ->
  match il with Some _ => List.length es <= 1 | None => True end ->
  List.length (ts ++ ti) <= k -> delimited I rest ->
  ev (fun R => locate_term F R (lit "locate") (mk (P PLParen :: (ts ++ ti) ++ rest) ds)) (Some (MLocate es il)) (mk rest ds).
Proof using HE.
  intros Da D H1 H2 Hk HI. lens. rewrite <- app_assoc. unfold locate_term. eapply ev_opt; [args Da|]. cbv beta iota.
  assert (E : match es with Bin BIn _ _ :: _ => register F DLocateIn (mk (ti ++ rest) ds) | _ => mk (ti ++ rest) ds end = mk (ti ++ rest) ds).
  { destruct es as [|[|[]| |] es]; try reflexivity. contradiction. }
  rewrite E. destruct D as [|e te A De].
  - cbn [app]. rewrite exact_no' by exact HI. cbn [opt_]. apply ev_const.
  - cbn [app List.length] in *. rewrite exact_yes. cbn [opt_].
    destruct (Nat.ltb_spec 1 (List.length es)); [lia|].
    eapply ev_req; [eapply HE; [lia|exact De|apply ends_operator, HI]|]. apply ev_const.
Qed.

Theorem term_c m c ts M rest ds : sp_term F m c ts M -> List.length ts <= S k -> delimited M rest ->
  ev (fun R => f_term F R (mk (ts ++ rest) ds)) (Some (m, c)) (mk rest ds).
Proof using HE.
  intros D Hk HM. apply ev_step. cbn [step f_term]. pose proof D as D0.
  destruct D as [ z | f | s | s | ws | ws | ws | ws | i ws Hi | i ws Hi | i ws es ts Hi Da | i ws es ts Hi Da | es ts Da
    | es ts Da | | i ws path vars ts A Dp | p path vars ts A Hp Dp | i ws | i ws es ts Da | e te A De | s ps ts Di
    | ws args ta Da | ws args ta Da | ws i ws' fs tf args ta Df Da | ws i ws' path vars ts A args ta Dp Da
    | ws p path vars ts A args ta Hp Dp Da | ws es ts es' ts' Da Db | ws f tf A es ts De Da | ws l tl L f tf A es ts Dl De Da
    | ws es ts il ti I Da Di | ws es ts ws' n tn A il ti I Da Dn Di | ws es ts il ti I Da Di H1 H2 | ws es ts Dp | ws
    | ws n tn A Dn ]; cbn [app List.length] in *;
  try (apply ev_const); try at_ at_ident.
  - (* ident *) at_ at_other; [exact Hi|]. eapply ev_opt; [noargs HM|]. apply ev_const.
  - (* soft *) destruct Hi as [<-|[<-|[<-|[<-|[<-|[]]]]]].
    + at_ at_list. apply ev_plain. unfold list_term. eapply ev_opt; [noargs HM|]. apply ev_const.
    + at_ at_alist. apply ev_plain. unfold list_term. eapply ev_opt; [noargs HM|]. apply ev_const.
    + at_ at_input. apply ev_plain. unfold input_term. eapply ev_opt; [noargs HM|]. apply ev_const.
    + at_ at_locate. apply ev_plain. unfold locate_term. eapply ev_opt; [noargs HM|]. apply ev_const.
    + at_ at_pick. apply ev_plain. unfold pick_arguments. rewrite exact_no' by exact HM. apply ev_const.
  - (* call *) at_ at_other; [exact Hi|]. eapply ev_opt; [args Da|]. apply ev_const.
  - (* list *) destruct Hi as [->| ->]; [at_ at_list|at_ at_alist]; apply ev_plain; unfold list_term;
      (eapply ev_opt; [args Da|]; apply ev_const).
  - at_ at_super. apply ev_plain. eapply ev_req; [args Da|]. apply ev_const.
  - at_ at_dot. apply ev_plain. unfold dot_term. rewrite ident_no by reflexivity. cbn [opt_]. eapply ev_opt; [args Da|]. apply ev_const.
  - at_ at_dot. apply ev_plain. unfold dot_term. apply delimited_split in HM as [B1 B2]. rewrite ident_no by exact B1. cbn [opt_].
    eapply ev_opt; [noargs B2|]. apply ev_const.
  - at_ at_dot. apply ev_plain. unfold dot_term. rewrite ident_yes. cbn [opt_].
    eapply ev_req; [eapply (prefab_c F k HE); [exact Dp|lia|exact HM]|]. apply ev_const.
  - at_ at_path; [exact Hp|]. apply ev_plain.
    eapply ev_req; [change (P p :: ts ++ rest) with ((P p :: ts) ++ rest); eapply (prefab_c F k HE); [exact Dp|cbn [List.length]; lia|exact HM]|].
    apply ev_const.
  - at_ at_scope. apply ev_plain. unfold scope_term. rewrite ident_yes. cbn [req_]. eapply ev_opt; [noargs HM|]. apply ev_const.
  - at_ at_scope. apply ev_plain. unfold scope_term. rewrite ident_yes. cbn [req_]. eapply ev_opt; [args Da|]. apply ev_const.
  - at_ at_paren. apply ev_plain. unfold paren_term. rewrite app_length in Hk. cbn [List.length] in Hk.
    rewrite <- app_assoc. cbn [app]. rewrite exact_starts by (reflexivity || exact (expr_starts _ _ _ _ _ _ De)). cbn [opt_].
    eapply ev_req; [eapply (HEc F k HE); [lia|exact De|reflexivity]|]. rewrite exact_yes. apply ev_const.
  - at_ at_interp. apply ev_plain. eapply ev_req; [eapply (interp_c F k HE); [exact Di|lia]|]. apply ev_const.
  - at_ at_new. apply ev_plain. eapply new_c; [exact D0|lia|exact HM].
  - at_ at_new. apply ev_plain. exact (new_c (P PDot :: ta) rest ds _ _ _ D0 ltac:(cbn [List.length]; lia) HM).
  - at_ at_new. apply ev_plain. exact (new_c (TIdent F i ws' :: tf ++ ta) rest ds _ _ _ D0 ltac:(cbn [List.length]; lia) HM).
  - at_ at_new. apply ev_plain. exact (new_c (P PDot :: TIdent F i ws' :: ts ++ ta) rest ds _ _ _ D0 ltac:(cbn [List.length]; lia) HM).
  - at_ at_new. apply ev_plain. exact (new_c (P p :: ts ++ ta) rest ds _ _ _ D0 ltac:(cbn [List.length]; lia) HM).
  - at_ at_call. apply ev_plain. lens. rewrite <- app_assoc. cbn [app]. eapply ev_req; [args Da|].
    eapply ev_req; [args Db|]. apply ev_const.
  - at_ at_call_ext. apply ev_plain. unfold call_ext_term. lens. rewrite <- app_assoc. cbn [app].
    rewrite exact_yes. cbn [req_]. eapply ev_req; [eapply (HEc F k HE); [lia|exact De|reflexivity]|].
    rewrite exact_no by reflexivity. cbn [opt_]. rewrite exact_yes. cbn [req_]. eapply ev_req; [args Da|]. apply ev_const.
  - at_ at_call_ext. apply ev_plain. unfold call_ext_term. lens. rewrite <- app_assoc. cbn [app]. rewrite <- app_assoc. cbn [app].
    rewrite exact_yes. cbn [req_]. eapply ev_req; [eapply (HEc F k HE); [lia|exact Dl|reflexivity]|].
    rewrite exact_yes. cbn [opt_]. eapply ev_req; [eapply (HEc F k HE); [lia|exact De|reflexivity]|].
    rewrite exact_yes. cbn [req_]. eapply ev_req; [args Da|]. apply ev_const.
  - at_ at_input. apply ev_plain. unfold input_term. lens. rewrite <- app_assoc. eapply ev_opt; [args Da|]. cbv beta iota.
    apply delimited_split in HM as [B1 B2]. eapply ev_req.
    + apply (specifier_c None il ti I rest ds [] (nothing F)); [exact Di|lia|exact B1|intros _; exact B2|split; [reflexivity|intros _; exact B2]].
    + apply ev_const.
  - at_ at_input. apply ev_plain. unfold input_term. lens. rewrite <- app_assoc. eapply ev_opt; [args Da|]. cbv beta iota.
    apply delimited_split in HM as [B1 B2]. eapply ev_req.
    + cbn [app]. rewrite <- app_assoc. change (TIdent F (lit "as") ws' :: tn ++ ti ++ rest) with ((TIdent F (lit "as") ws' :: tn) ++ ti ++ rest).
      apply (specifier_c (Some n) il ti I rest ds _ A); [exact Di|lia|exact B1| |].
      * destruct il; [intros _; exact B2|congruence].
      * exists ws', tn. split; [reflexivity|]. split; [exact Dn|]. intros ->. exact B2.
    + apply ev_const.
  - at_ at_locate. apply ev_plain. eapply locate_c; [exact Da|exact Di|exact H1|exact H2|lia|exact HM].
  - at_ at_pick. apply ev_plain. unfold pick_arguments. eapply ev_opt.
    + rewrite exact_yes. cbn [lead_]. eapply ev_req; [eapply (pick_c F k HE); [exact Dp|lia]|]. apply ev_const.
    + apply ev_const.
  - at_ at_as. apply ev_plain. unfold as_term. rewrite exact_yes. cbn [req_]. rewrite <- app_assoc. cbn [app].
    rewrite (input_type_c F n tn A (P PRParen :: rest) ds Dn) by (destruct Dn; reflexivity). cbn [opt_]. rewrite exact_yes. apply ev_const.
Qed.

(** *** What is applied to a term *)
Lemma follow_nonempty c t f tf N : sp_follow F c t f tf N -> tf <> [].
Proof using Type. clear. intros D; destruct D; discriminate. Qed.
Lemma follows_delim c t M fs ts B rest : sp_follows F c t M fs ts B -> delimited B rest -> delimited M (ts ++ rest).
Proof using Type.
  clear. intros D HB. destruct D as [c t M|c t M f tf N fs ts B D HM D'].
  - apply delimited_split in HB. apply HB.
  - apply follow_nonempty in D. destruct tf; [congruence|]. exact HM.
Qed.
Lemma access_kind c t p kd : access_op c t p = Some kd ->
  follow_kind F c t (P p) = Some kd /\ kd <> KScope /\
  at_punct F PLBracket (mk (P p :: []) []) = false /\ at_punct F PSafeLBracket (mk (P p :: []) []) = false /\
  at_punct F PPlusPlus (mk (P p :: []) []) = false /\ at_punct F PMinusMinus (mk (P p :: []) []) = false.
Proof using Type.
  clear. intros H. destruct p; cbn in H; try discriminate; try (injection H as <-; repeat split; discriminate).
  cbn [follow_kind]. rewrite H. repeat split. destruct (c || negb t); congruence.
Qed.
Lemma follow_at c t p kd i ws r ds R : follow_kind F c t (P p) = Some kd ->
  at_punct F PLBracket (mk (P p :: []) []) = false -> at_punct F PSafeLBracket (mk (P p :: []) []) = false ->
  follow_one F R c t (mk (P p :: TIdent F i ws :: r) ds) =
  opt_ F (arguments F R (mk r ds)) (fun a s3 =>
    match a with
    | Some args => success F (match kd with KScope => FProcRef i | _ => FCall kd i args end, false) s3
    | None => success F (match kd with KScope => FStaticField i | _ => FField kd i end, c) s3
    end).
Proof using Type.
  clear. intros H1 H2 H3. unfold follow_one, list_access.
  change (at_punct F PLBracket (mk (P p :: TIdent F i ws :: r) ds)) with (at_punct F PLBracket (mk (P p :: []) [])).
  change (at_punct F PSafeLBracket (mk (P p :: TIdent F i ws :: r) ds)) with (at_punct F PSafeLBracket (mk (P p :: []) [])).
  rewrite H2, H3. cbn [opt_ toks Complete.mk]. rewrite H1. reflexivity.
Qed.
Lemma follow_c c t f tf N rest ds : sp_follow F c t f tf N -> List.length tf <= S k -> delimited N rest ->
  (forall u, f <> FUnary u) ->
  ev (fun R => follow_one F R c t (mk (tf ++ rest) ds)) (Some (f, c && keeps_chain F f)) (mk rest ds).
Proof using HE.
  intros D Hk HN Hu. destruct D as [c t|c t|c t e ts A De|c t e ts A De|c t p kd i ws Hp|c t p kd i ws es ts Hp Da|c t i ws|c t i ws es ts Da];
    cbn [app keeps_chain]; rewrite ?andb_true_r, ?andb_false_r; try (exfalso; eapply Hu; reflexivity).
  - unfold follow_one. rewrite <- app_assoc. cbn [app]. lens. eapply ev_opt.
    + unfold list_access. cbn [at_punct toks Complete.mk peqb].
      eapply ev_req; [eapply (HEc F k HE); [|exact De|reflexivity]; lia|]. rewrite exact_yes. apply ev_const.
    + apply ev_const.
  - unfold follow_one. rewrite <- app_assoc. cbn [app]. lens. eapply ev_opt.
    + unfold list_access. cbn [at_punct toks Complete.mk peqb].
      eapply ev_req; [eapply (HEc F k HE); [|exact De|reflexivity]; lia|]. rewrite exact_yes. apply ev_const.
    + apply ev_const.
  - apply access_kind in Hp as (H1 & H2 & H3 & H4 & _). at_ (follow_at c t p kd); try assumption. eapply ev_opt; [noargs HN|].
    cbv beta iota. destruct kd; try congruence; apply ev_const.
  - apply access_kind in Hp as (H1 & H2 & H3 & H4 & _). at_ (follow_at c t p kd); try assumption. lens. eapply ev_opt; [args Da|].
    cbv beta iota. destruct kd; try congruence; apply ev_const.
  - at_ (follow_at c t PScope KScope); try reflexivity. eapply ev_opt; [noargs HN|]. apply ev_const.
  - at_ (follow_at c t PScope KScope); try reflexivity. lens. eapply ev_opt; [args Da|]. apply ev_const.
Qed.
Theorem follows_c c t M fs ts B : sp_follows F c t M fs ts B -> List.length ts <= S k -> forall acc rest ds, delimited B rest ->
  ev (fun R => f_follows F R acc c t (mk (ts ++ rest) ds)) (Some (acc ++ fs)) (mk rest ds).
Proof using HE.
  intros D. induction D as [c t M|c t M f tf N fs ts B Df HM D IH]; intros Hk acc rest ds HB.
  - apply delimited_split in HB as [HB _]. apply ev_step. cbn [step f_follows app]. rewrite app_nil_r.
    exists 0. intros n _. unfold follows_body. destruct rest as [|x rest]; [reflexivity|]. cbn [Spec.delimited] in HB.
    destruct x as [p| | | | | | | | |]; try reflexivity. unfold follow_start in HB. apply orb_false_iff in HB as [H1 H2].
    destruct p; try discriminate; try reflexivity. cbn in H2. 
    unfold follow_one, list_access. cbn [at_punct toks Complete.mk peqb opt_ punct_eq_dec punct_rec punct_rect follow_kind].
    destruct (c || negb t); [discriminate|reflexivity].
  - rewrite app_length in Hk. pose proof (follows_delim _ _ _ _ _ _ rest D HB) as HN.
    assert (Ht : List.length ts <= S k) by lia. specialize (IH Ht (acc ++ [f]) rest ds HB).
    rewrite <- app_assoc in IH. cbn [app] in IH. rewrite <- app_assoc.
    apply ev_step. cbn [step f_follows]. unfold follows_body.
    assert (Hf : (forall u, f <> FUnary u) \/ exists u, f = FUnary u) by (destruct f; first [right; eexists; reflexivity|left; intros ?; discriminate]).
    destruct Hf as [Hf|[u ->]].
    + assert (E : forall p, p = PPlusPlus \/ p = PMinusMinus -> at_punct F p (mk (tf ++ ts ++ rest) ds) = false).
      { intros p Hp. destruct Df; try (exfalso; eapply Hf; reflexivity); try (destruct Hp as [->| ->]; reflexivity);
        match goal with H : access_op _ _ _ = _ |- _ => apply access_kind in H as (_ & _ & _ & _ & H3 & H4) end;
        destruct Hp as [->| ->]; assumption. }
      rewrite (E PPlusPlus), (E PMinusMinus) by auto.
      eapply ev_opt; [eapply follow_c; [exact Df|lia|exact HN|exact Hf]|]. exact IH.
    + assert (E : (tf = [P PPlusPlus] /\ u = PostIncr) \/ (tf = [P PMinusMinus] /\ u = PostDecr)) by (inversion Df; auto).
      cbn [keeps_chain] in IH. rewrite andb_true_r in IH. destruct E as [[-> ->]|[-> ->]]; exact IH.
Qed.
Theorem group_c t e ts A rest ds : sp_group F t e ts A -> List.length ts <= S k -> delimited A rest ->
  ev (fun R => f_group F R t (mk (ts ++ rest) ds)) (Some e) (mk rest ds).
Proof using HE.
  intros D Hk HA. destruct D as [t ps us m c tm M fs tf B Hp Dt Df]. rewrite !app_length, map_length in Hk.
  pose proof (follows_delim _ _ _ _ _ _ rest Df HA) as HM. pose proof (term_starts _ _ _ _ _ Dt) as [_ St].
  apply ev_step. cbn [step f_group]. unfold group_body. rewrite <- !app_assoc.
  cbn [toks Complete.mk]. rewrite (prefix_c F ps us Hp tm (tf ++ rest) St).
  change (with_toks F (tm ++ tf ++ rest) (mk (map (fun p => P p) ps ++ tm ++ tf ++ rest) ds)) with (mk (tm ++ tf ++ rest) ds).
  pose proof (term_c m c tm M (tf ++ rest) ds Dt ltac:(lia) HM) as HT.
  pose proof (follows_c c t M fs tf B Df ltac:(lia) [] rest ds HA) as HF.
  destruct us as [|u us].
  - eapply ev_lead; [exact HT|]. cbn [fst snd]. eapply ev_req; [exact HF|]. apply ev_const.
  - eapply ev_req; [exact HT|]. cbn [fst snd]. eapply ev_req; [exact HF|]. apply ev_const.
Qed.
End WITH.

(** *** Everything *)
Theorem groups_complete (k : nat) : forall t e ts A rest ds, List.length ts <= k -> sp_group F t e ts A -> delimited A rest ->
  ev (fun R => f_group F R t (mk (ts ++ rest) ds)) (Some e) (mk rest ds).
Proof using Type.
  induction k as [|k IH]; intros t e ts A rest ds Hk D HA.
  - apply group_starts in D. destruct ts; [contradiction|cbn in Hk; lia].
  - eapply (group_c k); [|exact D|exact Hk|exact HA].
    intros e' ts' A' rest' ds' Hk' D' H'. apply (expr_complete F k IH None false e' ts' A' rest' ds' Hk' D' H').
Qed.
Theorem complete (st : option strength) (t : bool) (e : expr) ts A rest ds : sp_expr (lim st) t e ts A -> ends_before (lim st) A rest ->
  ev (fun R => f_expr F R st t (mk (ts ++ rest) ds)) (Some e) (mk rest ds).
Proof using Type. intros D H. eapply expr_complete; [apply groups_complete|apply le_n|exact D|exact H]. Qed.
End COMPLETE.
