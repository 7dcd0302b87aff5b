(** Concrete cases of C39 and C40: the hypotheses hold of them, and the runs succeed. *)
From Coq Require Import List ZArith NArith Bool Lia Arith String.
From Verif Require Import Common.Text Loc.Model Lexer.Punct.
From Verif Require Lexer.Model.
From Verif Require Import Pp.Model Pp.Spec Pp.Demo Pp.CondProps.
Import ListNotations.
Open Scope nat_scope.

Definition ln (file line : Z) (ts : list dtok) : list (loc * dtok) := line_toks file line 1 ts.

(** the included file: [#define ZERO 0], [#ifndef N], [#undef ADD], [#endif], [in ADD] *)
Definition demo_a : items :=
  ILine (ln 2 1 [Pu PHash; Id "define"; Sp "ZERO"; In_ 0])
  (ICond (ln 2 2 [Pu PHash; Id "ifndef"; Id "N"])
     (ILine (ln 2 3 [Pu PHash; Id "undef"; Id "ADD"]) INil)
     (AEndif (ln 2 4 [Pu PHash; Id "endif"]))
  (ILine (ln 2 5 [Id "a"; In_ 1]) INil)).
(** the environment file: two macros, [#ifdef N] with an #else, the #include twice, [#if ZERO] with an [#elif N], #undef *)
Definition demo_env : items :=
  ILine (ln 1 1 [Pu PHash; Id "define"; Sp "N"; In_ 3])
  (ILine (ln 1 2 [Pu PHash; Id "define"; Id "ADD"; Pu PLParen; Id "x"; Pu PComma; Id "y"; Pu PRParen; Id "x"; Pu PAdd; Id "y"])
  (ICond (ln 1 3 [Pu PHash; Id "ifdef"; Id "N"])
     (ILine (ln 1 4 [Id "ADD"; Pu PLParen; Id "N"; Pu PComma; Pu PLParen; Id "u"; Pu PComma; Id "v"; Pu PRParen; Pu PRParen]) INil)
     (AElse (ln 1 5 [Pu PHash; Id "else"])
        (ILine (ln 1 6 [Pu PHash; Id "define"; Sp "DEAD"; In_ 1])
        (ICond (ln 1 7 [Pu PHash; Id "ifdef"; Id "N"]) (ILine (ln 1 8 [Id "dead"]) INil) (AEndif (ln 1 9 [Pu PHash; Id "endif"])) INil))
        (ln 1 10 [Pu PHash; Id "endif"]))
  (ILine (ln 1 11 [Pu PHash; Id "include"; Str "a.dm"])
  (ILine (ln 1 12 [Pu PHash; Id "include"; Str "a.dm"])
  (ICond (ln 1 13 [Pu PHash; Id "if"; Id "ZERO"])
     (ILine (ln 1 14 [Id "off"]) INil)
     (AElif (ln 1 15 [Pu PHash; Id "elif"; Id "N"])
        (ILine (ln 1 16 [Id "on"]) INil)
        (AElif (ln 1 17 [Pu PHash; Id "elif"; In_ 1]) (ILine (ln 1 18 [Id "late"]) INil) (AEndif (ln 1 19 [Pu PHash; Id "endif"]))))
  (ILine (ln 1 20 [Pu PHash; Id "undef"; Id "ADD"])
  (ILine (ln 1 21 [Id "ADD"; Pu PLParen; Id "DEAD"; Pu PRParen]) INil))))))).

Definition cond_files : list (text * (Z * list (list dtok))) :=
  [(lit "a.dm", (2, [[Pu PHash; Id "define"; Sp "ZERO"; In_ 0]; [Pu PHash; Id "ifndef"; Id "N"]; [Pu PHash; Id "undef"; Id "ADD"]; [Pu PHash; Id "endif"]; [Id "a"; In_ 1]]))]%Z.
Definition cond_world : @world unit text := demo_world cond_files.
Definition cond_st0 : @world_state unit := {| macros := []; included := [] |}.
Definition cond_place : @place text := {| depth := 1; file := lit "env.dme"; env := lit "env.dme" |}.

Ltac not_ends := intros [C1 C2]; try discriminate C1; destruct C2 as (o & l1 & l2 & ws & C2);
  repeat (destruct o as [|? o]; try discriminate C2); cbn [app] in C2; discriminate C2.
Ltac side := first [ solve [intros; discriminate] | solve [intros; intro; discriminate] | solve [intros [C|C]; vm_compute in C; discriminate C] | not_ends | solve [vm_compute; reflexivity] | solve [cbv; lia] ].
Ltac an_argument := repeat first [apply arg_nil | apply arg_tok; [discriminate | discriminate | discriminate |] ].
Ltac expand := cbn [map ln line_toks app deeper]; unfold Id, Sp, Pu, In_, Str, NL;
  match goal with
  | |- expands _ _ _ _ _ [] _ => apply e_nil
  | |- expands _ _ _ _ _ ((_, (_, Lexer.Model.TIdent _ _ _)) :: _) _ =>
      first [ eapply e_name; [side | solve [vm_compute; reflexivity] | expand]
            | eapply e_constant; [side | side | vm_compute; reflexivity | side | expand] ]
  | |- expands _ _ _ _ _ _ _ => eapply e_plain; [side | side | side | side | expand]
  end.
Ltac not_in := let H := fresh in intro H; cbn in H; repeat (destruct H as [H|H]; [discriminate H|]); exact H.
Ltac text_ok ts := exists ts; split; [reflexivity | split; not_in].

Lemma demo_call : forall l l2 m r out, dm_get m (lit "ADD") = Some (l2, Function [lit "x"; lit "y"] [Id "x"; Pu PAdd; Id "y"] false []) ->
  expands cond_world false (lit "env.dme") m [] (deeper 1 l [Id "N"; Pu PAdd; Pu PLParen; Id "u"; Pu PComma; Id "v"; Pu PRParen] ++ r) out ->
  forall l3 l4 l5 l6 l7 l8 l9 l10 l11, expands cond_world false (lit "env.dme") m []
    ((1, (l, Id "ADD")) :: (1, (l3, Pu PLParen)) :: (1, (l4, Id "N")) :: (1, (l5, Pu PComma)) :: (1, (l6, Pu PLParen)) :: (1, (l7, Id "u")) :: (1, (l8, Pu PComma)) :: (1, (l9, Id "v")) :: (1, (l10, Pu PRParen)) :: (1, (l11, Pu PRParen)) :: r) out.
Proof.
  intros l l2 m r out Hm He l3 l4 l5 l6 l7 l8 l9 l10 l11.
  eapply (e_call _ _ _ _ _ _ _ _ _ _ _ _ _ _ _ _ _ [_; _; _; _; _; _; _] [[Id "N"]; [Pu PLParen; Id "u"; Pu PComma; Id "v"; Pu PRParen]] [[Id "N"]; [Pu PLParen; Id "u"; Pu PComma; Id "v"; Pu PRParen]]);
    [side | side | exact Hm | cbv; lia | reflexivity | reflexivity | discriminate | | apply bound_fixed; reflexivity | | exact He].
  - constructor; [an_argument|]. constructor; [|constructor].
    apply (arg_par [Id "u"; Pu PComma; Id "v"] []); [|constructor]. repeat (apply bal_tok; [discriminate | discriminate |]). constructor.
  - eapply f_param; [vm_compute; reflexivity|]. apply f_plain; [discriminate | discriminate | discriminate|]. eapply f_param; [vm_compute; reflexivity|]. apply f_nil.
Qed.

Example C39_demo : exists st1 lines, means cond_world cond_place true cond_st0 demo_env st1 lines /\
  map (map snd) lines = [ [In_ 3; Pu PAdd; Pu PLParen; Id "u"; Pu PComma; Id "v"; Pu PRParen]; [Id "a"; In_ 1]; [Id "on"]; [Id "ADD"; Pu PLParen; Id "DEAD"; Pu PRParen] ] /\
  map fst (macros st1) = [lit "N"; lit "ZERO"] /\ included st1 = [2%Z].
Proof.
  eexists. eexists. split.
  - unfold demo_env.
    eapply m_define; [eapply (def_constant _ _ _ _ _ _ _ [In_ 3]); [reflexivity | reflexivity | split; [not_in | intros k x y; not_in] | discriminate] | discriminate |].
    eapply m_define; [eapply (def_function _ _ _ _ _ _ [lit "x"; lit "y"] [false; false] [Id "x"; Pu PAdd; Id "y"]); [reflexivity | reflexivity | reflexivity | discriminate | split; [not_in | intros k x y; not_in]] | discriminate |].
    eapply m_cond; [eapply o_ifdef; reflexivity | apply h_defined | | |].
    + cbn [andb]. eapply m_text; [text_ok [Id "ADD"; Pu PLParen; Id "N"; Pu PComma; Pu PLParen; Id "u"; Pu PComma; Id "v"; Pu PRParen; Pu PRParen] | | apply m_nil].
      cbn [map ln line_toks cond_place depth file]. eapply demo_call; [vm_compute; reflexivity|]. expand.
    + eapply a_else; [exists false; reflexivity | exists false; reflexivity|].
      eapply m_dead; [right; exists false, (lit "define"), [Sp "DEAD"; In_ 1]; split; [reflexivity|]; split; [not_in | left; reflexivity]|].
      eapply m_cond; [eapply o_ifdef; reflexivity | apply h_defined | | eapply a_endif; exists false; reflexivity | apply m_nil].
      eapply m_dead; [left; text_ok [Id "dead"] | apply m_nil].
    + eapply (m_include _ _ _ _ (lit "a.dm") (lit "a.dm") demo_a); [exists false; reflexivity | eapply fi_here; vm_compute; reflexivity | reflexivity | vm_compute; reflexivity | intros [] | |].
      * unfold demo_a. eapply m_define; [eapply (def_constant _ _ _ _ _ _ _ [In_ 0]); [reflexivity | reflexivity | split; [not_in | intros k x y; not_in] | discriminate] | discriminate |].
        eapply m_cond; [eapply o_ifndef; reflexivity | apply h_not_defined | | eapply a_endif; exists false; reflexivity |].
        -- eapply m_dead; [right; exists false, (lit "undef"), [Id "ADD"]; split; [reflexivity|]; split; [not_in|]; right; split; [cbn; tauto | not_in] | apply m_nil].
        -- eapply m_text; [text_ok [Id "a"; In_ 1] | expand | apply m_nil].
      * eapply (m_include_again _ _ _ _ (lit "a.dm") (lit "a.dm")); [exists false; reflexivity | eapply fi_here; vm_compute; reflexivity | reflexivity | vm_compute; reflexivity | left; reflexivity|].
        eapply m_cond; [eapply (o_if _ _ _ _ [(_, Id "ZERO")]); not_in | eapply h_true; cbn [map cond_place depth file]; expand | | |].
        -- eapply m_dead; [left; text_ok [Id "off"] | apply m_nil].
        -- eapply (a_elif _ _ _ _ _ _ [(_, Id "N")]); [eexists; eexists; eexists; eexists; split; [reflexivity | not_in] | eapply h_true; cbn [map cond_place depth file]; expand | |].
           ++ cbn [negb]. vm_compute (_ && _ && _). eapply m_text; [text_ok [Id "on"] | expand | apply m_nil].
           ++ eapply (a_elif _ _ _ _ _ _ [(_, In_ 1)]); [eexists; eexists; eexists; eexists; split; [reflexivity | not_in] | eapply h_true; cbn [map cond_place depth file]; expand | |].
              ** vm_compute (_ && _ && _). eapply m_dead; [left; text_ok [Id "late"] | apply m_nil].
              ** eapply a_endif; exists false; reflexivity.
        -- eapply m_undef; [exists false, false; reflexivity|].
           eapply m_text; [text_ok [Id "ADD"; Pu PLParen; Id "DEAD"; Pu PRParen] | expand | apply m_nil].
  - vm_compute. repeat split.
Qed.
(** the run succeeds, so that C39_conditional applies *)
Example C39_demo_run : match run cond_world 300 (init (lit "env.dme") (spell demo_env) [] (0, (0, 0))%Z) with
  | Ok (ts, s) => map (map snd) (lines_of ts) = [ [In_ 3; Pu PAdd; Pu PLParen; Id "u"; Pu PComma; Id "v"; Pu PRParen]; [Id "a"; In_ 1]; [Id "on"]; [Id "ADD"; Pu PLParen; Id "DEAD"; Pu PRParen] ] /\
      map fst (defines s) = [lit "N"; lit "ZERO"]
  | _ => False
  end.
Proof. vm_compute. repeat split. Qed.
