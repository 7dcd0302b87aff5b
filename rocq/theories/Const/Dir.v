(** Outside of preprocessor directives the lexer stays outside of them until a hash sign. *)
From Coq Require Import List NArith ZArith Bool String Lia.
From Verif Require Import Common.Text Common.Utf8 Lexer.Tracker Lexer.Punct Lexer.Model.
Import ListNotations.
Open Scope N_scope.

Lemma lnext_quiet : forall L c L1, lnext L = (c, L1) -> dir L = DNone -> dir L1 = DNone.
Proof.
  intros L c L1 E H. unfold lnext in E. destruct (pending L); [injection E as <- <-; exact H|].
  destruct (step (inp L)) as [r t]. injection E as <- <-. cbn [dir]. destruct (_ <? _); [reflexivity|exact H].
Qed.
Lemma put_back_quiet : forall v L L1, put_back v L = Ok L1 -> dir L = DNone -> dir L1 = DNone.
Proof. intros v L L1 E H. unfold put_back in E. destruct (pending L); [discriminate|]. injection E as <-. exact H. Qed.

(** one step of a computation that ends well *)
Ltac q1 :=
  match goal with
  | H : Ok _ = Ok _ |- _ => injection H; clear H; intros; subst
  | H : Panic = Ok _ |- _ => discriminate H
  | H : Stuck = Ok _ |- _ => discriminate H
  | H : context [lnext ?L] |- _ =>
      let c := fresh "c" in let L1 := fresh "L" in let E := fresh "E" in
      destruct (lnext L) as [c L1] eqn:E; apply lnext_quiet in E; [|solve [assumption|auto]]
  | H : bind (put_back ?v ?L) _ = Ok _ |- _ =>
      let L1 := fresh "L" in let E := fresh "E" in
      destruct (put_back v L) as [L1| |] eqn:E; cbn [bind] in H; [apply put_back_quiet in E; [|solve [assumption|auto]]|discriminate H|discriminate H]
  | H : (if ?b then _ else _) = Ok _ |- _ => destruct b
  | H : (match ?x with Some _ => _ | None => _ end) = Ok _ |- _ => destruct x
  | H : (let '(_, _) := ?x in _) = Ok _ |- _ => destruct x eqn:?
  end.
Ltac q := repeat q1; try assumption; try reflexivity; eauto.

Lemma block_quiet : forall fuel d b doc acc L r L', block_loop fuel d b doc acc L = Ok (r, L') -> dir L = DNone -> dir L' = DNone.
Proof. induction fuel as [|fuel IH]; intros d b doc acc L r L' E H; cbn [block_loop] in E; [discriminate|]. q. Qed.
Lemma line_quiet : forall fuel b doc acc L r L', line_loop fuel b doc acc L = Ok (r, L') -> dir L = DNone -> dir L' = DNone.
Proof.
  induction fuel as [|fuel IH]; intros b doc acc L r L' E H; cbn [line_loop] in E; [discriminate|]. q.
  all: eapply IH; [eassumption|]; try assumption; destruct (_ =? _); assumption.
Qed.
Lemma hash_quiet : forall n buf after L r L', hash_loop n buf after L = (r, L') -> dir L = DNone -> dir L' = DNone.
Proof.
  induction n as [|n IH]; intros buf after L r L' E H; cbn [hash_loop] in E; [injection E as _ <-; exact H|].
  destruct (lnext L) as [[c|] L1] eqn:E1; apply lnext_quiet in E1; try exact H; [|injection E as _ <-; exact E1].
  destruct (existsb _ _); [eapply IH; eassumption|injection E as _ <-; exact E1].
Qed.
Lemma number_quiet : forall fuel i x rd buf L a b c L', number_loop fuel i x rd buf L = Ok (a, b, c, L') -> dir L = DNone -> dir L' = DNone.
Proof.
  induction fuel as [|fuel IH]; intros i x rd buf L a b c L' E H; cbn [number_loop] in E; [discriminate|]. q.
  match goal with HH : hash_loop _ _ _ _ = _ |- _ => eapply hash_quiet; [exact HH|assumption] end.
Qed.
Lemma ident_quiet : forall fuel buf L a b L', ident_loop fuel buf L = Ok (a, b, L') -> dir L = DNone -> dir L' = DNone.
Proof. induction fuel as [|fuel IH]; intros buf L a b L' E H; cbn [ident_loop] in E; [discriminate|]. q. Qed.
Lemma resource_quiet : forall fuel st b buf L r L', resource_loop fuel st b buf L = Ok (r, L') -> dir L = DNone -> dir L' = DNone.
Proof. induction fuel as [|fuel IH]; intros st b buf L r L' E H; cbn [resource_loop] in E; [discriminate|]. q. Qed.
Lemma ws_quiet : forall fuel nl L r L', ws_loop fuel nl L = Ok (r, L') -> dir L = DNone -> dir L' = DNone.
Proof. induction fuel as [|fuel IH]; intros nl L r L' E H; cbn [ws_loop] in E; [discriminate|]. q. all: eapply IH; [eassumption|assumption]. Qed.
Lemma string_quiet : forall fuel st e b i buf L r o L', string_loop fuel st e b i buf L = Ok (r, o, L') -> dir L = DNone -> dir L' = DNone.
Proof.
  induction fuel as [|fuel IH]; intros st e b i buf L r o L' E H; cbn [string_loop] in E; [discriminate|].
  unfold skip_ws in E. q.
  all: match goal with HH : bind (ws_loop ?f ?n ?L) _ = Ok _ |- _ =>
    let E := fresh "Ew" in destruct (ws_loop f n L) as [[? ?]| |] eqn:E; cbn [bind] in HH; [apply ws_quiet in E; [|assumption]|discriminate HH|discriminate HH] end; q.
Qed.
Lemma raw_quiet : forall fuel st t buf L r L', raw_loop fuel st t buf L = Ok (r, L') -> dir L = DNone -> dir L' = DNone.
Proof. induction fuel as [|fuel IH]; intros st t buf L r L' E H; cbn [raw_loop] in E; [discriminate|]. q. Qed.
Lemma term_quiet : forall fuel acc L r L', term_loop fuel acc L = Ok (r, L') -> dir L = DNone -> dir L' = DNone.
Proof. induction fuel as [|fuel IH]; intros acc L r L' E H; cbn [term_loop] in E; [discriminate|]. q. Qed.
Lemma punct_quiet : forall fuel nd it cand L r L', punct_loop fuel nd it cand L = Ok (r, L') -> dir L = DNone -> dir L' = DNone.
Proof.
  induction fuel as [|fuel IH]; intros nd it cand L r L' E H; destruct it as [|e more]; cbn [punct_loop] in E; try discriminate; q.
Qed.
Lemma close_quiet : forall p L r L', close_stage p L = Ok (r, L') -> dir L = DNone -> dir L' = DNone.
Proof.
  intros p L r L' E H. unfold close_stage, check_close in E. destruct (close_allowed L); [|q]. destruct p as [p|]; [|q].
  destruct (punct_eq_dec p (close p)); cbn [bind] in E; [q|].
  destruct (lnext L) as [c L1] eqn:E1. apply lnext_quiet in E1; [|exact H].
  destruct (put_back c L1) as [L2| |] eqn:E2; cbn [bind] in E; try discriminate. apply put_back_quiet in E2; [|exact E1]. q.
Qed.

Section TOKEN.
Variable F : Type.
Variable parse_f32 : text -> option F.
Variable show_f32 : F -> text.
Variable f32_zero : F.
Notation token_loop := (token_loop F parse_f32 show_f32 f32_zero).
Notation token_next := (token_next F parse_f32 show_f32 f32_zero).

Lemma read_string_quiet : forall e ic L t L', read_string F e ic L = Ok (t, L') -> dir L = DNone -> dir L' = DNone.
Proof using Type.
  intros e ic L t L' E H. unfold read_string in E. destruct (string_loop _ _ _ _ _ _ _) as [[[b o] L1]| |] eqn:E1; cbn [bind] in E; try discriminate.
  injection E as _ <-. eapply string_quiet; eassumption.
Qed.
Lemma raw_inner_quiet : forall t L r L', read_raw_string_inner F t L = Ok (r, L') -> dir L = DNone -> dir L' = DNone.
Proof using Type.
  intros t L r L' E H. unfold read_raw_string_inner in E. destruct (raw_loop _ _ _ _ _) as [[b L1]| |] eqn:E1; cbn [bind] in E; try discriminate.
  injection E as _ <-. eapply raw_quiet; eassumption.
Qed.
Lemma read_raw_quiet : forall L t L', read_raw_string F L = Ok (t, L') -> dir L = DNone -> dir L' = DNone.
Proof using Type.
  intros L t L' E H. unfold read_raw_string in E. destruct (lnext L) as [c L1] eqn:E1. apply lnext_quiet in E1; [|exact H].
  destruct c as [ch|]; [|q]. destruct (ch =? 10); [q|]. destruct (ch =? 40).
  - destruct (term_loop _ _ _) as [[o L2]| |] eqn:E2; cbn [bind] in E; try discriminate. apply term_quiet in E2; [|exact E1].
    destruct o as [[|x o]|]; [q| |q]. eapply raw_inner_quiet; eassumption.
  - destruct (ch =? 123); [|eapply raw_inner_quiet; eassumption].
    destruct (lnext L1) as [c2 L2] eqn:E2. apply lnext_quiet in E2; [|exact E1].
    destruct (match c2 with Some ch2 => ch2 =? 34 | None => false end); [eapply raw_inner_quiet; eassumption|].
    destruct (put_back c2 L2) as [L3| |] eqn:E3; cbn [bind] in E; try discriminate. apply put_back_quiet in E3; [|exact E2].
    eapply raw_inner_quiet; eassumption.
Qed.
Lemma read_number_quiet : forall f L t L', read_number F parse_f32 show_f32 f32_zero f L = Ok (t, L') -> dir L = DNone -> dir L' = DNone.
Proof using Type.
  intros f L t L' E H. unfold read_number in E. destruct (read_number_inner f L) as [[[[i rd] buf] L1]| |] eqn:E1; cbn [bind] in E; try discriminate.
  assert (H1 : dir L1 = DNone).
  { clear E. unfold read_number_inner in E1. destruct (f =? 46); [eapply number_quiet; eassumption|]. destruct (f =? 48); [|eapply number_quiet; eassumption].
    destruct (lnext L) as [c L2] eqn:E2. apply lnext_quiet in E2; [|exact H].
    destruct (match c with Some ch => ch =? 120 | None => false end); [eapply number_quiet; eassumption|].
    destruct (put_back c L2) as [L3| |] eqn:E3; cbn [bind] in E1; try discriminate. apply put_back_quiet in E3; [|exact E2]. eapply number_quiet; eassumption. }
  destruct i; [destruct (i32_from_str_radix buf rd); [q|]; destruct (if rd =? 10 then parse_f32 buf else None); q|destruct (parse_f32 buf); q].
  destruct (text_eqb _ _); exact H1.
Qed.
Lemma read_resource_quiet : forall L t L', read_resource L = Ok (t, L') -> dir L = DNone -> dir L' = DNone.
Proof using Type.
  intros L t L' E H. unfold read_resource in E. destruct (resource_loop _ _ _ _ _) as [[b L1]| |] eqn:E1; cbn [bind] in E; try discriminate.
  injection E as _ <-. eapply resource_quiet; eassumption.
Qed.
Lemma skip_block_quiet : forall L t L', skip_block_comments F L = Ok (t, L') -> dir L = DNone -> dir L' = DNone.
Proof using Type.
  intros L t L' E H. unfold skip_block_comments in E. destruct (lnext L) as [c L1] eqn:E1. apply lnext_quiet in E1; [|exact H].
  destruct (match c with Some ch => _ | None => _ end) as [cm b1].
  destruct (block_loop _ _ _ _ _ _) as [[b L2]| |] eqn:E2; cbn [bind] in E; try discriminate. injection E as _ <-. eapply block_quiet; eassumption.
Qed.
Lemma skip_line_quiet : forall L t L', skip_line_comment F L = Ok (t, L') -> dir L = DNone -> dir L' = DNone.
Proof using Type.
  intros L t L' E H. unfold skip_line_comment in E. destruct (lnext L) as [c L1] eqn:E1. apply lnext_quiet in E1; [|exact H].
  destruct (match c with Some ch => ch =? 10 | None => false end); [q|].
  destruct (line_loop _ _ _ _ _) as [[b L2]| |] eqn:E2; cbn [bind] in E; try discriminate. injection E as _ <-. eapply line_quiet; eassumption.
Qed.
Lemma token_loop_quiet : forall fuel sn fi L o L', token_loop fuel sn fi L = Ok (o, L') ->
  (forall loc, o <> Some (loc, TPunct F PHash)) -> dir L = DNone -> dir L' = DNone.
Proof using Type.
  induction fuel as [|fuel IH]; intros sn fi L o L' E Hh H; cbn [Model.token_loop] in E; [discriminate|].
  destruct (skip_ws sn L) as [[c L1]| |] eqn:E1; cbn [bind] in E; try discriminate. apply ws_quiet in E1; [|exact H].
  destruct c as [first|]; [|q]. rewrite E1 in E.
  unfold read_punct in E. destruct (punct_loop _ _ _ _ _) as [[p0 L2]| |] eqn:E2; cbn [bind] in E; try discriminate. apply punct_quiet in E2; [|exact E1].
  destruct (close_stage p0 L2) as [[p L3]| |] eqn:E3; cbn [bind] in E; try discriminate. apply close_quiet in E3; [|exact E2].
  unfold dispatch in E.
  destruct p as [p|].
  - destruct p; try (q; fail).
    all: try (injection E as <- <-; cbn [dir set_stack set_close]; try exact E3; destruct (stack L3); exact E3).
    all: try (match type of E with bind ?x _ = _ => destruct x as [[t L4]| |] eqn:E4; cbn [bind] in E; try discriminate end).
    all: try (apply skip_block_quiet in E4; [|exact E3]; destruct t; [q|eapply IH; eassumption]).
    all: try (apply skip_line_quiet in E4; [|exact E3]; destruct t; [q|eapply IH; eassumption]).
    all: try (apply read_resource_quiet in E4; [|exact E3]; q).
    all: try (apply read_string_quiet in E4; [|exact E3]; q).
    + exfalso. injection E as <- _. eapply Hh. reflexivity.
    + destruct (stack L3) as [|i st]; [q|]. destruct (i_depth i =? 0)%nat; [discriminate|]. destruct (i_depth i - 1 =? 0)%nat; [|q].
      destruct (read_string F (i_end i) true (set_stack st L3)) as [[t L4]| |] eqn:E4; cbn [bind] in E; try discriminate. apply read_string_quiet in E4; [|exact E3]. q.
  - destruct (is_digit first).
    { destruct (read_number _ _ _ _ first L3) as [[t L4]| |] eqn:E4; cbn [bind] in E; try discriminate. apply read_number_quiet in E4; [|exact E3]. q. }
    destruct (is_ident_byte first).
    { unfold read_ident in E. destruct (ident_loop _ _ _) as [[[b w] L4]| |] eqn:E4; cbn [bind] in E; try discriminate. apply ident_quiet in E4; [|exact E3].
      rewrite E4 in E. q. }
    destruct (first =? 92); [eapply IH; [exact E|exact Hh|exact E3]|].
    destruct (first =? 64).
    { destruct (read_raw_string F L3) as [[t L4]| |] eqn:E4; cbn [bind] in E; try discriminate. apply read_raw_quiet in E4; [|exact E3]. q. }
    eapply IH; [exact E|exact Hh|]. destruct fi; exact E3.
Qed.
Lemma token_next_quiet : forall L loc t L', token_next L = Ok (Some (loc, t), L') -> t <> TPunct F PHash -> dir L = DNone -> dir L' = DNone.
Proof using Type.
  intros L loc t L' E Ht H. eapply token_loop_quiet; [exact E| |exact H]. intros l' Q. injection Q as _ Q. auto.
Qed.
End TOKEN.
