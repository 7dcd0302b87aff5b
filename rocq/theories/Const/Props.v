(** C46: the printed form of a constant evaluates to that constant. *)
From Coq Require Import List NArith ZArith Bool String Lia.
From Verif Require Import Common.Text Common.Utf8 Loc.Model Lexer.Tracker Lexer.Punct Lexer.Model Lexer.Spec Lexer.LexProps Lexer.QuoteProps
  Parse.Ast Parse.Model Parse.Spec Parse.Props Const.Model Const.Spec Const.Lexing Const.Texts Const.Roundtrip.
Import ListNotations.
Open Scope nat_scope.

Section PROPS.
Variable F : Type.
Variable fl : f32 F.
Notation P p := (TPunct F p).
Notation constant := (constant F).
Notation show := (show F fl).
Notation evaluate_str := (evaluate_str F fl).

(** the key of an argument: [term] of [Term::from] is [expr] *)
Lemma ev_key {St : Type} (E : env F St) : forall e s, ev_term F fl E (term_from F e) None s = ev_expr F fl E e None s.
Proof using Type.
  fix IH 1. intros [t fs|op l r|op l r|c a b] s; [|reflexivity|reflexivity|reflexivity].
  destruct fs as [|f fs]; [|reflexivity].
  assert (Hb : forall t0, ev_expr F fl E (Base t0 []) None s = ev_term F fl E t0 None s).
  { intro t0. rewrite ev_base. destruct (ev_term F fl E t0 None s); reflexivity. }
  destruct t; try (cbn [term_from]; rewrite Hb; reflexivity).
  cbn [term_from]. rewrite Hb. rewrite IH. reflexivity.
Qed.

Lemma spelt_nodoc bytes ts : spelt F fl bytes ts -> Forall (fun t => is_doc F t = false) ts.
Proof using Type.
  induction 1 as [|w t r ts Hx Hs IH|w t r ts Hx Hs IH]; [repeat constructor| |]; (constructor; [destruct Hx; reflexivity|exact IH]).
Qed.
Lemma filter_nodoc (ts : list (token F)) (bs : list (list N)) : Forall (fun t => is_doc F t = false) ts -> filter (fun x => negb (is_doc F (fst x))) (combine ts bs) = combine ts bs.
Proof using Type.
  intro H. revert bs. induction H as [|t ts Ht H IH]; intros [|b bs]; try reflexivity. cbn [combine filter fst]. rewrite Ht. cbn [negb]. f_equal. apply IH.
Qed.
Lemma left_over_nth n (ts : list (token F)) (bs : list (list N)) : Forall (fun t => is_doc F t = false) ts -> List.length bs = List.length ts -> 1 <= n <= List.length ts ->
  left_over F n (combine ts bs) = nth (List.length ts - n) bs [].
Proof using Type.
  intro H. revert bs. induction H as [|t ts Ht H IH]; intros [|b bs] Hl Hn; cbn [List.length] in Hl, Hn; try lia.
  cbn [combine]. unfold left_over; fold (left_over F). change ((t, b) :: combine ts bs) with (combine (t :: ts) (b :: bs)).
  rewrite (filter_nodoc (t :: ts) (b :: bs)) by (constructor; assumption). rewrite combine_length. cbn [List.length]. rewrite Ht. cbn [negb andb].
  replace (Nat.min (S (List.length ts)) (S (List.length bs))) with (S (List.length ts)) by lia.
  destruct (Nat.eqb_spec (S (List.length ts)) n) as [Hs|Hs].
  - rewrite Hs, Nat.sub_diag. reflexivity.
  - rewrite (IH bs ltac:(lia) ltac:(lia)). replace (S (List.length ts) - n) with (S (List.length ts - n)) by lia. reflexivity.
Qed.
Lemma map_fst_combine (ts : list (token F)) (bs : list (list N)) : List.length bs = List.length ts -> map fst (combine ts bs) = ts.
Proof using Type. revert bs. induction ts as [|t ts IH]; intros [|b bs] H; cbn in H |- *; try lia; [reflexivity|]. f_equal. apply IH. lia. Qed.

Lemma show_first c : ok F fl c -> exists b r, encode (show c) = b :: r /\ b <> 32%N.
Proof using Type.
  assert (Hl : forall w v, literal F fl w v -> exists b r, w = b :: r /\ b <> 32%N).
  { intros w v H. pose proof (literal_first F fl w v [] H) as Hf. rewrite app_nil_r in Hf. destruct w as [|b w]; [|exists b, w; split; [reflexivity|cbn in Hf; unfold digit in Hf; lia]].
    exfalso. inversion H; subst; try congruence. destruct i; [congruence|discriminate]. }
  intro H. destruct H as [|p a _ _|l _|f l _|p H|s H|s _|f H].
  - eexists _, _. split; [reflexivity|discriminate].
  - change (show (CNew p a)) with (lit "new" ++ (match p with Some q => lit " " ++ show_pop F fl q | None => [] end) ++ (match a with Some l => lit "(" ++ show_args F show true l ++ lit ")" | None => [] end)).
    rewrite encode_app. eexists _, _. split; [reflexivity|discriminate].
  - change (show (CList l)) with (lit "list(" ++ show_elements F show true false l ++ lit ")"). rewrite encode_app. eexists _, _. split; [reflexivity|discriminate].
  - change (show (CCall f l)) with (fn_name f ++ lit "(" ++ show_args F show true l ++ lit ")"). rewrite encode_app. destruct f; (eexists _, _; split; [reflexivity|discriminate]).
  - destruct H as [path vars Hne _ _ _]. destruct path as [|i path]; [congruence|]. change (show (CPrefab (Pop (i :: path) vars))) with ((lit "/" ++ (i ++ show_path path)) ++ show_vars F show true vars) || idtac.
    cbn [Const.Model.show show_pop]. unfold show_path. cbn [map List.concat]. rewrite <- !app_assoc, encode_app. eexists _, _. split; [reflexivity|discriminate].
  - cbn [Const.Model.show]. unfold quote. destruct (contains _ s); [|destruct (_ || _)]; rewrite encode_app; (eexists _, _; split; [reflexivity|discriminate]).
  - cbn [Const.Model.show]. rewrite encode_app. eexists _, _. split; [reflexivity|discriminate].
  - cbn [Const.Model.show]. destruct H as [H|(w & v & -> & H & _)].
    + rewrite (literal_ascii F fl _ _ H). eapply Hl. exact H.
    + rewrite encode_app. eexists _, _. split; [reflexivity|discriminate].
Qed.

(** What [evaluate_str] makes of a text that spells an expression and at most one token more: the expression's value *)
Lemma evaluate_spelt rgb l bytes te e A rest : place_valid l -> bytes <> [] -> hd 0%N bytes <> 32%N -> spelt F fl bytes (te ++ rest ++ [P PNewline]) -> List.length rest <= 1 ->
  sp_expr F 14 false e te A -> ends_before F 14 A (rest ++ [P PNewline]) -> evaluate_str rgb l bytes = simple_evaluate F fl rgb e \/ List.length rest = 1.
Proof using Type.
  intros Hl Hne Hsp Hs Hr He Hend. destruct (spelt_tokens F fl l bytes _ Hl Hne Hsp Hs) as (t & bs & Et & Etr & Hlen).
  unfold Const.Model.evaluate_str. rewrite Et. cbv zeta. rewrite Etr.
  assert (Hlen' : List.length (bs ++ [[]]) = List.length (te ++ rest ++ [P PNewline])) by (rewrite app_length; cbn [List.length]; lia).
  pose proof (spelt_nodoc _ _ Hs) as Hnd.
  rewrite (map_fst_combine _ _ Hlen').
  assert (Hrd : reads F (te ++ rest ++ [P PNewline]) e (rest ++ [P PNewline])).
  { apply C44_parser_is_grammar. exists te, A. split; [apply no_docs; exact Hnd|]. split; assumption. }
  unfold reads in Hrd. rewrite Hrd. rewrite (left_over_nth _ _ _ Hnd Hlen') by (rewrite !app_length; cbn [List.length]; lia).
  destruct rest as [|x [|? ?]]; [|right; reflexivity|cbn in Hr; lia]. left.
  cbn [app List.length] in *. rewrite app_length in *. cbn [List.length] in *. replace (List.length te + 1 - 1) with (List.length bs) by lia. rewrite nth_middle. reflexivity.
Qed.

(** Printing a constant and evaluating the text gives the constant back. *)
Theorem C46_roundtrip rgb l c : place_valid l -> ok F fl c -> evaluate_str rgb l (encode (show c)) = Some c.
Proof using Type.
  intros Hl Hc. destruct (proj1 (all_good F fl (no_env F rgb)) c Hc [] [] [P PNewline] (or_introl eq_refl) (sp_end F fl) (or_introl eq_refl)) as (te & e & A & S1 & G1 & A1 & V1 & _).
  cbn [app] in S1. rewrite app_nil_r in S1. destruct (show_first c Hc) as (b & r & Eb & Hb).
  destruct (evaluate_spelt rgb l (encode (show c)) te e A [] Hl) as [->|Q]; [rewrite Eb; discriminate|rewrite Eb; exact Hb|exact S1|cbn; lia|apply S_group; exact G1| | |discriminate Q].
  - split; [cbn [app delimited]; apply A1; cbn; tauto|]. cbn. repeat split; intros; discriminate || congruence.
  - unfold simple_evaluate. rewrite V1. reflexivity.
Qed.
(** So different constants have different texts. *)
Corollary C46_injective c d : ok F fl c -> ok F fl d -> show c = show d -> c = d.
Proof using Type.
  intros Hc Hd E. pose (l := (0, (1, 1))%Z : loc). assert (Hl : place_valid l) by (unfold place_valid; cbn; lia).
  pose proof (C46_roundtrip (fun _ => None) l c Hl Hc) as H1. pose proof (C46_roundtrip (fun _ => None) l d Hl Hd) as H2. rewrite E in H1. congruence.
Qed.
End PROPS.
