(** The parser of expressions and the grammar describe the same language: C44, C45. *)
From Coq Require Import List NArith ZArith Bool String Lia.
From Verif Require Import Common.Text Lexer.Punct Lexer.Model Parse.Ast Parse.Model Parse.Spec Parse.Facts Parse.Grow
  Parse.Term Parse.Gram Parse.Sound Parse.Sound2 Parse.Mono Parse.Complete Parse.Complete2 Parse.Complete3.
Import ListNotations.
Open Scope nat_scope.

Section PROPS.
Variable F : Type.
Notation tok := (token F).
Notation expr := (expr F).
Notation P p := (TPunct F p).

(** Documentation comments are not part of an expression. *)
Definition without_docs (ts : list tok) : list tok := filter (fun t => match t with TDoc _ _ _ _ => false | _ => true end) ts.
Lemma without_docs_eq ts : filter (fun t => negb (is_doc F t)) ts = without_docs ts.
Proof using Type. unfold without_docs. induction ts as [|[] ts IH]; cbn; rewrite ?IH; reflexivity. Qed.
Lemma no_docs ts : Forall (fun t => is_doc F t = false) ts -> without_docs ts = ts.
Proof using Type.
  intros H. rewrite <- without_docs_eq. induction H as [|x l Hx Hl IH]; [reflexivity|]. cbn [filter]. rewrite Hx. cbn [negb]. rewrite IH. reflexivity.
Qed.

(** [parse_expression] reads [e] from [ts] without a word of complaint and leaves [rest]. *)
Definition reads (ts : list tok) (e : expr) (rest : list tok) : Prop := parse_expression F ts = Some (Some e, [], rest).

(** Parsing ends for every input. *)
Theorem C44_terminates (ts : list tok) : parse_expression F ts <> None.
Proof using Type.
  unfold parse_expression. set (ts' := filter _ ts).
  pose proof (e_expr F _ _ (run_enough F (parse_fuel F ts')) None false (mk F ts' [])) as H.
  unfold parse_fuel in H. cbn [toks mk] in H. specialize (H ltac:(lia)). unfold mk in H.
  unfold parse_fuel. destruct (f_expr F _ None false _) as [[e|] s|s|]; try discriminate. congruence.
Qed.

(** The expression that is read without complaint is the one the grammar gives, and ends where the grammar ends it; and
    whatever the grammar has as a whole expression is read that way. *)
Theorem C44_parser_is_grammar (ts : list tok) (e : expr) (rest : list tok) :
  reads ts e rest <->
  exists pre A, without_docs ts = pre ++ rest /\ sp_expr F 14 false e pre A /\ ends_before F 14 A rest.
Proof using Type.
  unfold reads, parse_expression. rewrite without_docs_eq. set (ts' := without_docs ts).
  pose proof (e_expr F _ _ (run_enough F (parse_fuel F ts')) None false (mk F ts' [])) as H.
  cbn [toks mk] in H. specialize (H ltac:(unfold parse_fuel; lia)). unfold mk in H.
  split.
  - intros E. destruct (f_expr F _ None false _) as [[e'|] s|s|] eqn:Q; try discriminate. injection E as -> Ed <-.
    apply (s_expr F _ (run_sound F (parse_fuel F ts'))) in Q; [|exact Ed].
    destruct Q as (pre & A & E1 & E2 & E3). exists pre, A. cbn [toks] in E1. auto.
  - intros (pre & A & Et & D & He).
    destruct (complete F None false e pre A rest [] D He) as [N HN].
    specialize (HN (Nat.max N (parse_fuel F ts')) ltac:(lia)). rewrite <- Et in HN.
    destruct (b_expr F _ _ (run_mono F (parse_fuel F ts') (Nat.max N (parse_fuel F ts')) ltac:(lia)) None false (mk F ts' [])) as [Q|Q].
    + unfold mk in Q. congruence.
    + unfold mk in *. rewrite Q, HN. reflexivity.
Qed.

(** The grammar is unambiguous, even about where an expression ends. *)
Theorem C44_unambiguous (pre pre' rest rest' : list tok) (e e' : expr) A A' :
  Forall (fun t => is_doc F t = false) (pre ++ rest) ->
  pre ++ rest = pre' ++ rest' ->
  sp_expr F 14 false e pre A -> ends_before F 14 A rest ->
  sp_expr F 14 false e' pre' A' -> ends_before F 14 A' rest' ->
  e = e' /\ pre = pre' /\ rest = rest'.
Proof using Type.
  intros Hd E D H D' H'.
  assert (W : without_docs (pre ++ rest) = pre ++ rest).
  { apply no_docs, Hd. }
  assert (R1 : reads (pre ++ rest) e rest) by (apply C44_parser_is_grammar; exists pre, A; auto).
  assert (R2 : reads (pre ++ rest) e' rest') by (apply C44_parser_is_grammar; exists pre', A'; rewrite W; auto).
  unfold reads in *. rewrite R1 in R2. injection R2 as <- <-. split; [reflexivity|]. split; [|reflexivity].
  exact (app_inv_tail _ _ _ E).
Qed.

(** ** C45: which operand belongs to which operator *)
(** the infix operators with two operands: level, whether they group to the right, and the expression they form *)
Definition infix (p : punct) : option (nat * bool * (expr -> expr -> expr)) :=
  match binary_op p, assign_op p, p with
  | Some (n, op), _, _ => Some (n, false, Bin op)
  | None, Some op, _ => Some (13, true, Assign op)
  | None, None, PIn => Some (14, false, Bin BIn)
  | None, None, _ => None
  end.
Lemma infix_cases p n r b : infix p = Some (n, r, b) ->
  (exists op, binary_op p = Some (n, op) /\ r = false /\ b = Bin op /\ 1 <= n <= 11) \/
  (exists op, assign_op p = Some op /\ r = true /\ b = Assign op /\ n = 13) \/
  (p = PIn /\ r = false /\ b = Bin BIn /\ n = 14).
Proof using Type.
  intros H. destruct p; cbn in H; try discriminate; injection H as <- <- <-;
    first [ left; eexists; split; [reflexivity|]; repeat split; lia
          | right; left; eexists; repeat split; reflexivity
          | right; right; repeat split; reflexivity ].
Qed.
Lemma infix_derives p n r b (x y : expr) tx X ty Y (l : nat) t : infix p = Some (n, r, b) -> n <= l ->
  sp_expr F (if r then n - 1 else n) t x tx X -> X (P p) = false -> sp_expr F (if r then n else n - 1) t y ty Y ->
  exists Z, sp_expr F l t (b x y) (tx ++ P p :: ty) Z /\
    forall z, Y z = false -> the_word F (lit "to") z = false -> Z z = false.
Proof using Type.
  intros H Hl Dx HX Dy. destruct (infix_cases _ _ _ _ H) as [(op & E & -> & -> & Hn)|[(op & E & -> & -> & ->)|(-> & -> & -> & ->)]].
  - eexists; split; [eapply S_binary; eassumption|]. intros z HY _; exact HY.
  - eexists; split; [eapply S_assign; eassumption|]. intros z HY _; exact HY.
  - eexists; split; [eapply S_in; eassumption|]. intros z HY HT; unfold either; rewrite HT; exact HY.
Qed.

(** In [a p b q c], with operands that are not themselves operator expressions, [b] goes to the operator that binds
    tighter; among operators of one level to the left one, except that assignments group to the right. *)
Theorem C45_precedence (p q : punct) (n m : nat) (rp rq : bool) (fp fq : expr -> expr -> expr)
    (a b c : expr) (ta tb tc rest : list tok) A B C (ts : list tok) :
  infix p = Some (n, rp, fp) -> infix q = Some (m, rq, fq) ->
  sp_group F false a ta A -> A (P p) = false ->
  sp_group F false b tb B -> B (P q) = false ->
  sp_group F false c tc C -> ends_before F 14 C rest -> delimited F (the_word F (lit "to")) rest ->
  without_docs ts = (ta ++ P p :: tb ++ P q :: tc) ++ rest ->
  reads ts (if (n <? m) || ((n =? m) && negb rp) then fq (fp a b) c else fp a (fq b c)) rest.
Proof using Type.
  intros Hp Hq Ga HA Gb HB Gc HC Ht E. apply C44_parser_is_grammar.
  assert (Br : n = m -> rp = rq).
  { intros ->. destruct (infix_cases _ _ _ _ Hp) as [(? & _ & -> & _ & ?)|[(? & _ & -> & _ & ?)|(_ & -> & _ & ?)]];
    destruct (infix_cases _ _ _ _ Hq) as [(? & _ & -> & _ & ?)|[(? & _ & -> & _ & ?)|(_ & -> & _ & ?)]]; try reflexivity; lia. }
  assert (Bn : 1 <= n <= 14) by (destruct (infix_cases _ _ _ _ Hp) as [(? & _ & _ & _ & ?)|[(? & _ & _ & _ & ?)|(_ & _ & _ & ?)]]; lia).
  assert (Bm : 1 <= m <= 14) by (destruct (infix_cases _ _ _ _ Hq) as [(? & _ & _ & _ & ?)|[(? & _ & _ & _ & ?)|(_ & _ & _ & ?)]]; lia).
  assert (Hr : rq = true -> m = 13) by (destruct (infix_cases _ _ _ _ Hq) as [(? & _ & -> & _ & ?)|[(? & _ & -> & _ & ?)|(_ & -> & _ & ?)]]; congruence).
  assert (Hrp : rp = true -> n = 13) by (destruct (infix_cases _ _ _ _ Hp) as [(? & _ & -> & _ & ?)|[(? & _ & -> & _ & ?)|(_ & -> & _ & ?)]]; congruence).
  assert (Fin : forall Z : swallow F, (forall z, C z = false -> the_word F (lit "to") z = false -> Z z = false) -> ends_before F 14 Z rest).
  { intros Z HZ. destruct HC as [H1 H2]. split; [|exact H2]. destruct rest; [exact I|]. apply HZ; assumption. }
  exists (ta ++ P p :: tb ++ P q :: tc).
  assert (Left : n <= (if rq then m - 1 else m) -> exists Z', without_docs ts = (ta ++ P p :: tb ++ P q :: tc) ++ rest /\
     sp_expr F 14 false (fq (fp a b) c) (ta ++ P p :: tb ++ P q :: tc) Z' /\ ends_before F 14 Z' rest).
  { intros L. destruct (infix_derives p n rp fp a b ta A tb B (if rq then m - 1 else m) false Hp) as (Z & D & HZ);
      [exact L|constructor; exact Ga|exact HA|constructor; exact Gb|].
    destruct (infix_derives q m rq fq (fp a b) c (ta ++ P p :: tb) Z tc C 14 false Hq) as (Z' & D' & HZ');
      [lia|exact D|apply HZ; [exact HB|reflexivity]|constructor; exact Gc|].
    exists Z'. split; [exact E|]. split; [|apply Fin, HZ'].
    replace (ta ++ P p :: tb ++ P q :: tc) with ((ta ++ P p :: tb) ++ P q :: tc) by (rewrite <- app_assoc; reflexivity). exact D'. }
  assert (Right : m <= (if rp then n else n - 1) -> exists Z', without_docs ts = (ta ++ P p :: tb ++ P q :: tc) ++ rest /\
     sp_expr F 14 false (fp a (fq b c)) (ta ++ P p :: tb ++ P q :: tc) Z' /\ ends_before F 14 Z' rest).
  { intros L. destruct (infix_derives q m rq fq b c tb B tc C (if rp then n else n - 1) false Hq) as (Z & D & HZ);
      [exact L|constructor; exact Gb|exact HB|constructor; exact Gc|].
    destruct (infix_derives p n rp fp a (fq b c) ta A (tb ++ P q :: tc) Z 14 false Hp) as (Z' & D' & HZ');
      [lia|constructor; exact Ga|exact HA|exact D|].
    exists Z'. split; [exact E|]. split; [exact D'|]. apply Fin. auto. }
  destruct (Nat.ltb_spec n m) as [L|L]; [|destruct (Nat.eqb_spec n m) as [Q|Q]]; cbn [orb andb].
  - apply Left. destruct rq; lia.
  - specialize (Br Q). subst rq. destruct rp; cbn [negb]; [apply Right|apply Left]; lia.
  - apply Right. destruct rp; lia.
Qed.

(** The conditional: everything that binds tighter goes into its condition; it groups to the right in its last arm and
    nests in its middle one; an assignment in front of it takes it whole. *)
Theorem C45_conditional (p : punct) (n : nat) (rp : bool) (fp : expr -> expr -> expr)
    (a b c d e : expr) (ta tb tc td te rest ts : list tok) A B C D E (k1 k2 : punct) :
  k1 = PColon \/ k1 = PCloseColon -> k2 = PColon \/ k2 = PCloseColon ->
  ends_before F 14 E rest ->
  (* [a p b ? c : e] *)
  (infix p = Some (n, rp, fp) -> n <= 11 ->
   sp_group F false a ta A -> A (P p) = false -> sp_group F false b tb B -> B (P PQuestionMark) = false ->
   sp_group F true c tc C -> C (P k1) = false -> sp_group F true e te E ->
   without_docs ts = (ta ++ P p :: tb ++ P PQuestionMark :: tc ++ P k1 :: te) ++ rest ->
   reads ts (Tern (fp a b) c e) rest) /\
  (* [a = b ? c : e] *)
  (infix p = Some (n, true, fp) ->
   sp_group F false a ta A -> A (P p) = false -> sp_group F false b tb B -> B (P PQuestionMark) = false ->
   sp_group F true c tc C -> C (P k1) = false -> sp_group F true e te E ->
   without_docs ts = (ta ++ P p :: tb ++ P PQuestionMark :: tc ++ P k1 :: te) ++ rest ->
   reads ts (fp a (Tern b c e)) rest) /\
  (* [a ? b : c ? d : e] *)
  (sp_group F false a ta A -> A (P PQuestionMark) = false -> sp_group F true b tb B -> B (P k1) = false ->
   sp_group F true c tc C -> C (P PQuestionMark) = false -> sp_group F true d td D -> D (P k2) = false ->
   sp_group F true e te E ->
   without_docs ts = (ta ++ P PQuestionMark :: tb ++ P k1 :: tc ++ P PQuestionMark :: td ++ P k2 :: te) ++ rest ->
   reads ts (Tern a b (Tern c d e)) rest) /\
  (* [a ? b ? c : d : e] *)
  (sp_group F false a ta A -> A (P PQuestionMark) = false -> sp_group F true b tb B -> B (P PQuestionMark) = false ->
   sp_group F true c tc C -> C (P k1) = false -> sp_group F true d td D -> D (P k2) = false ->
   sp_group F true e te E ->
   without_docs ts = (ta ++ P PQuestionMark :: (tb ++ P PQuestionMark :: tc ++ P k1 :: td) ++ P k2 :: te) ++ rest ->
   reads ts (Tern a (Tern b c d) e) rest).
Proof using Type.
  intros H1 H2 He. repeat split.
  - intros Hp Hn Ga HA Gb HB Gc HC Ge Et. apply C44_parser_is_grammar. eexists _, E. split; [exact Et|]. split; [|exact He].
    destruct (infix_cases _ _ _ _ Hp) as [(op & Ho & -> & -> & Hb)|[(op & Ho & _ & _ & ->)|(_ & _ & _ & ->)]]; try lia.
    replace (ta ++ P p :: tb ++ P PQuestionMark :: tc ++ P k1 :: te) with ((ta ++ P p :: tb) ++ P PQuestionMark :: tc ++ P k1 :: te)
      by (rewrite <- app_assoc; reflexivity).
    eapply S_ternary; [lia| |exact HB|constructor; exact Gc|exact H1|exact HC|constructor; exact Ge].
    eapply S_binary; [exact Ho|lia|constructor; exact Ga|exact HA|constructor; exact Gb].
  - intros Hp Ga HA Gb HB Gc HC Ge Et. apply C44_parser_is_grammar. eexists _, E. split; [exact Et|]. split; [|exact He].
    destruct (infix_cases _ _ _ _ Hp) as [(op & _ & ? & _)|[(op & Ho & _ & -> & ->)|(_ & ? & _)]]; try discriminate.
    eapply S_assign; [exact Ho|lia|constructor; exact Ga|exact HA|].
    eapply S_ternary; [lia|constructor; exact Gb|exact HB|constructor; exact Gc|exact H1|exact HC|constructor; exact Ge].
  - intros Ga HA Gb HB Gc HC Gd HD Ge Et. apply C44_parser_is_grammar. eexists _, E. split; [exact Et|]. split; [|exact He].
    eapply S_ternary; [lia|constructor; exact Ga|exact HA|constructor; exact Gb|exact H1|exact HB|].
    eapply S_ternary; [lia|constructor; exact Gc|exact HC|constructor; exact Gd|exact H2|exact HD|constructor; exact Ge].
  - intros Ga HA Gb HB Gc HC Gd HD Ge Et. apply C44_parser_is_grammar. eexists _, E. split; [exact Et|]. split; [|exact He].
    eapply S_ternary; [lia|constructor; exact Ga|exact HA| |exact H2|exact HD|constructor; exact Ge].
    eapply S_ternary; [lia|constructor; exact Gb|exact HB|constructor; exact Gc|exact H1|exact HC|constructor; exact Gd].
Qed.
End PROPS.
