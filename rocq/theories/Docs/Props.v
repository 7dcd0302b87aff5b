(** C17: rendering documentation comments. *)
From Coq Require Import List NArith Bool Lia Arith String.
From Verif Require Import Common.Text Common.TextFacts Lsp.Document Lsp.DocumentProps Docs.Model Docs.Spec Docs.Proofs.
Import ListNotations.
Open Scope nat_scope.

(** The rendering of one comment never panics (no slice out of range or inside a character); it appends the cleaned
    lines, and says whether there was anything to append. *)
Theorem C17_simplify : forall out t ic, exists r b, simplify out t ic = Some (out ++ r, b) /\
  cleaned ic (lines t) r /\ (b = true <-> ~ blank ic t) /\ (b = true <-> r <> []).
Proof.
  intros out t ic. destruct (simplify_spec out t ic) as (r & Hc & [[Hb [Hr Hs]]|[Hb [Hr Hs]]]); rewrite Hs; exists r.
  - exists false. subst r. rewrite app_nil_r. split; [reflexivity|]. split; [exact Hc|]. apply lines_blank in Hb.
    split; split; congruence || tauto || (intro H; congruence).
  - exists true. split; [reflexivity|]. split; [exact Hc|]. rewrite lines_blank in Hb. split; split; tauto.
Qed.

(** The specification leaves no choice. *)
Lemma longest_front_unique : forall ic ls p q l, In l ls -> ~ blank ic l -> longest (common_front ic ls) p -> longest (common_front ic ls) q -> p = q.
Proof.
  intros ic ls p q l Hin Hl [Hp Mp] [Hq Mq]. pose proof (Mp q Hq). pose proof (Mq p Hp).
  destruct (proj2 Hp l Hin Hl) as [r1 E1]. destruct (proj2 Hq l Hin Hl) as [r2 E2].
  assert (E : p ++ r1 = q ++ r2) by congruence.
  apply (f_equal (firstn (List.length p))) in E. rewrite firstn_app, Nat.sub_diag, firstn_O, app_nil_r, firstn_all in E.
  replace (List.length p) with (List.length q) in E by lia.
  rewrite firstn_app, Nat.sub_diag, firstn_O, app_nil_r, firstn_all in E. exact E.
Qed.
Lemma longest_back_unique : forall ic ls p q l, In l ls -> ~ blank ic l -> longest (common_back ic ls) p -> longest (common_back ic ls) q -> p = q.
Proof.
  intros ic ls p q l Hin Hl [Hp Mp] [Hq Mq]. pose proof (Mp q Hq). pose proof (Mq p Hp).
  destruct (proj2 Hp l Hin Hl) as [r1 E1]. destruct (proj2 Hq l Hin Hl) as [r2 E2].
  assert (E : r1 ++ p = r2 ++ q) by congruence.
  assert (Hlen : List.length r1 = List.length r2) by (apply (f_equal (@List.length chr)) in E; rewrite !app_length in E; lia).
  apply (f_equal (skipn (List.length r1))) in E. rewrite skipn_app, Nat.sub_diag, skipn_O, skipn_all in E. cbn [app] in E.
  rewrite Hlen, skipn_app, Nat.sub_diag, skipn_O, skipn_all in E. exact E.
Qed.
Lemma core_ends : forall ic ls core, ends_trimmed ic ls core ->
  exists before after f r l r', ls = before ++ core ++ after /\ Forall (blank ic) before /\ Forall (blank ic) after /\
    core = f :: r /\ core = r' ++ [l] /\ ~ blank ic f /\ ~ blank ic l.
Proof.
  intros ic ls core (before & after & E & Hb & Ha & f & mid & l & Hf & Hl & Hc). exists before, after.
  destruct Hc as [->| ->].
  - exists f, [], f, []. repeat split; assumption.
  - exists f, (mid ++ [l]), l, (f :: mid). repeat split; assumption.
Qed.
Lemma blank_front_unique : forall (P : text -> Prop) (b1 b2 : list text) f1 f2 t1 t2, Forall P b1 -> Forall P b2 -> ~ P f1 -> ~ P f2 ->
  b1 ++ f1 :: t1 = b2 ++ f2 :: t2 -> b1 = b2.
Proof.
  intros P. induction b1 as [|x b1 IH]; intros [|y b2] f1 f2 t1 t2 H1 H2 N1 N2 E; cbn [app] in E.
  - reflexivity.
  - injection E as E1 E2. subst y. inversion H2; contradiction.
  - injection E as E1 E2. subst x. inversion H1; contradiction.
  - injection E as E1 E2. subst y. f_equal. exact (IH b2 f1 f2 t1 t2 (Forall_inv_tail H1) (Forall_inv_tail H2) N1 N2 E2).
Qed.
Lemma core_unique : forall ic ls c1 c2, ends_trimmed ic ls c1 -> ends_trimmed ic ls c2 -> c1 = c2.
Proof.
  intros ic ls c1 c2 H1 H2.
  destruct (core_ends _ _ _ H1) as (b1 & a1 & f1 & r1 & l1 & q1 & E1 & B1 & A1 & C1 & D1 & F1 & L1).
  destruct (core_ends _ _ _ H2) as (b2 & a2 & f2 & r2 & l2 & q2 & E2 & B2 & A2 & C2 & D2 & F2 & L2).
  assert (Eb : b1 = b2).
  { apply (blank_front_unique (blank ic) b1 b2 f1 f2 (r1 ++ a1) (r2 ++ a2) B1 B2 F1 F2).
    rewrite E1, C1, C2 in E2. exact E2. }
  subst b2. rewrite E1 in E2. apply app_inv_head in E2.
  assert (Ea : rev a1 = rev a2).
  { apply (blank_front_unique (blank ic) (rev a1) (rev a2) l1 l2 (rev q1) (rev q2)); try assumption; try (apply Forall_rev; assumption).
    rewrite D1, D2 in E2. apply (f_equal (@rev text)) in E2. rewrite !rev_app_distr in E2. cbn [rev app] in E2. exact E2. }
  apply (f_equal (@rev text)) in Ea. rewrite !rev_involutive in Ea. subst a2. apply app_inv_tail in E2. exact E2.
Qed.
Lemma blank_dec : forall ic l, {blank ic l} + {~ blank ic l}.
Proof. intros ic l. destruct (is_empty l ic) eqn:E; [left; apply empty_iff | right; apply empty_false]; exact E. Qed.
Theorem C17_unique : forall ic ls r1 r2, cleaned ic ls r1 -> cleaned ic ls r2 -> r1 = r2.
Proof.
  assert (Hx : forall ic ls core, Forall (blank ic) ls -> ends_trimmed ic ls core -> False).
  { intros ic ls core Hb H. destruct (core_ends _ _ _ H) as (b1 & a1 & f1 & r1 & l1 & q1 & E1 & _ & _ & C1 & _ & F1 & _).
    rewrite Forall_forall in Hb. apply F1, Hb. rewrite E1, C1. apply in_or_app. right. left. reflexivity. }
  intros ic ls r1 r2 [[B1 ->]|(p1 & s1 & c1 & o1 & P1 & S1 & T1 & F1 & ->)] [[B2 ->]|(p2 & s2 & c2 & o2 & P2 & S2 & T2 & F2 & ->)].
  - reflexivity.
  - elim (Hx _ _ _ B1 T2).
  - elim (Hx _ _ _ B2 T1).
  - pose proof (core_unique _ _ _ _ T1 T2). subst c2.
    destruct (core_ends _ _ _ T1) as (b & a & f & r & l & q & E & _ & _ & C & _ & Nf & _).
    assert (Hin : In f ls) by (rewrite E, C; apply in_or_app; right; left; reflexivity).
    pose proof (longest_front_unique _ _ _ _ f Hin Nf P1 P2). pose proof (longest_back_unique _ _ _ _ f Hin Nf S1 S2). subst p2 s2.
    f_equal. clear -F1 F2. revert o2 F2. induction F1 as [|x y c o Hxy _ IH]; intros o2 F2; inversion F2 as [|? z ? o2' Hxz Ho2]; subst; [reflexivity|].
    f_equal; [|apply IH; assumption]. destruct Hxy as [[Hb ->]|[Hb ->]], Hxz as [[Hb' ->]|[Hb' Ez]]; try contradiction; [reflexivity|].
    apply app_inv_head in Ez. apply app_inv_tail in Ez. exact Ez.
Qed.

(** *** A whole collection *)
(** the comments a piece stands for *)
Definition comments_of (p : piece) : list doc_comment :=
  match p with
  | PBlock t => [{| kind := Block; body := t |}]
  | PLines ts => map (fun t => {| kind := Line; body := t |}) ts
  end.

Lemma text_loop_spec : forall elems output ts, exists ps rs r,
  text_loop elems output (flat_map (fun t => t ++ [10%N]) ts) = Some (output ++ r) /\
  map (fun t => {| kind := Line; body := t |}) ts ++ elems = flat_map comments_of ps /\ alternating ps /\
  Forall2 rendered_piece ps rs /\ r = List.concat rs.
Proof.
  assert (Hflush : forall ts output, exists r, flush output (flat_map (fun t => t ++ [10%N]) ts) = Some (output ++ r) /\
            cleaned 47 (lines (flat_map (fun t => t ++ [10%N]) ts)) r).
  { intros ts output. destruct (C17_simplify output (flat_map (fun t => t ++ [10%N]) ts) 47) as (r & b & E & Hc & _ & _).
    unfold flush. destruct (flat_map (fun t => t ++ [10%N]) ts) as [|x l] eqn:El.
    - exists []. rewrite app_nil_r. split; [reflexivity|]. left. split; [constructor | reflexivity].
    - exists r. rewrite E. split; [reflexivity | exact Hc]. }
  induction elems as [|e elems IH]; intros output ts.
  - cbn [text_loop]. destruct (Hflush ts output) as (r & E & Hc). rewrite E. exists [PLines ts], [r], r.
    split; [reflexivity|]. split; [cbn [flat_map comments_of]; reflexivity|]. split; [exact I|].
    split; [constructor; [constructor; exact Hc | constructor]|]. cbn [List.concat]. rewrite app_nil_r. reflexivity.
  - cbn [text_loop]. destruct e as [k t]. cbn [kind body]. destruct k.
    + destruct (Hflush ts output) as (r & E & Hc). rewrite E. unfold comment_is_empty. cbn [kind body ignore_char].
      destruct (is_empty t 42) eqn:Eb.
      * apply empty_iff in Eb. destruct (IH (output ++ r) []) as (ps & rs & r' & E1 & E2 & Halt & Hps & ->).
        cbn [flat_map] in E1. rewrite E1. cbn [map app] in E2. exists (PLines ts :: PBlock t :: ps), (r :: [] :: rs), (r ++ List.concat rs).
        split; [rewrite <- app_assoc; reflexivity|].
        split; [cbn [flat_map comments_of]; rewrite E2; reflexivity|]. split; [exact Halt|].
        split; [|reflexivity]. constructor; [constructor; exact Hc|]. constructor; [constructor; exact Eb | exact Hps].
      * apply empty_false in Eb. destruct (C17_simplify ((output ++ r) ++ [NL]) t 42) as (r1 & b & Es & Hc1 & Hb1 & _). rewrite Es.
        destruct b; [|exfalso; assert (false = true) by (apply Hb1; exact Eb); discriminate].
        destruct (IH ((((output ++ r) ++ [NL]) ++ r1) ++ [NL]) []) as (ps & rs & r' & E1 & E2 & Halt & Hps & ->).
        cbn [flat_map] in E1. rewrite E1. cbn [map app] in E2.
        exists (PLines ts :: PBlock t :: ps), (r :: (10%N :: r1 ++ [10%N]) :: rs), (r ++ (10%N :: r1 ++ [10%N]) ++ List.concat rs).
        split; [f_equal; rewrite <- !app_assoc; cbn [app]; rewrite <- !app_assoc; reflexivity|].
        split; [cbn [flat_map comments_of]; rewrite E2; reflexivity|]. split; [exact Halt|].
        split; [|reflexivity]. constructor; [constructor; exact Hc|]. constructor; [constructor; assumption | exact Hps].
    + destruct (IH output (ts ++ [t])) as (ps & rs & r' & E1 & E2 & Halt & Hps & Hr).
      rewrite flat_map_app in E1. cbn [flat_map] in E1. rewrite app_nil_r in E1. unfold NL. rewrite E1.
      exists ps, rs, r'. split; [reflexivity|]. split; [|split; [exact Halt | split; assumption]].
      rewrite <- E2, map_app, <- app_assoc. reflexivity.
Qed.

(** Rendering a collection never panics.  The collection is cut into blocks and maximal runs of line comments, and the
    result is the renderings of the pieces one after the other. *)
Theorem C17_text : forall elems, exists ps rs r, doc_text elems = Some r /\
  elems = flat_map comments_of ps /\ alternating ps /\ Forall2 rendered_piece ps rs /\ r = List.concat rs.
Proof.
  intro elems. destruct (text_loop_spec elems [] []) as (ps & rs & r & E1 & E2 & H). cbn [flat_map map app] in *.
  exists ps, rs, r. split; [exact E1|]. split; [exact E2 | exact H].
Qed.

Lemma blank_lines_joined : forall ts, blank 47 (flat_map (fun t => t ++ [10%N]) ts) <-> Forall (blank 47) ts.
Proof.
  induction ts as [|t ts IH]; [split; intros _; constructor|]. cbn [flat_map]. unfold blank at 1. rewrite !Forall_app.
  fold (blank 47 (flat_map (fun t => t ++ [10%N]) ts)). fold (blank 47 t). rewrite IH. split.
  - intros [[H _] H']. constructor; assumption.
  - intro H. inversion H; subst. split; [split; [assumption|]|assumption]. constructor; [apply nl_marginal | constructor].
Qed.
Lemma cleaned_nil : forall ic t r, cleaned ic (lines t) r -> (r = [] <-> blank ic t).
Proof.
  intros ic t r H. destruct (C17_simplify [] t ic) as (r' & b & _ & H' & Hb & Hr). rewrite (C17_unique _ _ _ _ H H').
  destruct (blank_dec ic t) as [Ht|Ht].
  - split; [intros _; exact Ht|]. intros _. destruct r'; [reflexivity|]. exfalso. apply (proj1 Hb); [apply Hr; discriminate | exact Ht].
  - split; [|contradiction]. intro E. exfalso. apply (proj1 Hr); [apply Hb; exact Ht | exact E].
Qed.
(** The rendering is empty exactly when every comment is blank, which is what [is_empty] tells. *)
Theorem C17_empty : forall elems,
  (collection_is_empty elems = true <-> forall c, In c elems -> blank (ignore_char (kind c)) (body c)) /\
  (collection_is_empty elems = true <-> doc_text elems = Some []).
Proof.
  intro elems.
  assert (H1 : collection_is_empty elems = true <-> forall c, In c elems -> blank (ignore_char (kind c)) (body c)).
  { unfold collection_is_empty. rewrite forallb_forall. unfold comment_is_empty. split; intros H c Hc; apply empty_iff, H, Hc. }
  split; [exact H1|]. rewrite H1. destruct (C17_text elems) as (ps & rs & r & E & -> & _ & Hps & ->). rewrite E. clear E H1.
  assert (G : (forall c, In c (flat_map comments_of ps) -> blank (ignore_char (kind c)) (body c)) <-> List.concat rs = []).
  { induction Hps as [|q x ps rs Hq _ IH]; [split; [reflexivity | intros _ c []]|]. cbn [flat_map List.concat].
    assert (Hq' : (forall c, In c (comments_of q) -> blank (ignore_char (kind c)) (body c)) <-> x = []).
    { destruct Hq as [t Ht|t r Ht Hr|ts r Hr]; cbn [comments_of].
      - split; [reflexivity|]. intros _ c [<-|[]]. exact Ht.
      - split; [|discriminate]. intro H. elim Ht. exact (H {| kind := Block; body := t |} (or_introl eq_refl)).
      - rewrite (cleaned_nil _ _ _ Hr), blank_lines_joined, Forall_forall. split.
        + intros H t Ht. apply (H {| kind := Line; body := t |}). apply in_map_iff. exists t. split; [reflexivity | exact Ht].
        + intros H c Hc. apply in_map_iff in Hc. destruct Hc as (t & <- & Ht). exact (H t Ht). }
    split.
    - intro H. rewrite (proj1 Hq'), (proj1 IH); [reflexivity| |]; intros c Hc; apply H, in_or_app; [right | left]; exact Hc.
    - intro H. apply app_eq_nil in H. destruct H as [Hx Hrs]. intros c Hc. apply in_app_or in Hc. destruct Hc as [Hc|Hc];
        [apply (proj2 Hq' Hx c Hc) | apply (proj2 IH Hrs c Hc)]. }
  rewrite G. split; [intros ->; reflexivity | intro H; injection H as H; exact H].
Qed.

(** *** Concrete cases *)
Example C17_demo :
  simplify [] (lit "
	 * First
	 *
	 *   second é
	 ") 42 = Some (lit "First

  second é", true).
Proof. vm_compute. reflexivity. Qed.
Example C17_text_demo :
  doc_text [ {| kind := Line; body := lit " one" |}; {| kind := Line; body := lit " two" |}; {| kind := Block; body := lit "* " |};
             {| kind := Block; body := lit " three " |} ] = Some (lit "one
two
three
").
Proof. vm_compute. reflexivity. Qed.

Print Assumptions C17_simplify.
Print Assumptions C17_unique.
Print Assumptions C17_text.
Print Assumptions C17_empty.
