(** Lemmas about the model of docs.rs. *)
From Coq Require Import List NArith Bool Lia Arith.
From Verif Require Import Common.Text Common.TextFacts Lsp.Document Lsp.DocumentProps Docs.Model Docs.Spec.
Import ListNotations.
Open Scope nat_scope.

Lemma ignored_iff : forall ic c, ignored ic c = true <-> marginal ic c.
Proof. intros ic c. unfold ignored, marginal. rewrite orb_true_iff, N.eqb_eq. reflexivity. Qed.
Lemma empty_iff : forall ic t, is_empty t ic = true <-> blank ic t.
Proof.
  intros ic t. unfold is_empty, blank. rewrite forallb_forall, Forall_forall.
  split; intros H c Hc; apply ignored_iff, H, Hc.
Qed.
Lemma empty_false : forall ic t, is_empty t ic = false <-> ~ blank ic t.
Proof. intros ic t. rewrite <- empty_iff. destruct (is_empty t ic); split; congruence. Qed.

(** the characters [drop_while] drops *)
Fixpoint take_while (f : chr -> bool) (s : text) : text :=
  match s with
  | [] => []
  | c :: s' => if f c then c :: take_while f s' else []
  end.
Lemma take_drop : forall f s, s = take_while f s ++ drop_while f s.
Proof. intros f. induction s as [|c s IH]; [reflexivity|]. cbn [take_while drop_while]. destruct (f c); cbn [app]; [congruence|reflexivity]. Qed.
Lemma take_all : forall f s, Forall (fun c => f c = true) (take_while f s).
Proof. intros f. induction s as [|c s IH]; [constructor|]. cbn [take_while]. destruct (f c) eqn:E; constructor; assumption. Qed.
Lemma drop_head : forall f s c r, drop_while f s = c :: r -> f c = false.
Proof.
  intros f. induction s as [|x s IH]; intros c r; cbn [drop_while]; [discriminate|].
  destruct (f x) eqn:E; [apply IH|]. intro H. injection H as <- _. exact E.
Qed.
Lemma drop_nil : forall f s, drop_while f s = [] -> forallb f s = true.
Proof.
  intros f. induction s as [|x s IH]; cbn [drop_while forallb]; [reflexivity|].
  destruct (f x) eqn:E; [exact IH | discriminate].
Qed.

(** the common prefix *)
Fixpoint lcp (a b : text) : text :=
  match a, b with
  | x :: a', y :: b' => if N.eqb x y then x :: lcp a' b' else []
  | _, _ => []
  end.
Lemma lcp_no_match : forall a b, a = lcp a b ++ no_match a b.
Proof.
  induction a as [|x a IH]; intros [|y b]; cbn [lcp no_match app]; try reflexivity.
  destruct (N.eqb x y); cbn [app]; [rewrite <- IH|]; reflexivity.
Qed.
Definition pre (q t : text) : Prop := exists r, t = q ++ r.
Lemma pre_lcp : forall a b q, pre q (lcp a b) <-> pre q a /\ pre q b.
Proof.
  induction a as [|x a IH]; intros b q.
  - cbn [lcp]. split; [intros [r Hr] | intros [H _]; exact H].
    destruct q; [|discriminate]. split; [exists []; reflexivity | exists b; reflexivity].
  - destruct b as [|y b]; cbn [lcp].
    + split; [intros [r Hr] | intros [_ H]; exact H].
      destruct q; [|discriminate]. split; [exists (x :: a); reflexivity | exists []; reflexivity].
    + destruct q as [|z q].
      { split; intros _; [split|]; eexists; reflexivity. }
      destruct (N.eqb_spec x y) as [->|Hne].
      * split.
        -- intros [r Hr]. cbn [app] in Hr. injection Hr as Hz Hr. subst z.
           destruct (proj1 (IH b q) (ex_intro _ r Hr)) as [[r1 E1] [r2 E2]].
           split; [exists r1 | exists r2]; cbn [app]; congruence.
        -- intros [[r1 E1] [r2 E2]]. cbn [app] in *. injection E1 as Hz E1. injection E2 as _ E2. subst z.
           destruct (proj2 (IH b q) (conj (ex_intro _ r1 E1) (ex_intro _ r2 E2))) as [r Hr]. exists r. cbn [app]. congruence.
      * split; [intros [r Hr]; discriminate|]. intros [[r1 E1] [r2 E2]]. cbn [app] in *. congruence.
Qed.
Lemma pre_length : forall q t, pre q t -> List.length q <= List.length t.
Proof. intros q t [r ->]. rewrite app_length. lia. Qed.
Lemma pre_refl : forall t, pre t t.
Proof. intro t. exists []. symmetry. apply app_nil_r. Qed.

Definition head_margin (ic : chr) (l : text) : text := take_while (ignored ic) l.
Lemma head_margin_iff : forall ic l q, pre q (head_margin ic l) <-> Forall (marginal ic) q /\ pre q l.
Proof.
  intros ic. induction l as [|c l IH]; intros q; unfold head_margin; cbn [take_while].
  - split; [|intros [_ H]; exact H]. intros [r Hr]. destruct q; [|discriminate].
    split; [constructor | exists []; reflexivity].
  - destruct q as [|z q]; [split; [intros _; split; [constructor | exists (c :: l); reflexivity] | intros _; eexists; reflexivity]|].
    destruct (ignored ic c) eqn:E.
    + split.
      * intros [r Hr]. cbn [app] in Hr. injection Hr as Hz Hr. subst z.
        destruct (proj1 (IH q) (ex_intro _ r Hr)) as [Hq [r' Hr']]. split; [constructor; [apply ignored_iff, E | exact Hq]|].
        exists r'. cbn [app]. congruence.
      * intros [Hq [r Hr]]. cbn [app] in Hr. injection Hr as Hz Hr. subst z.
        destruct (proj2 (IH q) (conj (Forall_inv_tail Hq) (ex_intro _ r Hr))) as [r' Hr'].
        unfold head_margin in Hr'. exists r'. cbn [app]. congruence.
    + split; [intros [r Hr]; discriminate|]. intros [Hq [r Hr]]. cbn [app] in Hr. injection Hr as Hz Hr. subst z.
      apply Forall_inv in Hq. apply ignored_iff in Hq. congruence.
Qed.

Lemma slice_front : forall a b, slice 0 (blen (a ++ b) - blen b) (a ++ b) = Some a.
Proof.
  intros a b. rewrite blen_app. replace (blen a + blen b - blen b)%N with (blen (@nil chr ++ a))%N by (cbn [app]; lia).
  change 0%N with (blen []). exact (slice_app [] a b).
Qed.
Lemma slice_back : forall a b, slice (blen a) (blen (a ++ b)) (a ++ b) = Some b.
Proof. intros a b. pose proof (slice_app a b []) as H. rewrite app_nil_r in H. exact H. Qed.

Lemma next_prefix_eq : forall ic po l, next_prefix ic po l =
  Some (match po with None => head_margin ic l | Some p => lcp p (head_margin ic l) end).
Proof.
  intros ic po l. unfold next_prefix, trim_start_matches.
  assert (E : slice 0 (blen l - blen (drop_while (ignored ic) l)) l = Some (head_margin ic l)).
  { pose proof (slice_front (head_margin ic l) (drop_while (ignored ic) l)) as H.
    unfold head_margin in *. rewrite <- (take_drop (ignored ic) l) in H. exact H. }
  rewrite E. destruct po as [p|]; [|reflexivity].
  pose proof (slice_front (lcp p (head_margin ic l)) (no_match p (head_margin ic l))) as H.
  rewrite <- lcp_no_match in H. exact H.
Qed.
Lemma next_suffix_eq : forall ic so l, next_suffix ic so l =
  Some (rev (match so with None => head_margin ic (rev l) | Some s => lcp (rev s) (head_margin ic (rev l)) end)).
Proof.
  intros ic so l. unfold next_suffix, trim_end_matches.
  assert (El : l = rev (drop_while (ignored ic) (rev l)) ++ rev (head_margin ic (rev l))).
  { rewrite <- rev_app_distr. unfold head_margin. rewrite <- take_drop. symmetry. apply rev_involutive. }
  assert (E : slice (blen (rev (drop_while (ignored ic) (rev l)))) (blen l) l = Some (rev (head_margin ic (rev l)))).
  { pose proof (slice_back (rev (drop_while (ignored ic) (rev l))) (rev (head_margin ic (rev l)))) as H.
    rewrite <- El in H. exact H. }
  rewrite E. destruct so as [s|]; [|reflexivity]. rewrite rev_involutive.
  assert (Es : s = rev (no_match (rev s) (head_margin ic (rev l))) ++ rev (lcp (rev s) (head_margin ic (rev l)))).
  { rewrite <- rev_app_distr, <- lcp_no_match. symmetry. apply rev_involutive. }
  pose proof (slice_back (rev (no_match (rev s) (head_margin ic (rev l)))) (rev (lcp (rev s) (head_margin ic (rev l))))) as H.
  rewrite <- Es in H. exact H.
Qed.

(** *** The margins *)
Definition suf (q t : text) : Prop := exists r, t = r ++ q.
Lemma suf_pre : forall q t, suf q t <-> pre (rev q) (rev t).
Proof.
  intros q t. split.
  - intros [r ->]. exists (rev r). apply rev_app_distr.
  - intros [r Hr]. exists (rev r). apply (f_equal (@rev chr)) in Hr. rewrite rev_involutive, rev_app_distr, rev_involutive in Hr. exact Hr.
Qed.
Lemma Forall_rev_iff : forall (P : chr -> Prop) l, Forall P (rev l) <-> Forall P l.
Proof. intros P l. split; intro H; [rewrite <- (rev_involutive l)|]; apply Forall_rev, H. Qed.

Definition inv (ic : chr) (seen : list text) (po so : option text) : Prop :=
  (Forall (blank ic) seen /\ po = None /\ so = None) \/
  ((exists l, In l seen /\ ~ blank ic l) /\ exists p s, po = Some p /\ so = Some s /\
    (forall q, common_front ic seen q <-> pre q p) /\ (forall q, common_back ic seen q <-> suf q s)).

Lemma front_snoc : forall ic seen l q, ~ blank ic l ->
  (common_front ic (seen ++ [l]) q <-> common_front ic seen q /\ pre q (head_margin ic l)).
Proof.
  intros ic seen l q Hl. rewrite head_margin_iff. unfold common_front. split.
  - intros [Hq H]. split; [split; [exact Hq|] | split; [exact Hq|]].
    + intros l' Hin. apply H, in_or_app. left. exact Hin.
    + apply H; [apply in_or_app; right; left; reflexivity | exact Hl].
  - intros [[Hq H] [_ Hp]]. split; [exact Hq|]. intros l' Hin Hb. apply in_app_or in Hin. destruct Hin as [Hin|[<-|[]]]; [apply H; assumption|exact Hp].
Qed.
Lemma front_blank : forall ic seen l q, blank ic l -> (common_front ic (seen ++ [l]) q <-> common_front ic seen q).
Proof.
  intros ic seen l q Hl. unfold common_front. split; intros [Hq H]; (split; [exact Hq|]); intros l' Hin Hb.
  - apply H; [apply in_or_app; left|]; assumption.
  - apply in_app_or in Hin. destruct Hin as [Hin|[<-|[]]]; [apply H; assumption | contradiction].
Qed.
Lemma back_snoc : forall ic seen l q, ~ blank ic l ->
  (common_back ic (seen ++ [l]) q <-> common_back ic seen q /\ pre (rev q) (head_margin ic (rev l))).
Proof.
  intros ic seen l q Hl. rewrite head_margin_iff, Forall_rev_iff, <- suf_pre. unfold common_back. split.
  - intros [Hq H]. split; [split; [exact Hq|] | split; [exact Hq|]].
    + intros l' Hin. apply H, in_or_app. left. exact Hin.
    + apply H; [apply in_or_app; right; left; reflexivity | exact Hl].
  - intros [[Hq H] [_ Hp]]. split; [exact Hq|]. intros l' Hin Hb. apply in_app_or in Hin. destruct Hin as [Hin|[<-|[]]]; [apply H; assumption|exact Hp].
Qed.
Lemma back_blank : forall ic seen l q, blank ic l -> (common_back ic (seen ++ [l]) q <-> common_back ic seen q).
Proof.
  intros ic seen l q Hl. unfold common_back. split; intros [Hq H]; (split; [exact Hq|]); intros l' Hin Hb.
  - apply H; [apply in_or_app; left|]; assumption.
  - apply in_app_or in Hin. destruct Hin as [Hin|[<-|[]]]; [apply H; assumption | contradiction].
Qed.
Lemma front_blanks : forall ic seen q, Forall (blank ic) seen -> (common_front ic seen q <-> Forall (marginal ic) q).
Proof.
  intros ic seen q H. unfold common_front. split; [intros [Hq _]; exact Hq|]. intro Hq. split; [exact Hq|].
  intros l Hin Hb. rewrite Forall_forall in H. elim Hb. apply H, Hin.
Qed.
Lemma back_blanks : forall ic seen q, Forall (blank ic) seen -> (common_back ic seen q <-> Forall (marginal ic) q).
Proof.
  intros ic seen q H. unfold common_back. split; [intros [Hq _]; exact Hq|]. intro Hq. split; [exact Hq|].
  intros l Hin Hb. rewrite Forall_forall in H. elim Hb. apply H, Hin.
Qed.

Lemma margins_inv : forall ic ls seen po so, inv ic seen po so ->
  exists po' so', margins ic ls po so = Some (po', so') /\ inv ic (seen ++ ls) po' so'.
Proof.
  intros ic. induction ls as [|l ls IH]; intros seen po so Hi; cbn [margins].
  - exists po, so. split; [reflexivity|]. rewrite app_nil_r. exact Hi.
  - replace (seen ++ l :: ls) with ((seen ++ [l]) ++ ls) by (rewrite <- app_assoc; reflexivity).
    destruct (is_empty l ic) eqn:E.
    + apply empty_iff in E. apply IH. destruct Hi as [[Hb [Hp Hs]]|[[l0 [Hl0 Hn0]] (p & s & -> & -> & Hp & Hs)]].
      * left. split; [|split; assumption]. apply Forall_app. split; [exact Hb | constructor; [exact E | constructor]].
      * right. split; [exists l0; split; [apply in_or_app; left|]; assumption|]. exists p, s.
        split; [reflexivity|]. split; [reflexivity|].
        split; intro q; [rewrite front_blank by exact E; apply Hp | rewrite back_blank by exact E; apply Hs].
    + apply empty_false in E. rewrite next_prefix_eq, next_suffix_eq. apply IH. right.
      split; [exists l; split; [apply in_or_app; right; left; reflexivity | exact E]|].
      eexists. eexists. split; [reflexivity|]. split; [reflexivity|].
      destruct Hi as [[Hb [-> ->]]|[_ (p & s & -> & -> & Hp & Hs)]].
      * split; intro q.
        -- rewrite front_snoc by exact E. rewrite front_blanks by exact Hb. rewrite head_margin_iff. tauto.
        -- rewrite back_snoc by exact E. rewrite back_blanks by exact Hb. rewrite suf_pre, rev_involutive, head_margin_iff, Forall_rev_iff. tauto.
      * split; intro q.
        -- rewrite front_snoc by exact E. rewrite pre_lcp, Hp. reflexivity.
        -- rewrite back_snoc by exact E. rewrite suf_pre, rev_involutive, pre_lcp, <- suf_pre, Hs. reflexivity.
Qed.

(** *** The stripping *)
Lemma cut_margins : forall ic l p s, ~ blank ic l -> Forall (marginal ic) p -> Forall (marginal ic) s -> pre p l -> suf s l ->
  exists o, l = p ++ o ++ s /\ o <> [].
Proof.
  intros ic l p s Hl Hp Hs [r Hr] [r' Hr'].
  destruct (drop_while (ignored ic) l) as [|c m] eqn:Ed.
  { elim Hl. apply empty_iff. apply drop_nil, Ed. }
  pose proof (drop_head _ _ _ _ Ed) as Hc.
  assert (Hnc : ~ marginal ic c) by (rewrite <- ignored_iff, Hc; discriminate).
  pose proof (take_drop (ignored ic) l) as El. rewrite Ed in El. fold (head_margin ic l) in El.
  destruct (proj2 (head_margin_iff ic l p) (conj Hp (ex_intro _ r Hr))) as [h Hh].
  assert (Hm : exists x, m = x ++ s).
  { assert (E2 : (head_margin ic l ++ [c]) ++ m = r' ++ s) by (rewrite <- app_assoc; cbn [app]; rewrite <- El; exact Hr').
    destruct (app_cut _ _ _ _ _ E2) as [[x [Ex Es]]|[x [Ex [_ Em]]]]; [|exists x; exact Em].
    destruct x as [|y x] using rev_ind; [exists []; exact (eq_sym Es)|].
    rewrite app_assoc in Ex. apply app_inj_tail in Ex. destruct Ex as [_ <-].
    elim Hnc. rewrite Forall_forall in Hs. apply Hs. rewrite Es. apply in_or_app. left. apply in_or_app. right. left. reflexivity. }
  destruct Hm as [x ->]. exists (h ++ c :: x). split; [|destruct h; discriminate].
  rewrite El, Hh, <- !app_assoc. reflexivity.
Qed.

Lemma slice_mid : forall (p o s : text), slice (blen p) (blen (p ++ o ++ s) - blen s) (p ++ o ++ s) = Some o.
Proof.
  intros p o s. replace (blen (p ++ o ++ s) - blen s)%N with (blen (p ++ o)) by (rewrite !blen_app; lia). apply slice_app.
Qed.

Lemma joined_app : forall a b, a <> [] -> b <> [] -> joined (a ++ b) = joined a ++ NL :: joined b.
Proof.
  induction a as [|x a IH]; intros b Ha Hb; [congruence|]. destruct a as [|y a].
  - cbn [app joined]. destruct b; [congruence|reflexivity].
  - change (joined ((x :: y :: a) ++ b)) with (x ++ 10%N :: joined ((y :: a) ++ b)). rewrite IH by congruence.
    change (joined (x :: y :: a)) with (x ++ 10%N :: joined (y :: a)). rewrite <- app_assoc. reflexivity.
Qed.
Lemma joined_blanks : forall n b, b <> [] -> joined (repeat [] n ++ b) = repeat NL n ++ joined b.
Proof.
  induction n as [|n IH]; intros b Hb; [reflexivity|]. cbn [repeat app].
  assert (repeat [] n ++ b <> []) by (destruct n; [exact Hb | discriminate]).
  rewrite <- IH by exact Hb. destruct (repeat [] n ++ b) eqn:E; [congruence|]. reflexivity.
Qed.

Section Strip.
Context (ic : chr) (p s : text).
Definition bumped (newlines k : nat) : nat := match newlines with O => O | S _ => newlines + k end.

Lemma strip_spec : forall ls newlines anything out,
  (forall l, In l ls -> ~ blank ic l -> exists o, l = p ++ o ++ s /\ o <> []) ->
  (Forall (blank ic) ls /\ strip_lines ic (blen p) (blen s) ls newlines anything out = Some (out, anything)) \/
  (exists before core after os first mid last, ls = before ++ core ++ after /\ Forall (blank ic) before /\ Forall (blank ic) after /\
     ~ blank ic first /\ ~ blank ic last /\ (core = [first] \/ core = first :: mid ++ [last]) /\
     Forall2 (stripped ic p s) core os /\ joined os <> [] /\
     strip_lines ic (blen p) (blen s) ls newlines anything out = Some (out ++ repeat NL (bumped newlines (List.length before)) ++ joined os, true)).
Proof using Type.
  induction ls as [|l ls IH]; intros newlines anything out Hs; cbn [strip_lines].
  - left. split; [constructor | reflexivity].
  - destruct (is_empty l ic) eqn:E.
    + apply empty_iff in E.
      destruct (IH (match newlines with O => O | S n => S (S n) end) anything out) as [[Hb Hr]|H].
      { intros l' Hin. apply Hs. right. exact Hin. }
      * left. split; [constructor; assumption | exact Hr].
      * right. destruct H as (before & core & after & os & first & mid & last & -> & Hb & Ha & Hf & Hl & Hc & Hos & Hne & Hr).
        exists (l :: before), core, after, os, first, mid, last.
        split; [reflexivity|]. split; [constructor; assumption|]. do 6 (split; [assumption|]). rewrite Hr.
        f_equal. f_equal. f_equal. f_equal. destruct newlines; [reflexivity|]. cbn [bumped List.length]. f_equal. lia.
    + apply empty_false in E. destruct (Hs l (or_introl eq_refl) E) as (o & El & Ho).
      assert (Hsl : slice (blen p) (blen l - blen s) l = Some o) by (rewrite El; apply slice_mid).
      destruct (N.ltb_spec (blen l) (blen s)) as [Hlt|_]; [exfalso; revert Hlt; rewrite El, !blen_app; lia|].
      rewrite Hsl. assert (Hst : stripped ic p s l o) by (right; split; assumption).
      destruct (IH 1 true (out ++ repeat NL newlines ++ o)) as [[Hb Hr]|H].
      { intros l' Hin. apply Hs. right. exact Hin. }
      * right. exists [], [l], ls, [o], l, [], l. split; [reflexivity|]. split; [constructor|]. split; [exact Hb|].
        split; [exact E|]. split; [exact E|]. split; [left; reflexivity|].
        split; [constructor; [exact Hst | constructor]|]. split; [exact Ho|]. rewrite Hr.
        replace (bumped newlines (List.length (@nil text))) with newlines by (destruct newlines; cbn [bumped List.length]; lia). reflexivity.
      * right. destruct H as (before & core & after & os & first & mid & last & -> & Hb & Ha & Hf & Hl & Hc & Hos & Hne & Hr).
        exists [], (l :: before ++ core), after, (o :: repeat [] (List.length before) ++ os), l,
          (match core with [_] => before | _ => before ++ removelast core end), (match core with [x] => x | _ => last end).
        split; [cbn [app]; rewrite <- app_assoc; reflexivity|]. split; [constructor|]. split; [exact Ha|]. split; [exact E|].
        assert (Hne2 : os <> []) by (intros ->; apply Hne; reflexivity).
        split; [|split; [|split; [|split]]].
        -- destruct Hc as [->| ->]; [exact Hf|]. destruct (mid ++ [last]) eqn:Em; [destruct mid; discriminate|exact Hl].
        -- right. f_equal. destruct Hc as [->| ->]; [reflexivity|].
           destruct (mid ++ [last]) eqn:Em; [destruct mid; discriminate|].
           rewrite <- app_assoc. f_equal. rewrite <- Em. change (first :: mid ++ [last]) with ((first :: mid) ++ [last]).
           rewrite removelast_last. reflexivity.
        -- constructor; [exact Hst|]. apply Forall2_app; [|exact Hos].
           clear -Hb. induction before as [|x b IHb]; [constructor|]. inversion Hb; subst.
           constructor; [left; split; [assumption | reflexivity] | apply IHb; assumption].
        -- destruct o as [|o0 o]; [congruence|]. cbn [joined]. destruct (repeat [] (List.length before) ++ os); discriminate.
        -- rewrite Hr. f_equal. f_equal. rewrite <- !app_assoc. f_equal.
           replace (bumped newlines (List.length (@nil text))) with newlines by (destruct newlines; cbn [bumped List.length]; lia).
           f_equal. change (o :: repeat [] (List.length before) ++ os) with ([o] ++ (repeat [] (List.length before) ++ os)).
           rewrite joined_app; [|discriminate|destruct before; [exact Hne2 | discriminate]].
           rewrite joined_blanks by exact Hne2. reflexivity.
Qed.
End Strip.

(** *** The whole function *)
Lemma lines_nil : lines [] = []. Proof. reflexivity. Qed.

Lemma simplify_spec : forall out t ic, exists r, cleaned ic (lines t) r /\
  ((Forall (blank ic) (lines t) /\ r = [] /\ simplify out t ic = Some (out, false)) \/
   (~ Forall (blank ic) (lines t) /\ r <> [] /\ simplify out t ic = Some (out ++ r, true))).
Proof.
  intros out t ic. destruct t as [|c t'].
  { exists []. split; [left; split; [constructor | reflexivity]|]. left. split; [constructor|]. split; reflexivity. }
  remember (c :: t') as t eqn:Et.
  assert (Es : simplify out t ic = match margins ic (lines t) None None with
    | Some (prefix, suffix) => strip_lines ic (len_or_zero prefix) (len_or_zero suffix) (lines t) 0 false out
    | None => None end) by (rewrite Et; reflexivity).
  rewrite Es. clear Es Et.
  destruct (margins_inv ic (lines t) [] None None) as (po & so & -> & Hi); [left; repeat split; constructor|]. cbn [app] in Hi.
  destruct Hi as [[Hb [-> ->]]|[[l0 [Hl0 Hn0]] (p & s & -> & -> & Hp & Hs)]].
  - exists []. split; [left; split; [exact Hb | reflexivity]|]. left. split; [exact Hb|]. split; [reflexivity|].
    destruct (strip_spec ic [] [] (lines t) 0 false out) as [[_ Hr]|H]; [|exact Hr|].
    + intros l Hin Hl. rewrite Forall_forall in Hb. elim Hl. apply Hb, Hin.
    + destruct H as (before & core & after & os & first & mid & last & E & _ & _ & Hf & _ & Hc & _).
      rewrite Forall_forall in Hb. elim Hf. apply Hb. rewrite E. apply in_or_app. right. apply in_or_app. left.
      destruct Hc as [->| ->]; left; reflexivity.
  - pose proof (proj2 (Hp p) (pre_refl p)) as Hcp. assert (Hss : suf s s) by (exists []; reflexivity). pose proof (proj2 (Hs s) Hss) as Hcs.
    cbn [len_or_zero].
    destruct (strip_spec ic p s (lines t) 0 false out) as [[Hb _]|H].
    + intros l Hin Hl. destruct Hcp as [Hp1 Hp2], Hcs as [Hs1 Hs2]. apply (cut_margins ic); auto. apply Hp2; assumption. apply Hs2; assumption.
    + rewrite Forall_forall in Hb. elim Hn0. apply Hb, Hl0.
    + destruct H as (before & core & after & os & first & mid & last & E & Hb & Ha & Hf & Hl & Hc & Hos & Hne & Hr).
      exists (joined os). split.
      * right. exists p, s, core, os. split; [|split; [|split; [|split; [exact Hos | reflexivity]]]].
        -- split; [exact Hcp|]. intros q Hq. apply pre_length. exact (proj1 (Hp q) Hq).
        -- split; [exact Hcs|]. intros q Hq. apply Hs in Hq. destruct Hq as [r ->]. rewrite app_length. lia.
        -- exists before, after. split; [exact E|]. split; [exact Hb|]. split; [exact Ha|]. exists first, mid, last.
           split; [exact Hf|]. split; [exact Hl|]. exact Hc.
      * right. split; [intro Hall; rewrite Forall_forall in Hall; elim Hn0; apply Hall, Hl0|]. split; [exact Hne|]. rewrite Hr. reflexivity.
Qed.

(** a text is blank when its lines are *)
Lemma nl_marginal : forall ic, marginal ic 10%N. Proof. intro ic. left. reflexivity. Qed.
Lemma cr_marginal : forall ic, marginal ic 13%N. Proof. intro ic. left. reflexivity. Qed.
Lemma strip_cr_blank : forall ic l, blank ic (strip_cr l) <-> blank ic l.
Proof.
  intros ic l. unfold strip_cr. destruct (rev l) as [|c r] eqn:E; [reflexivity|].
  assert (El : l = rev r ++ [c]) by (rewrite <- (rev_involutive l), E; reflexivity).
  destruct (N.eq_dec c 13) as [->|Hne].
  - unfold blank. rewrite El, Forall_app. split; [intro H; split; [exact H | constructor; [apply cr_marginal | constructor]] | intros [H _]; exact H].
  - assert (Hm : match c with 13%N => rev r | _ => l end = l) by (destruct c as [|q]; [reflexivity|]; destruct q as [q|q|]; try reflexivity; destruct q as [q|q|]; try reflexivity; destruct q as [q|q|]; try reflexivity; destruct q as [q|q|]; try reflexivity; congruence).
    rewrite Hm. reflexivity.
Qed.
Lemma split_char_blank : forall ic t, Forall (blank ic) (split_char 10 t) <-> blank ic t.
Proof.
  intros ic. induction t as [|c t IH]; cbn [split_char].
  - split; intros _; [constructor|]. constructor; constructor.
  - destruct (N.eqb_spec c 10) as [->|Hne].
    + split; intro H.
      * constructor; [apply nl_marginal | apply IH; inversion H; assumption].
      * constructor; [constructor | apply IH; inversion H; assumption].
    + destruct (split_char 10 t) as [|q ps] eqn:E; [exfalso; destruct t as [|x t]; cbn [split_char] in E; [discriminate|]; destruct (N.eqb x 10); [discriminate|]; destruct (split_char 10 t); discriminate|].
      split; intro H.
      * inversion H as [|? ? H1 H2]; subst. inversion H1; subst. constructor; [assumption|]. apply IH. constructor; assumption.
      * inversion H as [|? ? H1 H2]; subst. apply IH in H2. inversion H2; subst. constructor; [constructor|]; assumption.
Qed.
Lemma lines_aux_blank : forall ic ps, Forall (blank ic) (lines_aux ps) <-> Forall (blank ic) ps.
Proof.
  intros ic. induction ps as [|q ps IH]; [reflexivity|]. destruct ps as [|q' ps].
  - cbn [lines_aux]. destruct q as [|c q]; [|reflexivity]. split; intros _; [constructor; [constructor|]|]; constructor.
  - change (lines_aux (q :: q' :: ps)) with (strip_cr q :: lines_aux (q' :: ps)). split; intro H; inversion H; subst; constructor;
      solve [apply strip_cr_blank; assumption | apply IH; assumption].
Qed.
Lemma lines_blank : forall ic t, Forall (blank ic) (lines t) <-> blank ic t.
Proof. intros ic t. unfold lines. rewrite lines_aux_blank. apply split_char_blank. Qed.
