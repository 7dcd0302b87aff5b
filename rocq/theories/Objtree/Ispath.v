(** C35: model of [ispath] (crates/dreammaker/src/objtree.rs) and its theorems. *)
From Coq Require Import List NArith Lia Bool Arith.
From Verif Require Import Common.Text.
Import ListNotations.

Definition SLASH : chr := 47%N.

(** ** Model *)

(** [str::trim_end_matches(char)] *)
Definition trim_end_matches (c : chr) (s : text) : text := rev (drop_while (N.eqb c) (rev s)).
(** [str::strip_prefix] *)
Definition strip_prefix (pat s : text) : option text :=
  if starts_with pat s then Some (skipn (List.length pat) s) else None.

(** objtree.rs:222-230 ispath.  (The debug assertion that both start with '/' is a hypothesis of
    the theorems.) *)
Definition ispath (path parent : text) : bool :=
  let parent := trim_end_matches SLASH parent in
  match strip_prefix parent path with
  | Some rest => match rest with [] => true | c :: _ => N.eqb c SLASH end
  | None => false
  end.

(** ** Specification: a path is a list of slash-free components, each preceded by a slash *)
Definition slash_free (c : text) : Prop := ~ In SLASH c.
Definition render (cs : list text) : text := flat_map (fun c => SLASH :: c) cs.

(** ** Proofs *)
Lemma drop_while_repeat : forall k c l, drop_while (N.eqb c) (repeat c k ++ l) = drop_while (N.eqb c) l.
Proof. induction k as [|k IH]; intros c l; cbn [repeat app drop_while]; [reflexivity|]. rewrite N.eqb_refl. apply IH. Qed.

Lemma rev_repeat : forall A (x : A) k, rev (repeat x k) = repeat x k.
Proof.
  intros A x k. induction k as [|k IH]; [reflexivity|]. cbn [repeat rev]. rewrite IH.
  clear IH. induction k as [|k IH]; [reflexivity|]. cbn [repeat app]. rewrite IH. reflexivity.
Qed.

Lemma trim_repeat : forall k s, trim_end_matches SLASH (s ++ repeat SLASH k) = trim_end_matches SLASH s.
Proof. intros. unfold trim_end_matches. rewrite rev_app_distr, rev_repeat, drop_while_repeat. reflexivity. Qed.

Lemma trim_render : forall cs, (forall c, In c cs -> slash_free c) -> (cs = [] \/ last cs [] <> []) ->
  trim_end_matches SLASH (render cs) = render cs.
Proof.
  intros cs Hf Hl. destruct Hl as [->|Hl]; [reflexivity|].
  destruct (exists_last (l := cs)) as (pre & c & ->); [intros ->; contradiction Hl; reflexivity|].
  rewrite last_last in Hl. destruct (exists_last Hl) as (q & x & ->).
  assert (Hx : SLASH <> x).
  { intros <-. apply (Hf (q ++ [SLASH])); apply in_or_app; right; left; reflexivity. }
  unfold render. rewrite flat_map_app. cbn [flat_map]. rewrite app_nil_r.
  unfold trim_end_matches. change (SLASH :: q ++ [x]) with ((SLASH :: q) ++ [x]).
  rewrite app_assoc. generalize (flat_map (fun c : list chr => SLASH :: c) pre ++ SLASH :: q). intro l.
  rewrite rev_app_distr. cbn [rev app drop_while].
  destruct (N.eqb_spec SLASH x) as [|_]; [contradiction|]. cbn [rev]. rewrite rev_involutive. reflexivity.
Qed.

Lemma strip_prefix_spec : forall pat s r, strip_prefix pat s = Some r <-> s = pat ++ r.
Proof.
  intros pat s r. unfold strip_prefix. destruct (starts_with pat s) eqn:E.
  - apply starts_with_spec in E. destruct E as [x ->].
    rewrite skipn_app, skipn_all, Nat.sub_diag, skipn_O. cbn [app]. split.
    + intros H. injection H as ->. reflexivity.
    + intros H. apply app_inv_head in H. subst. reflexivity.
  - split; [discriminate|]. intros ->. assert (starts_with pat (pat ++ r) = true) by (apply starts_with_spec; eauto). congruence.
Qed.

Lemma comp_unique : forall (a b r1 r2 : text), slash_free a -> slash_free b ->
  (r1 = [] \/ exists x, r1 = SLASH :: x) -> (r2 = [] \/ exists x, r2 = SLASH :: x) ->
  a ++ r1 = b ++ r2 -> a = b /\ r1 = r2.
Proof.
  induction a as [|c a IH]; intros [|d b] r1 r2 Ha Hb H1 H2 E; cbn [app] in E.
  - auto.
  - subst r1. destruct H1 as [H1|[x H1]]; [discriminate|]. injection H1 as -> _. contradiction Hb. left. reflexivity.
  - subst r2. destruct H2 as [H2|[x H2]]; [discriminate|]. injection H2 as -> _. contradiction Ha. left. reflexivity.
  - injection E as -> E. destruct (IH b r1 r2) as [-> ->]; auto; intro Hin; [apply Ha | apply Hb]; right; exact Hin.
Qed.

Lemma render_head : forall cs, render cs = [] \/ exists x, render cs = SLASH :: x.
Proof. intros [|c cs]; [left; reflexivity | right; eexists; reflexivity]. Qed.

Lemma render_prefix : forall ps cs r, (forall c, In c ps -> slash_free c) -> (forall c, In c cs -> slash_free c) ->
  (r = [] \/ exists x, r = SLASH :: x) -> render cs = render ps ++ r -> exists rest, cs = ps ++ rest.
Proof.
  induction ps as [|p ps IH]; intros cs r Hp Hc Hr E; [exists cs; reflexivity|].
  destruct cs as [|c cs]; [discriminate|]. cbn [render flat_map app] in E. injection E as E.
  fold (render ps) in E. fold (render cs) in E. rewrite <- app_assoc in E.
  assert (Hr2 : render ps ++ r = [] \/ exists x, render ps ++ r = SLASH :: x).
  { destruct (render_head ps) as [->|[x ->]]; [exact Hr | right; eexists; reflexivity]. }
  destruct (comp_unique c p (render cs) (render ps ++ r)) as [-> E2]; auto.
  - apply Hc. left. reflexivity.
  - apply Hp. left. reflexivity.
  - apply render_head.
  - destruct (IH cs r) as [rest ->]; auto.
    + intros; apply Hp; right; assumption.
    + intros; apply Hc; right; assumption.
    + exists rest. reflexivity.
Qed.

(** C35.  A parent written with any number of trailing slashes ([ps] itself not ending in an empty
    component) accepts exactly the paths whose component list extends [ps]. *)
Theorem C35_whole_components : forall (cs ps : list text) (k : nat),
  (forall c, In c cs -> slash_free c) -> (forall c, In c ps -> slash_free c) ->
  (ps = [] \/ last ps [] <> []) ->
  (ispath (render cs) (render ps ++ repeat SLASH k) = true <-> exists rest, cs = ps ++ rest).
Proof.
  intros cs ps k Hc Hp Hl. unfold ispath. rewrite trim_repeat, trim_render by assumption. split.
  - destruct (strip_prefix (render ps) (render cs)) as [r|] eqn:E; [|discriminate].
    apply strip_prefix_spec in E. intro H. apply (render_prefix ps cs r); auto.
    destruct r as [|x r]; [left; reflexivity|]. apply N.eqb_eq in H. subst. right. eexists. reflexivity.
  - intros [rest ->]. assert (E : strip_prefix (render ps) (render (ps ++ rest)) = Some (render rest)).
    { apply strip_prefix_spec. unfold render. apply flat_map_app. }
    rewrite E. destruct rest as [|x rest]; [reflexivity|]. cbn. reflexivity.
Qed.
Print Assumptions C35_whole_components.

(** every text starting with a slash is such a path *)
Lemma render_total : forall s, exists cs, (forall c, In c cs -> slash_free c) /\ cs <> [] /\ SLASH :: s = render cs.
Proof.
  induction s as [|c s (cs & Hf & Hne & E)].
  - exists [[]]. split; [|split; [discriminate | reflexivity]]. intros c [<-|[]] [].
  - destruct (N.eq_dec c SLASH) as [->|Hc].
    + exists ([] :: cs). split; [|split; [discriminate|]].
      * intros d [<-|H]; [intros [] | apply Hf; exact H].
      * cbn [render flat_map app]. rewrite E. reflexivity.
    + destruct cs as [|p cs]; [contradiction|]. exists ((c :: p) :: cs). split; [|split; [discriminate|]].
      * intros d [<-|H]; [|apply Hf; right; exact H]. intros [H|H]; [congruence|]. apply (Hf p); [left; reflexivity | exact H].
      * cbn [render flat_map app] in *. injection E as ->. reflexivity.
Qed.

(** normal form: components not ending in an empty one, plus trailing slashes *)
Lemma normal_form : forall s, exists ps k, (forall c, In c ps -> slash_free c) /\ (ps = [] \/ last ps [] <> []) /\
  SLASH :: s = render ps ++ repeat SLASH k.
Proof.
  intro s. destruct (render_total s) as (cs & Hf & _ & E).
  assert (G : forall cs, (forall c, In c cs -> slash_free c) -> exists ps k, (forall c, In c ps -> slash_free c) /\
    (ps = [] \/ last ps [] <> []) /\ render cs = render ps ++ repeat SLASH k).
  { clear. induction cs as [|c cs IH] using rev_ind; intro Hf.
    - exists [], 0. split; [intros ? []|]. split; [left; reflexivity | reflexivity].
    - destruct c as [|x c].
      + destruct IH as (ps & k & Hp & Hl & E); [intros; apply Hf; apply in_or_app; left; assumption|].
        exists ps, (S k). split; [exact Hp|]. split; [exact Hl|].
        transitivity (render cs ++ [SLASH]); [unfold render; rewrite flat_map_app; reflexivity|].
        rewrite E, <- app_assoc. f_equal.
        rewrite <- (rev_repeat _ SLASH k), <- (rev_repeat _ SLASH (S k)). reflexivity.
      + exists (cs ++ [x :: c]), 0. split; [exact Hf|]. split.
        * right. rewrite last_last. discriminate.
        * cbn [repeat]. rewrite app_nil_r. reflexivity. }
  rewrite E. apply G. exact Hf.
Qed.

Lemma render_app : forall a b, render (a ++ b) = render a ++ render b.
Proof. intros. unfold render. apply flat_map_app. Qed.
Lemma render_empties : forall k, render (repeat [] k) = repeat SLASH k.
Proof. induction k as [|k IH]; [reflexivity|]. cbn [repeat]. change (render ([] :: repeat [] k)) with (SLASH :: render (repeat [] k)). rewrite IH. reflexivity. Qed.

Lemma prefix_strip : forall (ps qs : list text) k rest, (ps = [] \/ last ps [] <> []) ->
  qs ++ repeat [] k = ps ++ rest -> exists r, qs = ps ++ r.
Proof.
  intros ps qs k rest Hl E. apply app_eq_app in E. destruct E as (l & [[-> ->]|[-> E]]).
  - exists l. reflexivity.
  - assert (Hall : forall c, In c l -> c = []).
    { intros c Hc. assert (Hin : In c (repeat [] k)) by (rewrite E; apply in_or_app; left; exact Hc).
      exact (repeat_spec k [] c Hin). }
    destruct l as [|c l] using rev_ind; [exists []; rewrite !app_nil_r; reflexivity|].
    destruct Hl as [Hl|Hl]; [destruct qs; [destruct l|]; discriminate|].
    contradiction Hl. rewrite app_assoc, last_last. apply Hall. apply in_or_app. right. left. reflexivity.
Qed.

(** C35, as an order on paths (texts starting with a slash): reflexive and transitive; "/" is the
    parent of everything. *)
Theorem C35_order :
  (forall p, ispath (SLASH :: p) (SLASH :: p) = true) /\
  (forall p, ispath (SLASH :: p) [SLASH] = true) /\
  (forall a b c, ispath (SLASH :: a) (SLASH :: b) = true -> ispath (SLASH :: b) (SLASH :: c) = true ->
     ispath (SLASH :: a) (SLASH :: c) = true).
Proof.
  assert (Hfk : forall ps k, (forall c, In c ps -> slash_free c) -> forall c, In c (ps ++ repeat [] k) -> slash_free c).
  { intros ps k H c Hc. apply in_app_or in Hc. destruct Hc as [Hc|Hc]; [apply H; exact Hc|].
    apply repeat_spec in Hc. subst. intros []. }
  split; [|split].
  - intro p. destruct (normal_form p) as (ps & k & Hf & Hl & E). rewrite E at 2.
    replace (SLASH :: p) with (render (ps ++ repeat [] k)) by (rewrite render_app, render_empties; symmetry; exact E).
    apply C35_whole_components; [apply Hfk; exact Hf | exact Hf | exact Hl | eexists; reflexivity].
  - intro p. destruct (render_total p) as (cs & Hf & _ & ->).
    apply (C35_whole_components cs [] 1); [exact Hf | intros ? [] | left; reflexivity | exists cs; reflexivity].
  - intros a b c H1 H2. destruct (render_total a) as (cs & Hcs & _ & Ea).
    destruct (normal_form b) as (qs & k & Hq & Hql & Eb). destruct (normal_form c) as (ps & j & Hp & Hpl & Ec).
    rewrite Ea, Eb in H1. rewrite C35_whole_components in H1 by assumption. destruct H1 as [r1 ->].
    assert (Eb2 : SLASH :: b = render (qs ++ repeat [] k)) by (rewrite render_app, render_empties; exact Eb).
    rewrite Eb2, Ec in H2. apply C35_whole_components in H2; [|apply Hfk; assumption | assumption | assumption]. destruct H2 as [r2 H2].
    destruct (prefix_strip ps qs k r2 Hpl H2) as [r3 ->].
    rewrite Ea, Ec. apply C35_whole_components; try assumption. exists (r3 ++ r1). rewrite app_assoc. reflexivity.
Qed.
Print Assumptions C35_order.

Import String.
Example C35_demo :
  ispath (lit "/obj/item") (lit "/obj/") = true /\ ispath (lit "/object") (lit "/obj") = false /\
  ispath (lit "/obj") (lit "/obj/item") = false /\
  lit "/obj/item" = render [lit "obj"; lit "item"].
Proof. repeat split. Qed.
