(** C75: what the outline, the folding ranges and the links of a file are. *)
From Coq Require Import List Arith NArith ZArith Bool Ascii String Lia Sorting.Sorted.
From Verif Require Import Common.Text Common.Order Loc.Model Loc.Spec Loc.Proofs Lsp.Outline Lsp.OutlineSpec.
From Verif Require Loc.Props.
Import ListNotations.
Open Scope nat_scope.

(** ** Symbols *)
Lemma split_last_spec {A : Type} (l : list A) : match split_last l with Some (x, r) => l = r ++ [x] | None => l = [] end.
Proof.
  induction l as [|a l IH]; cbn [split_last]; [reflexivity|]. destruct (split_last l) as [[x r]|].
  - rewrite IH. reflexivity.
  - rewrite IH. reflexivity.
Qed.
Definition keywordb (x : text) : bool := proc_decl_kind x || proc_flag x || var_type_flag x || text_eqb x (lit "var").
Lemma keywordb_iff x : keywordb x = true <-> keyword x.
Proof.
  unfold keywordb, keyword, proc_decl_kind, proc_flag, var_type_flag. cbn [map]. rewrite !orb_true_iff, !text_eqb_eq. cbn [In].
  split.
  - intros H. repeat (destruct H as [H|H]); subst x; auto 14.
  - intros H. repeat (destruct H as [H|H]); try (subst x); auto 14. destruct H.
Qed.
Lemma find_ext {A : Type} (f g : A -> bool) l : (forall x, f x = g x) -> List.find f l = List.find g l.
Proof. intros H. induction l as [|a l IH]; cbn [List.find]; [reflexivity|]. rewrite H, IH. reflexivity. Qed.
Lemma find_last {A : Type} (f : A -> bool) l :
  match List.find f (rev l) with Some x => exists p q, l = p ++ x :: q /\ f x = true /\ forall y, In y q -> f y = false | None => forall y, In y l -> f y = false end.
Proof.
  induction l as [|a l IH] using rev_ind; cbn [rev List.find]; [intros y []|]. rewrite rev_app_distr. cbn [rev app List.find].
  destruct (f a) eqn:E.
  - exists l, []. split; [reflexivity|]. split; [exact E|intros y []].
  - destruct (List.find f (rev l)) as [x|].
    + destruct IH as (p & q & -> & Hx & Hq). exists p, (q ++ [a]). split; [rewrite <- app_assoc; reflexivity|]. split; [exact Hx|].
      intros y Hy. apply in_app_or in Hy. destruct Hy as [Hy|Hy]; [apply Hq; exact Hy|]. destruct Hy as [Hy|Hy]; [subst y; exact E|destruct Hy].
    + intros y Hy. apply in_app_or in Hy. destruct Hy as [Hy|Hy]; [apply IH; exact Hy|]. destruct Hy as [Hy|Hy]; [subst y; exact E|destruct Hy].
Qed.
Lemma name_and_detail_spec path skip :
  match name_and_detail path skip with
  | Some (name, d) => exists before, path = before ++ [name] /\ detail_is before skip d
  | None => path = []
  end.
Proof.
  unfold name_and_detail. pose proof (split_last_spec path) as H. destruct (split_last path) as [[name rest]|]; [|exact H].
  exists rest. split; [exact H|]. clear path H. destruct (Nat.leb_spec skip (List.length rest)) as [L|L].
  - rewrite (find_ext _ (fun x => negb (keywordb x))).
    2:{ intros x. unfold keywordb. rewrite !negb_orb. reflexivity. }
    pose proof (find_last (fun x => negb (keywordb x)) (skipn skip rest)) as F. destruct (List.find _ _) as [x|].
    + destruct F as (p & q & E & Hx & Hq). left. exists x, (firstn skip rest ++ p), q. split; [rewrite <- app_assoc, <- E; symmetry; apply firstn_skipn|].
      split; [rewrite app_length, firstn_length; lia|]. split.
      * rewrite <- keywordb_iff. apply negb_true_iff in Hx. congruence.
      * split; [|reflexivity]. intros y Hy. apply keywordb_iff. apply Hq in Hy. apply negb_false_iff in Hy. exact Hy.
    + right. split; [reflexivity|]. intros p x q -> Hp. apply keywordb_iff. apply negb_false_iff. apply F. rewrite skipn_app. apply in_or_app. right.
      replace (skip - List.length p) with 0 by lia. left. reflexivity.
  - right. split; [reflexivity|]. intros p x q -> Hp. rewrite app_length in L. cbn [List.length] in L. lia.
Qed.
Lemma constructor_iff x : is_constructor_name x = true <-> constructor_name x.
Proof.
  unfold is_constructor_name, constructor_name. cbn [map In]. rewrite !orb_true_iff, !text_eqb_eq. split; intros H.
  - destruct H as [[H|H]|H]; subst x; auto.
  - destruct H as [H|[H|[H|H]]]; subst; auto. destruct H.
Qed.
Lemma body_kind_spec before name : body_kind_is before name (body_kind (before ++ [name]) name).
Proof.
  unfold body_kind. assert (G : (List.length (before ++ [name]) =? 1) || (List.length (before ++ [name]) =? 2) && match before ++ [name] with x :: _ => text_eqb x (lit "proc") | [] => false end = true <-> global_path before).
  { unfold global_path. destruct before as [|a [|b before]]; cbn [app List.length Nat.eqb orb andb].
    - split; auto.
    - rewrite text_eqb_eq. split; [intros ->; auto|]. intros H. destruct H as [H|H]; [discriminate H|]. injection H. intros ->. reflexivity.
    - rewrite app_length. cbn [List.length]. rewrite Nat.add_1_r. cbn [Nat.eqb orb andb]. split; [discriminate|]. intros H. destruct H; discriminate. }
  destruct (_ || _) eqn:E.
  - apply bk_function. apply G. reflexivity.
  - assert (N : ~ global_path before) by (rewrite <- G; discriminate). destruct (is_constructor_name name) eqn:C.
    + apply bk_constructor; [exact N|]. apply constructor_iff. exact C.
    + apply bk_method; [exact N|]. rewrite <- constructor_iff. congruence.
Qed.
Lemma placed_spec s e name d k : placed s e (Entry name d k (span_to_range s e) (location_to_range s)).
Proof. unfold placed, position_of. cbn. repeat split. Qed.

Lemma has_symbolb_iff a : has_symbolb a = true <-> has_symbol a.
Proof. destruct a as [[|x p]|p|[|x p] n| | | | |]; cbn; split; auto; try discriminate; try tauto; intros _ H; discriminate. Qed.
Lemma holds_has a : holds_symbols a -> has_symbol a.
Proof. destruct a; cbn; auto; tauto. Qed.

(** ** The outline *)
Definition holdsb (a : ann) : bool := match a with ABlock p | ABody p _ => match p with [] => false | _ => true end | _ => false end.
Lemma holdsb_iff a : holdsb a = true <-> holds_symbols a.
Proof. destruct a as [[|x p]|p|[|x p] n| | | | |]; cbn; split; auto; try discriminate; try tauto; intros _ H; discriminate. Qed.
Definition belowb (i : item) (j : item * row) : bool := holdsb (ann_of (fst j)) && beforeb (start_of i) (last_of (fst j)).
Lemma belowb_iff i j : belowb i j = true <-> below i (fst j).
Proof. unfold belowb, below, before. rewrite andb_true_iff, holdsb_iff. reflexivity. Qed.
Lemma find_first {A : Type} (f : A -> bool) l :
  match List.find f l with Some x => exists p q, l = p ++ x :: q /\ f x = true /\ forall y, In y p -> f y = false | None => forall y, In y l -> f y = false end.
Proof.
  induction l as [|a l IH]; cbn [List.find]; [intros y []|]. destruct (f a) eqn:E.
  - exists [], l. split; [reflexivity|]. split; [exact E|intros y []].
  - destruct (List.find f l) as [x|].
    + destruct IH as (p & q & -> & Hx & Hp). exists (a :: p), q. split; [reflexivity|]. split; [exact Hx|]. intros y Hy. destruct Hy as [Hy|Hy]; [subst y; exact E|apply Hp; exact Hy].
    + intros y Hy. destruct Hy as [Hy|Hy]; [subst y; exact E|apply IH; exact Hy].
Qed.
Definition starts_sorted (items : list item) : Prop := StronglySorted (fun x y => ~ before (start_of y) (start_of x)) items.
Definition fits (seen stack : list (item * row)) (items : list item) : Prop := forall i, In i items -> List.find (belowb i) seen = List.find (belowb i) stack.
(** the loop whose innermost container is the top of the stack *)
Definition stands_for (stack : list (item * row)) (section_end : loc) (skip : nat) (items : list item) : Prop :=
  match stack with
  | [] => skip = 0 /\ forall i, In i items -> before (start_of i) section_end
  | (j, _) :: _ => holds_symbols (ann_of j) /\ section_end = last_of j /\ says j skip
  end.
Definition path_above (stack : list (item * row)) : list entry := match stack with [] => [] | (_, (ab, y)) :: _ => ab ++ [y] end.

Lemma take_row seen stack section_end skip i rest x r :
  has_symbol (ann_of i) -> stands_for stack section_end skip (i :: rest) -> fits seen stack (i :: rest) -> before (start_of i) section_end -> shown i skip x ->
  outlined ((i, (path_above stack, x)) :: seen) rest r -> outlined seen (i :: rest) ((path_above stack, x) :: r).
Proof.
  intros Hs St F Hb Hx H. specialize (F i (or_introl eq_refl)). destruct stack as [|[j [ab y]] stack]; cbn [path_above] in *.
  - destruct St as [-> _]. cbn [List.find] in F. pose proof (find_first (belowb i) seen) as FF. rewrite F in FF. apply ol_top; [exact Hs| |exact Hx|exact H].
    intros j Hj B. apply FF in Hj. apply belowb_iff in B. congruence.
  - destruct St as (Hh & -> & Hsay). cbn [List.find] in F. match type of F with _ = (if ?c then _ else _) => assert (B : c = true) by (apply belowb_iff; split; assumption); rewrite B in F end.
    pose proof (find_first (belowb i) seen) as FF. rewrite F in FF. destruct FF as (p & q & -> & _ & Hp). eapply ol_under; try eassumption.
    + apply belowb_iff in B. exact B.
    + intros k Hk Bk. apply Hp in Hk. apply belowb_iff in Bk. congruence.
Qed.

Lemma sorted_app_r (R : item -> item -> Prop) a b : StronglySorted R (a ++ b) -> StronglySorted R b.
Proof. induction a as [|x a IH]; cbn [app]; [auto|]. intros H. apply StronglySorted_inv in H. apply IH, H. Qed.
Lemma sorted_rest i rest : starts_sorted (i :: rest) -> starts_sorted rest /\ forall j, In j rest -> ~ before (start_of j) (start_of i).
Proof. intros H. apply StronglySorted_inv in H. destruct H as [H1 H2]. split; [exact H1|]. rewrite Forall_forall in H2. exact H2. Qed.

Lemma before_le a b c : ~ before a c -> ~ before b a -> ~ before b c.
Proof. rewrite !not_before_kle. intros H1 H2. eapply kle_trans; eassumption. Qed.

Notation find_syms := find_document_symbols.
Lemma find_spec : forall fuel items section_end skip seen stack,
  List.length items < fuel -> starts_sorted items -> (forall i, In i items -> ann_of i <> AVariable []) ->
  stands_for stack section_end skip items -> fits seen stack items ->
  exists forest left_ seen' taken, find_syms fuel items section_end skip = Some (forest, left_) /\ items = taken ++ left_
    /\ (forall i, In i left_ -> ~ before (start_of i) section_end) /\ fits seen' stack left_
    /\ forall r, outlined seen' left_ r -> outlined seen items (rows (path_above stack) forest ++ r).
Proof.
  induction fuel as [|fuel IH]; intros items section_end skip seen stack Hf Hs Hv St F; [lia|].
  destruct items as [|[[s e] a] rest].
  { exists [], [], seen, []. cbn. split; [reflexivity|]. split; [reflexivity|]. split; [intros i []|]. split; [exact F|]. intros r Hr. exact Hr. }
  cbn [find_document_symbols]. cbn [List.length] in Hf. destruct (sorted_rest _ _ Hs) as [Hs' Hle].
  destruct (beforeb s section_end) eqn:B; cbn [negb].
  2:{ exists [], ((s, e, a) :: rest), seen, []. split; [reflexivity|]. split; [reflexivity|]. split; [|split; [exact F|intros r Hr; exact Hr]].
      assert (N : ~ before s section_end) by (unfold before; congruence).
      intros i [<-|Hi]; [exact N|]. apply Hle in Hi. cbn [start_of fst] in Hi. eapply before_le; eassumption. }
  assert (St' : forall l, (forall i, In i l -> In i rest) -> stands_for stack section_end skip l).
  { intros l Hl. destruct stack as [|[j y] stack]; [|exact St]. destruct St as [-> St]. split; [reflexivity|]. intros i Hi. apply St. right. apply Hl, Hi. }
  assert (F' : fits seen stack rest) by (intros i Hi; apply F; right; exact Hi).
  assert (Hv' : forall i, In i rest -> ann_of i <> AVariable []) by (intros i Hi; apply Hv; right; exact Hi).
  assert (None_case : ~ has_symbol a ->
    exists forest left_ seen' taken, find_syms fuel rest section_end skip = Some (forest, left_) /\ (s, e, a) :: rest = taken ++ left_
      /\ (forall i, In i left_ -> ~ before (start_of i) section_end) /\ fits seen' stack left_
      /\ forall r, outlined seen' left_ r -> outlined seen ((s, e, a) :: rest) (rows (path_above stack) forest ++ r)).
  { intros Hn. destruct (IH rest section_end skip seen stack) as (forest & left_ & seen' & taken & E & E2 & H1 & H2 & H3);
      [lia|exact Hs'|exact Hv'|apply St'; auto|exact F'|].
    exists forest, left_, seen', ((s, e, a) :: taken). split; [exact E|]. split; [rewrite E2; reflexivity|]. split; [exact H1|]. split; [exact H2|].
    intros r Hr. apply ol_none; [exact Hn|]. apply H3. exact Hr. }
  assert (One_case : forall name d k, has_symbol a -> ~ holds_symbols a -> shows a skip name d k ->
    exists forest left_ seen' taken,
      match find_syms fuel rest section_end skip with Some (more, left_) => Some (Sym name d k (span_to_range s e) (location_to_range s) None :: more, left_) | None => None end = Some (forest, left_)
      /\ (s, e, a) :: rest = taken ++ left_
      /\ (forall i, In i left_ -> ~ before (start_of i) section_end) /\ fits seen' stack left_
      /\ forall r, outlined seen' left_ r -> outlined seen ((s, e, a) :: rest) (rows (path_above stack) forest ++ r)).
  { intros name d k Hn Hh Hsh. set (x := Entry name d k (span_to_range s e) (location_to_range s)).
    destruct (IH rest section_end skip (((s, e, a), (path_above stack, x)) :: seen) stack) as (forest & left_ & seen' & taken & E & E2 & H1 & H2 & H3);
      [lia|exact Hs'|exact Hv'|apply St'; auto| |].
    { intros i Hi. cbn [List.find]. destruct (belowb i _) eqn:Bi; [|apply F'; exact Hi]. apply belowb_iff in Bi. destruct Bi as [Bi _]. contradiction. }
    rewrite E. exists (Sym name d k (span_to_range s e) (location_to_range s) None :: forest), left_, seen', ((s, e, a) :: taken).
    split; [reflexivity|]. split; [rewrite E2; reflexivity|]. split; [exact H1|]. split; [exact H2|]. intros r Hr.
    change (rows (path_above stack) (Sym name d k (span_to_range s e) (location_to_range s) None :: forest)) with ((path_above stack, x) :: rows (path_above stack) forest).
    cbn [app]. eapply take_row; try eassumption.
    - split; [exact Hsh|apply placed_spec].
    - apply H3. exact Hr. }
  assert (Inside_case : forall name d k sk, holds_symbols a -> shows a skip name d k -> says (s, e, a) sk ->
    exists forest left_ seen' taken,
      match find_syms fuel rest e sk with
      | Some (children, rest') =>
          match find_syms fuel rest' section_end skip with
          | Some (more, left_) => Some (Sym name d k (span_to_range s e) (location_to_range s) (Some children) :: more, left_) | None => None end
      | None => None end = Some (forest, left_)
      /\ (s, e, a) :: rest = taken ++ left_
      /\ (forall i, In i left_ -> ~ before (start_of i) section_end) /\ fits seen' stack left_
      /\ forall r, outlined seen' left_ r -> outlined seen ((s, e, a) :: rest) (rows (path_above stack) forest ++ r)).
  { intros name d k sk Hh Hsh Hsay. set (x := Entry name d k (span_to_range s e) (location_to_range s)). set (me := ((s, e, a), (path_above stack, x))).
    destruct (IH rest e sk (me :: seen) (me :: stack)) as (children & rest' & seen1 & taken1 & E & E2 & H1 & H2 & H3);
      [lia|exact Hs'|exact Hv'|split; [exact Hh|split; [reflexivity|exact Hsay]]| |].
    { intros i Hi. cbn [List.find]. destruct (belowb i me); [reflexivity|]. apply F'. exact Hi. }
    rewrite E.
    assert (In_rest : forall i, In i rest' -> In i rest) by (intros i Hi; rewrite E2; apply in_or_app; right; exact Hi).
    destruct (IH rest' section_end skip seen1 stack) as (more & left_ & seen' & taken2 & E' & E2' & H1' & H2' & H3').
    { rewrite E2, app_length in Hf. lia. }
    { rewrite E2 in Hs'. eapply sorted_app_r. exact Hs'. }
    { intros i Hi. apply Hv'. apply In_rest, Hi. }
    { apply St'. exact In_rest. }
    { intros i Hi. rewrite (H2 i Hi). cbn [List.find]. destruct (belowb i me) eqn:Bi; [|reflexivity]. apply belowb_iff in Bi. destruct Bi as [_ Bi].
      apply H1 in Hi. contradiction. }
    rewrite E'. exists (Sym name d k (span_to_range s e) (location_to_range s) (Some children) :: more), left_, seen', ((s, e, a) :: taken1 ++ taken2).
    split; [reflexivity|]. split; [rewrite E2, E2'; cbn [app]; rewrite <- app_assoc; reflexivity|]. split; [exact H1'|]. split; [exact H2'|]. intros r Hr.
    change (rows (path_above stack) (Sym name d k (span_to_range s e) (location_to_range s) (Some children) :: more))
      with (((path_above stack, x) :: rows (path_above stack ++ [x]) children) ++ rows (path_above stack) more).
    rewrite <- app_assoc. cbn [app]. eapply take_row; try eassumption.
    - apply holds_has. exact Hh.
    - split; [exact Hsh|apply placed_spec].
    - change (path_above stack ++ [x]) with (path_above (me :: stack)) in *. apply (H3 _). apply H3'. exact Hr. }
  destruct a as [path|path|path idx|ty name|name|path|path|].
  - destruct path as [|c path]; [apply None_case; cbn; tauto|]. pose proof (name_and_detail_spec (c :: path) skip) as N.
    destruct (name_and_detail (c :: path) skip) as [[name d]|]; [|discriminate N]. destruct N as (before & N & Hd). apply Inside_case.
    + cbn. discriminate.
    + rewrite N. apply sh_block. exact Hd.
    + left. exists (c :: path). split; reflexivity.
  - pose proof (name_and_detail_spec path skip) as N. destruct (name_and_detail path skip) as [[name d]|].
    + destruct N as (before & N & Hd). apply One_case; [exact I|intros []|]. rewrite N. apply sh_variable. exact Hd.
    + exfalso. apply (Hv _ (or_introl eq_refl)). rewrite N. reflexivity.
  - destruct path as [|c path]; [apply None_case; cbn; tauto|]. pose proof (name_and_detail_spec (c :: path) skip) as N.
    destruct (name_and_detail (c :: path) skip) as [[name d]|]; [|discriminate N]. destruct N as (before & N & Hd). apply Inside_case.
    + cbn. discriminate.
    + rewrite N. apply sh_body; [exact Hd|]. apply body_kind_spec.
    + right. split; [reflexivity|]. intros p. discriminate.
  - apply One_case; [exact I|intros []|apply sh_local].
  - apply One_case; [exact I|intros []|apply sh_macro].
  - apply None_case. intros [].
  - apply None_case. intros [].
  - apply None_case. intros [].
Qed.

(** ** The order *)
Lemma not_before_eq a b : ~ before a b -> ~ before b a -> a = b.
Proof. rewrite !not_before_kle. rewrite !kle_iff. intros [H|H] [H'|H']; auto. exfalso. apply (klt_irrefl a). eapply klt_trans; eassumption. Qed.
Lemma before_asym a b : before a b -> before b a -> False.
Proof. rewrite !before_klt. intros H H'. apply (klt_irrefl a). eapply klt_trans; eassumption. Qed.
Lemma before_trans a b c : before a b -> before b c -> before a c.
Proof. rewrite !before_klt. apply klt_trans. Qed.
Lemma before_irrefl a : ~ before a a.
Proof. intros H. eapply before_asym; exact H. Qed.
Lemma rank_iff a b : (rank a <=? rank b) = true <-> is_block a = true \/ is_block b = false.
Proof. destruct a, b; cbn; split; intros; auto; try discriminate; try reflexivity; destruct H; discriminate. Qed.
Lemma key_leb_iff x y : key_leb x y = true <-> earlier x y.
Proof.
  destruct x as [[s1 e1] a1], y as [[s2 e2] a2]. unfold key_leb, earlier, start_of, last_of, ann_of, before. cbn [fst snd].
  rewrite orb_true_iff, andb_true_iff, orb_true_iff, andb_true_iff, rank_iff, !negb_true_iff. split.
  - intros [H|[H1 H2]]; [left; exact H|]. destruct (beforeb s1 s2) eqn:B; [left; reflexivity|]. right.
    split; [apply not_before_eq; unfold before; congruence|]. destruct H2 as [H2|[H2 H3]]; [left; exact H2|].
    destruct (beforeb e2 e1) eqn:B2; [left; reflexivity|]. right. split; [apply not_before_eq; unfold before; congruence|exact H3].
  - intros [H|[-> H]]; [left; exact H|]. right. assert (N : beforeb s2 s2 = false) by (destruct (beforeb s2 s2) eqn:B; [destruct (before_irrefl _ B)|reflexivity]).
    split; [exact N|]. destruct H as [H|[-> H]]; [left; exact H|]. right.
    assert (N' : beforeb e2 e2 = false) by (destruct (beforeb e2 e2) eqn:B; [destruct (before_irrefl _ B)|reflexivity]). split; [exact N'|exact H].
Qed.
Lemma earlier_total x y : earlier x y \/ earlier y x.
Proof.
  destruct (key_leb x y) eqn:K; [left; apply key_leb_iff; exact K|]. right. apply key_leb_iff. revert K.
  destruct x as [[s1 e1] a1], y as [[s2 e2] a2]. unfold key_leb. destruct (beforeb s1 s2) eqn:B1; [discriminate|]. cbn [orb].
  destruct (beforeb s2 s1) eqn:B2; [intros; reflexivity|]. cbn [negb andb orb]. destruct (beforeb e2 e1) eqn:B3; [discriminate|]. cbn [orb].
  destruct (beforeb e1 e2) eqn:B4; [intros; reflexivity|]. cbn [negb andb orb]. intros H. apply Nat.leb_gt in H. apply Nat.leb_le. lia.
Qed.
Lemma earlier_trans x y z : earlier x y -> earlier y z -> earlier x z.
Proof.
  unfold earlier. intros [H|[E H]] [H'|[E' H']].
  - left. eapply before_trans; eassumption.
  - left. rewrite <- E'. exact H.
  - left. rewrite E. exact H'.
  - right. split; [congruence|]. destruct H as [H|[F H]], H' as [H'|[F' H']].
    + left. eapply before_trans; eassumption.
    + left. rewrite <- F'. exact H.
    + left. rewrite F. exact H'.
    + right. split; [congruence|]. destruct H as [H|H]; [left; exact H|]. destruct H' as [H'|H']; [congruence|right; exact H'].
Qed.
Lemma sort_in_In x l z : In z (sort_in x l) <-> x = z \/ In z l.
Proof.
  induction l as [|y l IH]; cbn [sort_in]; [reflexivity|]. destruct (key_leb x y); [reflexivity|]. cbn [In]. rewrite IH. tauto.
Qed.
Lemma sort_in_sorted x l : StronglySorted earlier l -> StronglySorted earlier (sort_in x l).
Proof.
  induction 1 as [|y l Hl IH Hy]; cbn [sort_in]; [repeat constructor|]. destruct (key_leb x y) eqn:K.
  - apply key_leb_iff in K. constructor; [constructor; assumption|]. constructor; [exact K|]. rewrite Forall_forall in *. intros z Hz. eapply earlier_trans; [exact K|apply Hy; exact Hz].
  - constructor; [exact IH|]. rewrite Forall_forall in *. intros z Hz. apply sort_in_In in Hz. destruct Hz as [<-|Hz]; [|apply Hy; exact Hz].
    destruct (earlier_total x y) as [H|H]; [|exact H]. apply key_leb_iff in H. congruence.
Qed.
Lemma alike_iff x y : alike x y = true <-> fst x = fst y /\ is_block (ann_of x) = is_block (ann_of y).
Proof. unfold alike. rewrite andb_true_iff, range_eqb_eq, eqb_true_iff. reflexivity. Qed.
Lemma sort_in_alike z x l : filter (alike z) (sort_in x l) = filter (alike z) (x :: l).
Proof.
  induction l as [|y l IH]; cbn [sort_in]; [reflexivity|]. destruct (key_leb x y) eqn:K; [reflexivity|]. cbn [filter] in *. rewrite IH.
  destruct (alike z x) eqn:A1, (alike z y) eqn:A2; try reflexivity. exfalso. apply alike_iff in A1. apply alike_iff in A2.
  destruct A1 as [A1 B1], A2 as [A2 B2]. assert (E : earlier x y); [|apply key_leb_iff in E; congruence].
  right. unfold start_of, last_of. rewrite <- A1, <- A2. split; [reflexivity|]. right. split; [reflexivity|]. rewrite <- B1, <- B2.
  destruct (is_block (ann_of z)); auto.
Qed.
Lemma sort_items_spec items : in_order items (sort_items items).
Proof.
  split.
  - induction items as [|x l IH]; cbn; [constructor|]. apply sort_in_sorted. exact IH.
  - intros z. induction items as [|x l IH]; [reflexivity|]. cbn [sort_items fold_right]. rewrite sort_in_alike. cbn [filter]. fold (sort_items l). rewrite IH. reflexivity.
Qed.
Lemma in_order_In items sorted x : in_order items sorted -> In x items <-> In x sorted.
Proof.
  intros [_ H]. assert (A : forall l, In x l <-> In x (filter (alike x) l)).
  { intros l. rewrite filter_In. assert (alike x x = true) by (apply alike_iff; auto). tauto. }
  rewrite (A items), (A sorted), H. reflexivity.
Qed.
Lemma earlier_starts l : StronglySorted earlier l -> starts_sorted l.
Proof.
  unfold starts_sorted. induction 1 as [|x l Hl IH Hx]; constructor; [exact IH|]. rewrite Forall_forall in *. intros y Hy.
  destruct (Hx y Hy) as [H|[E _]].
  - intros H'. eapply before_asym; eassumption.
  - rewrite E. apply before_irrefl.
Qed.

(** The outline of annotations in order: for each that has a symbol, in order, a row, under the newest one before it that it is below of. *)
Theorem C75_outline : forall items section_end fuel,
  List.length items < fuel -> StronglySorted earlier items -> (forall i, In i items -> ann_of i <> AVariable []) -> (forall i, In i items -> before (start_of i) section_end) ->
  exists forest, find_document_symbols fuel items section_end 0 = Some (forest, []) /\ outlined [] items (rows [] forest).
Proof.
  intros items se fuel Hf Hs Hv Hb. destruct (find_spec fuel items se 0 [] []) as (forest & left_ & seen' & taken & E & E2 & H1 & _ & H3).
  - exact Hf.
  - apply earlier_starts. exact Hs.
  - exact Hv.
  - split; [reflexivity|exact Hb].
  - intros i _. reflexivity.
  - destruct left_ as [|i l].
    + exists forest. split; [exact E|]. specialize (H3 [] (ol_nil _)). rewrite app_nil_r in H3. exact H3.
    + exfalso. apply (H1 i (or_introl eq_refl)). apply Hb. rewrite E2. apply in_or_app. right. left. reflexivity.
Qed.
Print Assumptions C75_outline.

Theorem C75_order : forall items, in_order items (sort_items items).
Proof. exact sort_items_spec. Qed.
Print Assumptions C75_order.

(** an empty path of a variable, of which there is none: then, and only then, the request panics *)
Lemma find_panic : forall fuel items section_end skip forest left_ i,
  find_document_symbols fuel items section_end skip = Some (forest, left_) -> In i items -> ann_of i = AVariable [] -> In i left_.
Proof.
  induction fuel as [|fuel IH]; intros items se skip forest left_ i E Hi Ha; [discriminate E|]. destruct items as [|[[s e] a] rest]; [destruct Hi|].
  cbn [find_document_symbols] in E. destruct (beforeb s se); cbn [negb] in E; [|injection E; intros <- _; exact Hi].
  assert (R : In i rest \/ a = AVariable []) by (destruct Hi as [<-|Hi]; [right; exact Ha|left; exact Hi]). clear Hi.
  assert (A1 : In i rest -> match find_document_symbols fuel rest se skip with Some (_, l) => In i l | None => True end).
  { intros Hi. destruct (find_document_symbols fuel rest se skip) as [[f l]|] eqn:E1; [|exact I]. eapply IH; eassumption. }
  assert (A2 : forall sk, In i rest -> match find_document_symbols fuel rest e sk with
    | Some (_, r') => match find_document_symbols fuel r' se skip with Some (_, l) => In i l | None => True end | None => True end).
  { intros sk Hi. destruct (find_document_symbols fuel rest e sk) as [[f l]|] eqn:E1; [|exact I].
    destruct (find_document_symbols fuel l se skip) as [[f2 l2]|] eqn:E2; [|exact I]. eapply IH; [exact E2| |exact Ha]. eapply IH; eassumption. }
  destruct a as [path|path|path idx|ty name|name|path|path|];
    (destruct R as [R|R]; [|try discriminate R; injection R; intros ->; discriminate E]); specialize (A1 R);
    pose proof (fun sk => A2 sk R) as A3; clear A2.
  - destruct path as [|c path]; [rewrite E in A1; exact A1|]. specialize (A3 (List.length (c :: path))). destruct (name_and_detail (c :: path) skip) as [[n d]|]; [|discriminate E].
    destruct (find_document_symbols fuel rest e (List.length (c :: path))) as [[f l]|]; [|discriminate E]. destruct (find_document_symbols fuel l se skip) as [[f2 l2]|]; [|discriminate E].
    injection E. intros <- _. exact A3.
  - destruct (name_and_detail path skip) as [[n d]|]; [|discriminate E]. destruct (find_document_symbols fuel rest se skip) as [[f l]|]; [|discriminate E]. injection E. intros <- _. exact A1.
  - destruct path as [|c path]; [rewrite E in A1; exact A1|]. specialize (A3 0). destruct (name_and_detail (c :: path) skip) as [[n d]|]; [|discriminate E].
    destruct (find_document_symbols fuel rest e 0) as [[f l]|]; [|discriminate E]. destruct (find_document_symbols fuel l se skip) as [[f2 l2]|]; [|discriminate E].
    injection E. intros <- _. exact A3.
  - destruct (find_document_symbols fuel rest se skip) as [[f l]|]; [|discriminate E]. injection E. intros <- _. exact A1.
  - destruct (find_document_symbols fuel rest se skip) as [[f l]|]; [|discriminate E]. injection E. intros <- _. exact A1.
  - rewrite E in A1. exact A1.
  - rewrite E in A1. exact A1.
  - rewrite E in A1. exact A1.
Qed.

(** ** The whole request *)
(** the ranges of a file, out of the annotation tree *)
Definition end_of_file (file : Z) : loc := (file, (2 ^ 32 - 1, 2 ^ 16 - 1))%Z.
Definition touches_file (file : Z) (x : loc * loc * ann) : bool := beforeb (fst (fst x)) (end_of_file file) && beforeb (file, (0, 0))%Z (snd (fst x)).
Theorem C75_document : forall (b : build ann) (file : Z), build_ok b -> (0 <= file < 2 ^ 16)%Z ->
  exists annotations sorted, run_build b = Some annotations
    /\ in_order (map reported (filter (touches_file file) (inserted b))) sorted
    /\ ((exists i, In i sorted /\ ann_of i = AVariable []) <-> document_symbols annotations file = None)
    /\ (inserted b = [] -> document_symbols annotations file = Some None)
    /\ (inserted b <> [] -> (forall i, In i sorted -> ann_of i <> AVariable []) ->
        exists forest, document_symbols annotations file = Some (Some forest) /\ outlined [] sorted (rows [] forest)).
Proof.
  intros b file Hb Hfile. destruct (Loc.Props.C05_annotation_lookups ann b Hb) as (a & Ha & Hl & _ & Hr & _).
  assert (Hs : loc_ok (file, (0, 0))%Z) by (unfold loc_ok, lfile, lline, lcol; cbn [fst snd]; change (2 ^ 32)%Z with 4294967296%Z; change (2 ^ 16)%Z with 65536%Z in *; lia).
  assert (He : loc_ok (end_of_file file)) by (unfold end_of_file, loc_ok, lfile, lline, lcol; cbn [fst snd]; change (2 ^ 32)%Z with 4294967296%Z; change (2 ^ 16)%Z with 65536%Z in *; lia).
  assert (Hp : has_pred (end_of_file file)) by (unfold has_pred, end_of_file; split; intros H; apply (f_equal (fun l : loc => lline l)) in H; vm_compute in H; discriminate H).
  destruct (Hr _ _ Hs He Hp) as (res & Eres & Rres). exists a, (sort_items res). split; [exact Ha|].
  destruct (sort_items_spec res) as [O1 O2]. destruct Rres as [_ R2].
  assert (O : in_order (map reported (filter (touches_file file) (inserted b))) (sort_items res)).
  { split; [exact O1|]. intros x. rewrite O2.
    assert (A : forall l, filter (alike x) l = filter (fun y => Bool.eqb (is_block (ann_of x)) (is_block (ann_of y))) (filter (fun y => range_eqb (fst y) (fst x)) l)).
    { intros l. induction l as [|y l IH]; cbn [filter]; [reflexivity|]. unfold alike at 1.
      assert (Q : range_eqb (fst x) (fst y) = range_eqb (fst y) (fst x)).
      { destruct (range_eqb (fst x) (fst y)) eqn:Q1, (range_eqb (fst y) (fst x)) eqn:Q2; auto; [apply range_eqb_eq in Q1|apply range_eqb_eq in Q2]; [rewrite Q1 in Q2|rewrite Q2 in Q1]; rewrite range_eqb_refl in *; discriminate. }
      rewrite Q. destruct (range_eqb (fst y) (fst x)); cbn [andb filter]; [|exact IH]. rewrite IH. reflexivity. }
    rewrite !A. rewrite R2. reflexivity. }
  split; [exact O|].
  assert (Hin : forall i, In i (sort_items res) -> before (start_of i) (end_of_file file)).
  { intros i Hi. apply (in_order_In _ _ _ O) in Hi. apply in_map_iff in Hi. destruct Hi as ([[s e] v] & <- & Hi). apply filter_In in Hi. destruct Hi as [_ Hi].
    unfold touches_file in Hi. apply andb_true_iff in Hi. exact (proj1 Hi). }
  assert (Len : List.length (sort_items res) < S (List.length res)).
  { assert (G : forall l, List.length (sort_items l) = List.length l); [|rewrite G; apply Nat.lt_succ_diag_r]. intros l. induction l as [|x l IH]; [reflexivity|]. cbn [sort_items fold_right List.length].
    fold (sort_items l). rewrite <- IH. generalize (sort_items l). intros m. induction m as [|y m IHm]; [reflexivity|]. cbn [sort_in]. destruct (key_leb x y); cbn [List.length]; [reflexivity|]. rewrite IHm. reflexivity. }
  assert (Empty : alen a = 0 <-> inserted b = []) by (rewrite Hl; split; [apply length_zero_iff_nil|intros ->; reflexivity]).
  assert (Fine : inserted b <> [] -> (forall i, In i (sort_items res) -> ann_of i <> AVariable []) ->
        exists forest, document_symbols a file = Some (Some forest) /\ outlined [] (sort_items res) (rows [] forest)).
  { intros Hne Hv. destruct (C75_outline (sort_items res) (end_of_file file) (S (List.length res)) Len O1 Hv Hin) as (forest & E & F).
    exists forest. split; [|exact F]. unfold document_symbols. destruct (Nat.eqb_spec (alen a) 0) as [Z|Z]; [apply Empty in Z; contradiction|].
    fold (end_of_file file). rewrite Eres, E. reflexivity. }
  assert (None_ : inserted b = [] -> document_symbols a file = Some None).
  { intros H. apply Empty in H. unfold document_symbols. rewrite H. reflexivity. }
  split; [|split; [exact None_|exact Fine]]. split.
  - intros (i & Hi & Hai). unfold document_symbols. destruct (Nat.eqb_spec (alen a) 0) as [Z|Z].
    { apply Empty in Z. apply (in_order_In _ _ _ O) in Hi. rewrite Z in Hi. destruct Hi. }
    fold (end_of_file file). rewrite Eres. destruct (find_document_symbols _ _ _ _) as [[f l]|] eqn:E; [|reflexivity]. exfalso.
    pose proof (find_panic _ _ _ _ _ _ _ E Hi Hai) as Hl2.
    assert (K : forall fuel items se skip f l i, find_document_symbols fuel items se skip = Some (f, l) -> In i l -> starts_sorted items -> ~ before (start_of i) se).
    { clear. induction fuel as [|fuel IH]; intros items se skip f l i E Hi Hs; [discriminate E|].
      destruct items as [|[[s e] a] rest]; [injection E; intros <- _; destruct Hi|]. cbn [find_document_symbols] in E. destruct (sorted_rest _ _ Hs) as [Hs' Hle].
      destruct (beforeb s se) eqn:B; cbn [negb] in E.
      2:{ injection E; intros <- _. assert (N : ~ before s se) by (unfold before; congruence). destruct Hi as [<-|Hi]; [exact N|]. apply Hle in Hi. cbn [start_of fst] in Hi. eapply before_le; eassumption. }
      assert (Sub : forall fu its s2 sk f l, find_document_symbols fu its s2 sk = Some (f, l) -> exists taken, its = taken ++ l).
      { clear. induction fu as [|fu IH]; intros its s2 sk f l E; [discriminate E|]. destruct its as [|[[s e] a] rest]; [injection E; intros <- _; exists []; reflexivity|].
        cbn [find_document_symbols] in E. destruct (beforeb s s2); cbn [negb] in E; [|injection E; intros <- _; exists []; reflexivity].
        assert (One : forall (x : sym), match find_document_symbols fu rest s2 sk with Some (m, l0) => Some (x :: m, l0) | None => None end = Some (f, l) -> exists taken, (s, e, a) :: rest = taken ++ l).
        { intros x E1. destruct (find_document_symbols fu rest s2 sk) as [[m l0]|] eqn:E2; [|discriminate E1]. injection E1. intros <- _. destruct (IH _ _ _ _ _ E2) as [t ->]. exists ((s, e, a) :: t). reflexivity. }
        assert (Two : forall sk2 (mk : list sym -> sym), match find_document_symbols fu rest e sk2 with Some (c, r') => match find_document_symbols fu r' s2 sk with Some (m, l0) => Some (mk c :: m, l0) | None => None end | None => None end = Some (f, l) -> exists taken, (s, e, a) :: rest = taken ++ l).
        { intros sk2 mk E1. destruct (find_document_symbols fu rest e sk2) as [[c r']|] eqn:E2; [|discriminate E1]. destruct (find_document_symbols fu r' s2 sk) as [[m l0]|] eqn:E3; [|discriminate E1].
          injection E1. intros <- _. destruct (IH _ _ _ _ _ E2) as [t ->]. destruct (IH _ _ _ _ _ E3) as [t2 ->]. exists ((s, e, a) :: t ++ t2). cbn [app]; rewrite <- app_assoc. reflexivity. }
        assert (Zero : find_document_symbols fu rest s2 sk = Some (f, l) -> exists taken, (s, e, a) :: rest = taken ++ l).
        { intros E1. destruct (IH _ _ _ _ _ E1) as [t ->]. exists ((s, e, a) :: t). reflexivity. }
        destruct a as [path|path|path idx|ty name|name|path|path|]; try (apply Zero; exact E).
        - destruct path as [|c path]; [apply Zero; exact E|]. destruct (name_and_detail _ _) as [[n d]|]; [|discriminate E]. eapply Two. exact E.
        - destruct (name_and_detail _ _) as [[n d]|]; [|discriminate E]. eapply One. exact E.
        - destruct path as [|c path]; [apply Zero; exact E|]. destruct (name_and_detail _ _) as [[n d]|]; [|discriminate E]. eapply Two. exact E.
        - eapply One. exact E.
        - eapply One. exact E. }
      assert (One : forall (x : sym), match find_document_symbols fuel rest se skip with Some (m, l0) => Some (x :: m, l0) | None => None end = Some (f, l) -> ~ before (start_of i) se).
      { intros x E1. destruct (find_document_symbols fuel rest se skip) as [[m l0]|] eqn:E2; [|discriminate E1]. injection E1. intros <- _. eapply IH; eassumption. }
      assert (Two : forall sk2 (mk : list sym -> sym), match find_document_symbols fuel rest e sk2 with Some (c, r') => match find_document_symbols fuel r' se skip with Some (m, l0) => Some (mk c :: m, l0) | None => None end | None => None end = Some (f, l) -> ~ before (start_of i) se).
      { intros sk2 mk E1. destruct (find_document_symbols fuel rest e sk2) as [[c r']|] eqn:E2; [|discriminate E1]. destruct (find_document_symbols fuel r' se skip) as [[m l0]|] eqn:E3; [|discriminate E1].
        injection E1. intros <- _. eapply IH; [exact E3|exact Hi|]. destruct (Sub _ _ _ _ _ _ E2) as [t ->]. eapply sorted_app_r. exact Hs'. }
      destruct a as [path|path|path idx|ty name|name|path|path|]; try (eapply IH; eassumption).
      - destruct path as [|c path]; [eapply IH; eassumption|]. destruct (name_and_detail _ _) as [[n d]|]; [|discriminate E]. eapply Two. exact E.
      - destruct (name_and_detail _ _) as [[n d]|]; [|discriminate E]. eapply One. exact E.
      - destruct path as [|c path]; [eapply IH; eassumption|]. destruct (name_and_detail _ _) as [[n d]|]; [|discriminate E]. eapply Two. exact E.
      - eapply One. exact E.
      - eapply One. exact E. }
    apply (K _ _ _ _ _ _ i E Hl2); [apply earlier_starts; exact O1|]. apply Hin. exact Hi.
  - intros E. destruct (inserted b) as [|x0 l0] eqn:Ei; [rewrite None_ in E by reflexivity; discriminate E|].
    destruct (existsb (fun i => match ann_of i with AVariable [] => true | _ => false end) (sort_items res)) eqn:X.
    + apply existsb_exists in X. destruct X as (i & Hi & X). exists i. split; [exact Hi|]. destruct (ann_of i) as [p|[|c p]|p n|ty n|n|p|p|]; try discriminate X. reflexivity.
    + exfalso. destruct Fine as (forest & E2 & _); [discriminate| |congruence]. intros i Hi Hai.
      assert (X2 : existsb (fun i => match ann_of i with AVariable [] => true | _ => false end) (sort_items res) = true); [|congruence].
      apply existsb_exists. exists i. split; [exact Hi|]. rewrite Hai. reflexivity.
Qed.
Print Assumptions C75_document.

(** ** What is above what *)
Definition row_ok (older : list (item * row)) (c : item * row) : Prop :=
  let '(i, (ab, x)) := c in
  exists said, shown i said x
    /\ ((ab = [] /\ said = 0 /\ forall j, In j older -> ~ below i (fst j))
        \/ exists newer j abj y old, older = newer ++ (j, (abj, y)) :: old /\ below i j /\ (forall k, In k newer -> ~ below i (fst k)) /\ says j said /\ ab = abj ++ [y]).
Inductive hist : list (item * row) -> Prop :=
  | hist_nil : hist []
  | hist_cons c l : row_ok l c -> (forall d, In d l -> earlier (fst d) (fst c)) -> hist l -> hist (c :: l).
Lemma hist_of seen items r : outlined seen items r -> StronglySorted earlier items -> (forall d i, In d seen -> In i items -> earlier (fst d) i) -> hist seen ->
  exists l, hist (l ++ seen) /\ rev l = combine (symbols items) r /\ List.length r = List.length (symbols items).
Proof.
  induction 1 as [seen|seen i rest r Hn H IH|seen i rest r x Hs Hno Hx H IH|newer j above y older i rest r said x Hs Hb Hno Hsay Hx H IH]; intros S Sd Hh.
  - exists []. split; [exact Hh|]. split; reflexivity.
  - apply StronglySorted_inv in S. destruct S as [S S']. destruct IH as (l & H1 & H2 & H3); [exact S|intros d k Hd Hk; apply Sd; [exact Hd|right; exact Hk]|exact Hh|].
    exists l. assert (E : symbols (i :: rest) = symbols rest).
    { unfold symbols. cbn [filter]. destruct (has_symbolb (ann_of i)) eqn:B; [apply has_symbolb_iff in B; contradiction|reflexivity]. }
    rewrite E. split; [exact H1|]. split; assumption.
  - apply StronglySorted_inv in S. destruct S as [S S']. rewrite Forall_forall in S'. destruct IH as (l & H1 & H2 & H3).
    + exact S.
    + intros d k Hd Hk. destruct Hd as [Hd|Hd]; [subst d; apply S'; exact Hk|apply Sd; [exact Hd|right; exact Hk]].
    + constructor; [|intros d Hd; apply Sd; [exact Hd|left; reflexivity]|exact Hh]. exists 0. split; [exact Hx|]. left. split; [reflexivity|]. split; [reflexivity|exact Hno].
    + exists (l ++ [(i, ([], x))]). rewrite <- app_assoc. split; [exact H1|]. rewrite rev_app_distr, H2. apply has_symbolb_iff in Hs. unfold symbols. cbn [filter]. rewrite Hs. cbn [List.length]. fold (symbols rest). rewrite H3. split; reflexivity.
  - apply StronglySorted_inv in S. destruct S as [S S']. rewrite Forall_forall in S'. destruct IH as (l & H1 & H2 & H3).
    + exact S.
    + intros d k Hd Hk. destruct Hd as [Hd|Hd]; [subst d; apply S'; exact Hk|apply Sd; [exact Hd|right; exact Hk]].
    + constructor; [|intros d Hd; apply Sd; [exact Hd|left; reflexivity]|exact Hh]. exists said. split; [exact Hx|]. right. exists newer, j, above, y, older. auto.
    + exists (l ++ [(i, (above ++ [y], x))]). rewrite <- app_assoc. split; [exact H1|]. rewrite rev_app_distr, H2. apply has_symbolb_iff in Hs. unfold symbols. cbn [filter]. rewrite Hs. cbn [List.length]. fold (symbols rest). rewrite H3. split; reflexivity.
Qed.
Lemma cut_at {A : Type} : forall (p n : list A) (x k : A) q o, p ++ x :: q = n ++ k :: o ->
  (p = n /\ x = k /\ q = o) \/ In x n \/ exists m, p = n ++ k :: m /\ o = m ++ x :: q.
Proof.
  induction p as [|a p IH]; intros n x k q o E; destruct n as [|b n]; cbn [app] in E.
  - injection E. auto.
  - injection E. intros _ E2. right. left. left. congruence.
  - injection E. intros E1 ->. right. right. exists p. auto.
  - injection E. intros E1 ->. destruct (IH _ _ _ _ _ E1) as [(-> & -> & ->)|[H|(m & -> & ->)]]; [auto|right; left; right; exact H|right; right; exists m; auto].
Qed.
Lemma earlier_start x y : earlier x y -> ~ before (start_of y) (start_of x).
Proof. intros [H|[E _]] H'; [eapply before_asym; eassumption|rewrite E in H'; exact (before_irrefl _ H')]. Qed.
Lemma hist_above l : hist l -> forall p i ab x mid j abj y old,
  l = p ++ (i, (ab, x)) :: mid ++ (j, (abj, y)) :: old -> below i j -> exists post, ab = abj ++ y :: post.
Proof.
  induction 1 as [|c l R S Hl IH]; intros p i ab x mid j abj y old E B; [destruct p; discriminate E|].
  destruct p as [|c' p]; cbn [app] in E; injection E; clear E.
  2:{ intros E _. eapply IH; eassumption. }
  intros El ->. destruct R as (said & Hx & [(-> & _ & Hno)|(newer & k & abk & yk & o & E2 & Bk & Hno & _ & ->)]).
  { exfalso. apply (Hno (j, (abj, y))); [rewrite El; apply in_or_app; right; left; reflexivity|exact B]. }
  rewrite El in E2. destruct (cut_at _ _ _ _ _ _ E2) as [(-> & E3 & _)|[H|(m & -> & ->)]].
  - injection E3. intros -> -> ->. exists []. reflexivity.
  - exfalso. apply (Hno _ H). exact B.
  - destruct (IH newer k abk yk m j abj y old) as [post ->].
    + rewrite El, <- app_assoc. reflexivity.
    + destruct B as [B1 B2]. split; [exact B1|]. assert (Hk : earlier k i). { apply (S (k, (abk, yk))). rewrite El, <- app_assoc. apply in_or_app. right. left. reflexivity. }
      apply earlier_start in Hk. rewrite before_klt in *. apply not_klt in Hk. eapply kle_klt_trans; eassumption.
    + exists (post ++ [yk]). rewrite <- app_assoc. reflexivity.
Qed.
Lemma nth_combine {A B : Type} : forall (a : list A) (b : list B) n x y, nth_error a n = Some x -> nth_error b n = Some y -> nth_error (combine a b) n = Some (x, y).
Proof. induction a as [|u a IH]; intros [|v b] [|n] x y H1 H2; cbn in *; try discriminate; [congruence|]. apply IH; assumption. Qed.
Lemma two_nth {A : Type} (l : list A) m n x y : m < n -> nth_error l m = Some x -> nth_error l n = Some y -> exists p q o, l = p ++ x :: q ++ y :: o /\ List.length p = m.
Proof.
  intros H Hx Hy. destruct (nth_error_split _ _ Hx) as (p & t & -> & Lp). exists p. rewrite nth_error_app2 in Hy by lia. destruct (n - List.length p) as [|k] eqn:K; [lia|].
  cbn [nth_error] in Hy. destruct (nth_error_split _ _ Hy) as (q & o & -> & _). exists q, o. split; [reflexivity|exact Lp].
Qed.

(** Whatever starts inside of a range is somewhere below it: no range is forgotten on the way up. *)
Theorem C75_above : forall items r m n j abj y i ab x,
  outlined [] items r -> StronglySorted earlier items ->
  nth_error (symbols items) m = Some j -> nth_error r m = Some (abj, y) -> nth_error (symbols items) n = Some i -> nth_error r n = Some (ab, x) ->
  m < n -> below i j -> exists post, ab = abj ++ y :: post.
Proof.
  intros items r m n j abj y i ab x O S Hj Hrj Hi Hri L B. destruct (hist_of _ _ _ O S) as (l & Hl & El & _); [intros d k []|constructor|].
  rewrite app_nil_r in Hl. destruct (two_nth (combine (symbols items) r) m n _ _ L (nth_combine _ _ _ _ _ Hj Hrj) (nth_combine _ _ _ _ _ Hi Hri)) as (p & q & o & E & _).
  rewrite <- El in E. apply (f_equal (@rev _)) in E. rewrite rev_involutive, rev_app_distr in E. cbn [rev] in E. rewrite rev_app_distr in E. cbn [rev] in E.
  rewrite <- !app_assoc in E. cbn [app] in E. eapply (hist_above l Hl (rev o) i ab x (rev q) j abj y); [exact E|exact B].
Qed.
Print Assumptions C75_above.

(** One row for each annotation with a symbol, in the same order, showing it. *)
Theorem C75_each : forall items r, outlined [] items r -> Forall2 (fun i (rw : row) => exists said, shown i said (snd rw)) (symbols items) r.
Proof.
  intros items r H. remember [] as seen. clear Heqseen. induction H as [seen|seen i rest r Hn H IH|seen i rest r x Hs Hno Hx H IH|newer j above y older i rest r said x Hs Hb Hno Hsay Hx H IH].
  - constructor.
  - unfold symbols. cbn [filter]. destruct (has_symbolb (ann_of i)) eqn:B; [apply has_symbolb_iff in B; contradiction|exact IH].
  - unfold symbols. cbn [filter]. apply has_symbolb_iff in Hs. rewrite Hs. constructor; [exists 0; exact Hx|exact IH].
  - unfold symbols. cbn [filter]. apply has_symbolb_iff in Hs. rewrite Hs. constructor; [exists said; exact Hx|exact IH].
Qed.
Print Assumptions C75_each.

Lemma within_trans i j k : within i j -> within j k -> within i k.
Proof. unfold within. intros [A1 A2] [B1 B2]. split; [eapply before_le; [exact B1|exact A1]|eapply before_le; [exact A2|exact B2]]. Qed.
Lemma hist_within l file : hist l -> in_file (map fst l) file -> nested (map fst l) ->
  forall i ab x, In (i, (ab, x)) l -> (exists said, shown i said x) /\ forall a, In a ab -> exists k abk, In (k, (abk, a)) l /\ within i k.
Proof.
  induction 1 as [|c l R S Hl IH]; intros F N i ab x Hi; [destruct Hi|].
  assert (F' : in_file (map fst l) file) by (intros k Hk; apply F; right; exact Hk).
  assert (N' : nested (map fst l)) by (intros k k' Hk Hk'; apply N; right; assumption). specialize (IH F' N').
  destruct Hi as [->|Hi].
  2:{ destruct (IH _ _ _ Hi) as [H1 H2]. split; [exact H1|]. intros a Ha. destruct (H2 a Ha) as (k & abk & Hk & W). exists k, abk. split; [right; exact Hk|exact W]. }
  destruct R as (said & Hx & R). split; [exists said; exact Hx|]. intros a Ha. destruct R as [(-> & _ & _)|(newer & j & abj & y & old & -> & B & _ & _ & ->)]; [destruct Ha|].
  assert (Hj : In (j, (abj, y)) (newer ++ (j, (abj, y)) :: old)) by (apply in_or_app; right; left; reflexivity).
  assert (W : within i j).
  { assert (Hij : earlier j i) by apply (S _ Hj). assert (Ii : In i (map fst ((i, (abj ++ [y], x)) :: newer ++ (j, (abj, y)) :: old))) by (left; reflexivity).
    assert (Ij : In j (map fst ((i, (abj ++ [y], x)) :: newer ++ (j, (abj, y)) :: old))) by (right; apply (in_map fst _ _ Hj)).
    destruct B as [_ B]. destruct (N i j Ii Ij) as [W|[W|[W|W]]].
    - exact W.
    - destruct W as [W1 W2]. split; [apply earlier_start; exact Hij|]. destruct Hij as [Hij|[E [Hij|[E2 _]]]].
      + contradiction.
      + intros H. eapply before_asym; eassumption.
      + rewrite E2. apply before_irrefl.
    - exfalso. destruct (F i Ii) as (_ & _ & _ & Fi). apply earlier_start in Hij. apply Fi. rewrite before_klt in *. apply not_klt in Hij. eapply klt_kle_trans; eassumption.
    - exfalso. eapply before_asym; eassumption. }
  apply in_app_or in Ha. destruct Ha as [Ha|[<-|[]]].
  - destruct (IH _ _ _ Hj) as [_ H2]. destruct (H2 a Ha) as (k & abk & Hk & W'). exists k, abk. split; [right; exact Hk|eapply within_trans; eassumption].
  - exists j, abj. split; [right; exact Hj|exact W].
Qed.
Lemma position_mono a b p q : lfile a = lfile b -> (1 <= lline a)%Z -> ~ before b a -> position_of a p -> position_of b q -> position_le p q.
Proof.
  unfold position_of, position_le. intros Ef Hl H [P1 P2] [Q1 Q2]. rewrite before_iff in H. rewrite P1, P2, Q1, Q2.
  destruct (Z.lt_trichotomy (lline a) (lline b)) as [C|[C|C]]; lia.
Qed.
(** Where ranges are nested or apart, what is below something is inside of it. *)
Theorem C75_within : forall items r file ab x a,
  outlined [] items r -> StronglySorted earlier items -> in_file items file -> nested items -> In (ab, x) r -> In a ab -> range_within (en_range x) (en_range a).
Proof.
  intros items r file ab x a O S F N Hr Ha. destruct (hist_of _ _ _ O S) as (l & Hl & El & Len); [intros d k []|constructor|]. rewrite app_nil_r in Hl.
  assert (Sub : forall c, In c l -> In (fst c) items).
  { intros [i rw] Hc. apply in_rev in Hc. rewrite El in Hc. apply in_combine_l in Hc. apply filter_In in Hc. exact (proj1 Hc). }
  assert (F' : in_file (map fst l) file) by (intros k Hk; apply in_map_iff in Hk; destruct Hk as (c & <- & Hc); apply F; apply Sub; exact Hc).
  assert (N' : nested (map fst l)).
  { intros k k' Hk Hk'. apply in_map_iff in Hk. destruct Hk as (c & <- & Hc). apply in_map_iff in Hk'. destruct Hk' as (c' & <- & Hc'). apply N; apply Sub; assumption. }
  assert (Hin : exists i, In (i, (ab, x)) l).
  { destruct (In_nth_error _ _ Hr) as [n Hn]. destruct (nth_error (symbols items) n) as [i|] eqn:Ei.
    - exists i. assert (G : In (i, (ab, x)) (combine (symbols items) r)) by (eapply nth_error_In; apply nth_combine; eassumption). rewrite <- El in G. apply in_rev in G || apply <- in_rev; exact G.
    - exfalso. apply nth_error_None in Ei. pose proof (proj1 (nth_error_Some r n) (fun Q => ltac:(pose proof (eq_trans (eq_sym Hn) Q) as W; discriminate W))) as G. rewrite <- Len in Ei. apply (Nat.lt_irrefl n). eapply Nat.lt_le_trans; eassumption. }
  destruct Hin as [i Hi]. destruct (hist_within l file Hl F' N' _ _ _ Hi) as [[said Hx] Hab]. destruct (Hab a Ha) as (k & abk & Hk & [W1 W2]).
  destruct (hist_within l file Hl F' N' _ _ _ Hk) as [[said' Hx'] _].
  destruct (F i (Sub _ Hi)) as (Fi1 & Fi2 & Fi3 & Fi4). destruct (F k (Sub _ Hk)) as (Fk1 & Fk2 & Fk3 & Fk4).
  destruct i as [[s e] ai], k as [[s' e'] ak]. unfold shown, placed in Hx, Hx'. unfold start_of, last_of in *. cbn [fst snd] in *.
  destruct Hx as (_ & X1 & X2 & _), Hx' as (_ & Y1 & Y2 & _). split.
  - eapply position_mono; [| |exact W1|exact Y1|exact X1]; [congruence|exact Fk3].
  - eapply position_mono; [| |exact W2|exact X2|exact Y2]; [congruence|]. apply Z.le_trans with (lline s); [exact Fi3|]. rewrite before_iff in Fi4. lia.
Qed.
Print Assumptions C75_within.

(** ** Folding *)
Lemma strip_prefix_iff p t r : strip_prefix p t = Some r <-> t = p ++ r.
Proof.
  unfold strip_prefix. destruct (Text.starts_with p t) eqn:E.
  - apply starts_with_spec in E. destruct E as [r' ->]. rewrite skipn_app, Nat.sub_diag, skipn_all. cbn [app skipn]. split; [intros H; injection H; intros ->; reflexivity|].
    intros H. apply app_inv_head in H. rewrite H; reflexivity.
  - split; [discriminate|]. intros ->. assert (Text.starts_with p (p ++ r) = true) by (apply starts_with_spec; exists r; reflexivity). congruence.
Qed.
Lemma trim_start_split t : exists ws, t = ws ++ trim_start t /\ Forall (fun c => is_whitespace c = true) ws /\ match trim_start t with c :: _ => is_whitespace c = false | [] => True end.
Proof.
  induction t as [|c t (ws & E & H & H2)]; [exists []; cbn; auto|]. unfold trim_start in *. cbn [drop_while]. destruct (is_whitespace c) eqn:W.
  - exists (c :: ws). split; [cbn [app]; f_equal; exact E|]. split; [constructor; assumption|exact H2].
  - exists []. split; [reflexivity|]. split; [constructor|exact W].
Qed.
Lemma trim_start_after ws t : Forall (fun c => is_whitespace c = true) ws -> match t with c :: _ => is_whitespace c = false | [] => False end -> trim_start (ws ++ t) = t.
Proof.
  intros H Ht. unfold trim_start. induction H as [|c ws Hc H IH]; cbn [app drop_while].
  - destruct t as [|c t]; [destruct Ht|]. cbn [drop_while]. rewrite Ht. reflexivity.
  - rewrite Hc. exact IH.
Qed.
Lemma is_marker_iff line word :
  is_region_marker line (lit "#" ++ word) = true <-> exists sp tail, line = lit "//" ++ sp ++ (lit "#" ++ word) ++ tail /\ (sp = [] \/ sp = lit " ") /\ (tail = [] \/ exists c t, tail = c :: t /\ is_whitespace c = true).
Proof.
  unfold is_region_marker. split.
  - destruct (strip_prefix (lit "//") line) as [comment|] eqn:E; [|discriminate]. apply strip_prefix_iff in E. subst line.
    assert (G : forall rest : text, rest = match strip_prefix (lit " ") comment with Some r => r | None => comment end -> exists sp, comment = sp ++ rest /\ (sp = [] \/ sp = lit " ")).
    { intros rest. destruct (strip_prefix (lit " ") comment) as [r|] eqn:E; intros ->; [apply strip_prefix_iff in E; exists (lit " "); auto|exists []; auto]. }
    destruct (strip_prefix (lit "#" ++ word) _) as [suffix|] eqn:E2; [|discriminate]. apply strip_prefix_iff in E2. destruct (G _ (eq_sym E2)) as (sp & E & Hsp). clear E2 G. subst comment.
    intros H. exists sp, suffix. split; [reflexivity|]. split; [exact Hsp|]. destruct suffix as [|c t]; [left; reflexivity|right; exists c, t; auto].
  - intros (sp & tail & -> & Hsp & Ht). rewrite (proj2 (strip_prefix_iff (lit "//") _ _) eq_refl).
    assert (G : match strip_prefix (lit " ") (sp ++ (lit "#" ++ word) ++ tail) with Some r => r | None => sp ++ (lit "#" ++ word) ++ tail end = (lit "#" ++ word) ++ tail).
    { destruct Hsp as [-> | ->]; [|rewrite (proj2 (strip_prefix_iff (lit " ") _ _) eq_refl); reflexivity].
      destruct (strip_prefix (lit " ") _) as [r|] eqn:E; [apply strip_prefix_iff in E; discriminate E|reflexivity]. }
    rewrite G. rewrite (proj2 (strip_prefix_iff _ _ _) eq_refl). destruct Ht as [-> | (c & t & -> & W)]; [reflexivity|exact W].
Qed.
Lemma marks_iff (word : string) line : is_region_marker (trim_start line) (lit "#" ++ lit word) = true <-> marks_region (String "#"%char word) line.
Proof.
  rewrite is_marker_iff. unfold marks_region. change (lit (String "#"%char word)) with (lit "#" ++ lit word). split.
  - intros (sp & tail & E & Hsp & Ht). destruct (trim_start_split line) as (ws & El & Hw & _). exists ws, sp, tail. rewrite E in El. auto.
  - intros (ws & sp & tail & -> & Hw & Hsp & Ht). exists sp, tail. split; [|auto]. apply trim_start_after; [exact Hw|reflexivity].
Qed.
Definition markerb (line : text) : marker :=
  if is_region_marker (trim_start line) (lit "#region") then Opens else if is_region_marker (trim_start line) (lit "#endregion") then Closes else Neither.
Lemma marks_region_once line : marks_region "#region" line -> marks_region "#endregion" line -> False.
Proof.
  intros H1 H2. apply (marks_iff "region") in H1. apply (marks_iff "endregion") in H2. apply is_marker_iff in H1. apply is_marker_iff in H2.
  destruct H1 as (sp & tail & E & Hsp & _), H2 as (sp' & tail' & E' & Hsp' & _). rewrite E in E'.
  destruct Hsp as [-> | ->], Hsp' as [-> | ->]; discriminate E'.
Qed.
(** every line opens a region, closes one or neither *)
Theorem C75_marker : forall line m, marker_of line m <-> markerb line = m.
Proof.
  intros line m. unfold markerb. pose proof (marks_iff "region" line) as R. pose proof (marks_iff "endregion" line) as Q.
  change (lit "#" ++ lit "region") with (lit "#region") in R. change (lit "#" ++ lit "endregion") with (lit "#endregion") in Q.
  destruct (is_region_marker (trim_start line) (lit "#region")); [|destruct (is_region_marker (trim_start line) (lit "#endregion"))].
  - assert (M : marks_region "#region" line) by (apply R; reflexivity). split; [|intros <-; apply mk_opens; exact M]. intros H. destruct H as [l H|l H|l H1 H2]; [reflexivity|destruct (marks_region_once _ M H)|contradiction].
  - assert (M : marks_region "#endregion" line) by (apply Q; reflexivity). assert (M' : ~ marks_region "#region" line) by (intros H; destruct (marks_region_once _ H M)).
    split; [|intros <-; apply mk_closes; exact M]. intros H. destruct H as [l H|l H|l H1 H2]; [contradiction|reflexivity|contradiction].
  - assert (M : ~ marks_region "#region" line) by (rewrite <- R; discriminate). assert (M' : ~ marks_region "#endregion" line) by (rewrite <- Q; discriminate).
    split; [|intros <-; apply mk_neither; assumption]. intros H. destruct H as [l H|l H|l H1 H2]; [contradiction|contradiction|reflexivity].
Qed.
Print Assumptions C75_marker.

(** the loop over what the lines are *)
Fixpoint mfolds (index : nat) (starts : list nat) (ms : list marker) : list (nat * nat) :=
  match ms with
  | [] => []
  | Opens :: ms' => mfolds (S index) (index :: starts) ms'
  | Closes :: ms' => match starts with s :: starts' => (s, index) :: mfolds (S index) starts' ms' | [] => mfolds (S index) starts ms' end
  | Neither :: ms' => mfolds (S index) starts ms'
  end.
Lemma folds_markers ls : forall index starts, folds index starts ls = mfolds index starts (map markerb ls).
Proof.
  induction ls as [|l ls IH]; intros index starts; [reflexivity|]. cbn [folds map mfolds]. unfold markerb at 1. destruct (is_region_marker (trim_start l) (lit "#region")); [apply IH|].
  destruct (is_region_marker (trim_start l) (lit "#endregion")); [|apply IH]. destruct starts as [|s starts]; rewrite IH; reflexivity.
Qed.
Lemma mfolds_balanced b : balanced b -> forall index starts ms, exists mid, mfolds index starts (b ++ ms) = mid ++ mfolds (index + List.length b) starts ms.
Proof.
  induction 1 as [|b Hb IH|a b Ha IHa Hb IHb]; intros index starts ms.
  - exists []. cbn [app List.length]. rewrite Nat.add_0_r. reflexivity.
  - destruct (IH (S index) starts ms) as [mid E]. exists mid. cbn [app mfolds List.length]. rewrite E. do 2 f_equal. lia.
  - cbn [app mfolds List.length]. rewrite <- app_assoc. cbn [app]. destruct (IHa (S index) (index :: starts) (Closes :: b ++ ms)) as [mid E]. rewrite E. cbn [mfolds].
    destruct (IHb (S (S index + List.length a)) starts ms) as [mid2 E2]. rewrite E2. exists (mid ++ (index, S index + List.length a) :: mid2). rewrite <- app_assoc. cbn [app]. do 4 f_equal.
    rewrite app_length. cbn [List.length]. lia.
Qed.
Lemma mfolds_prefix p : forall index starts ms, exists out starts', mfolds index starts (p ++ ms) = out ++ mfolds (index + List.length p) starts' ms.
Proof.
  induction p as [|m p IH]; intros index starts ms; [exists [], starts; cbn; rewrite Nat.add_0_r; reflexivity|].
  cbn [app List.length]. replace (index + S (List.length p)) with (S index + List.length p) by lia. destruct m; cbn [mfolds].
  - apply IH.
  - destruct starts as [|s starts]; [apply IH|]. destruct (IH (S index) starts ms) as (out & st & E). rewrite E. exists ((s, index) :: out), st. reflexivity.
  - apply IH.
Qed.
(** what the stack stands for, after [p] *)
Inductive open_regions : list marker -> list nat -> Prop :=
  | or_nil p : open_regions p []
  | or_cons q b starts : open_regions q starts -> balanced b -> open_regions (q ++ Opens :: b) (List.length q :: starts).
Lemma balanced_app a b : balanced a -> balanced b -> balanced (a ++ b).
Proof.
  intros Ha Hb. induction Ha as [|a Ha IH|a a2 Ha _ Ha2 IH]; cbn [app]; [exact Hb|constructor; exact IH|]. rewrite <- app_assoc. cbn [app]. apply bal_region; assumption.
Qed.
Lemma open_append p starts b : open_regions p starts -> balanced b -> open_regions (p ++ b) starts.
Proof.
  intros H Hb. destruct H as [p|q b' starts H Hb']; [apply or_nil|]. rewrite <- app_assoc. cbn [app]. apply or_cons; [exact H|apply balanced_app; assumption].
Qed.
Lemma mfolds_sound ms : forall p starts s e, open_regions p starts -> In (s, e) (mfolds (List.length p) starts ms) ->
  exists q b t, p ++ ms = q ++ Opens :: b ++ Closes :: t /\ balanced b /\ s = List.length q /\ e = s + 1 + List.length b.
Proof.
  induction ms as [|m ms IH]; intros p starts s e O H; [destruct H|].
  assert (Len : forall x : marker, S (List.length p) = List.length (p ++ [x])) by (intros x; rewrite app_length; cbn; lia).
  destruct m; cbn [mfolds] in H.
  - rewrite (Len Opens) in H. replace (p ++ Opens :: ms) with ((p ++ [Opens]) ++ ms) by (rewrite <- app_assoc; reflexivity). eapply IH; [|exact H]. apply (or_cons p []); [exact O|constructor].
  - destruct starts as [|s0 starts].
    + rewrite (Len Closes) in H. replace (p ++ Closes :: ms) with ((p ++ [Closes]) ++ ms) by (rewrite <- app_assoc; reflexivity). eapply IH; [apply or_nil|exact H].
    + remember (s0 :: starts) as st eqn:Est. destruct O as [p|q b st' O Hb]; [discriminate Est|]. injection Est. intros -> <-. destruct H as [H|H].
      * injection H. intros <- <-. exists q, b, ms. split; [rewrite <- app_assoc; reflexivity|]. split; [exact Hb|]. split; [reflexivity|]. rewrite app_length. cbn [List.length]. lia.
      * rewrite (Len Closes) in H. replace ((q ++ Opens :: b) ++ Closes :: ms) with (((q ++ Opens :: b) ++ [Closes]) ++ ms) by (rewrite <- app_assoc; reflexivity). eapply IH; [|exact H].
        rewrite <- app_assoc. apply open_append; [exact O|]. cbn [app]. apply bal_region; [exact Hb|constructor].
  - rewrite (Len Neither) in H. replace (p ++ Neither :: ms) with ((p ++ [Neither]) ++ ms) by (rewrite <- app_assoc; reflexivity). eapply IH; [|exact H]. apply open_append; [exact O|repeat constructor].
Qed.
Lemma mfolds_ends ms : forall index starts s e, In (s, e) (mfolds index starts ms) -> index <= e.
Proof.
  induction ms as [|m ms IH]; intros index starts s e H; [destruct H|]. destruct m; cbn [mfolds] in H; [apply IH in H; lia| |apply IH in H; lia].
  destruct starts as [|s0 starts]; [apply IH in H; lia|]. destruct H as [H|H]; [injection H; lia|apply IH in H; lia].
Qed.
Lemma mfolds_sorted ms : forall index starts, StronglySorted (fun x y => snd x < snd y) (mfolds index starts ms).
Proof.
  induction ms as [|m ms IH]; intros index starts; [constructor|]. destruct m; cbn [mfolds]; [apply IH| |apply IH]. destruct starts as [|s0 starts]; [apply IH|].
  constructor; [apply IH|]. rewrite Forall_forall. intros [s e] H. apply mfolds_ends in H. cbn [snd]. lia.
Qed.

(** A range can be folded exactly if it goes from a line that opens a region to the line that closes it: between them all regions are closed.
    They come in the order of their ends, each once. *)
Theorem C75_folds : forall content ms, Forall2 marker_of (lines content) ms ->
  (forall s e, In (s, e) (folding_ranges content) <-> region ms s e) /\ StronglySorted (fun x y => snd x < snd y) (folding_ranges content).
Proof.
  intros content ms H. unfold folding_ranges. rewrite folds_markers.
  assert (E : map markerb (lines content) = ms).
  { induction H as [|l m ls ms Hm H IH]; [reflexivity|]. cbn [map]. f_equal; [apply C75_marker; exact Hm|exact IH]. }
  rewrite E. clear H E. split; [|apply mfolds_sorted]. intros s e. split.
  - intros H. destruct (mfolds_sound ms [] [] s e (or_nil []) H) as (q & b & t & E & R). exists q, b, t. split; [exact E|exact R].
  - intros (p & b & q & -> & Hb & -> & ->). destruct (mfolds_prefix p 0 [] (Opens :: b ++ Closes :: q)) as (out & st & ->). apply in_or_app. right. cbn [mfolds].
    destruct (mfolds_balanced b Hb (S (0 + List.length p)) (0 + List.length p :: st) (Closes :: q)) as [mid ->]. apply in_or_app. right. cbn [mfolds]. left. f_equal. lia.
Qed.
Print Assumptions C75_folds.
Lemma skipn_sub {A : Type} : forall a b (ms : list A), a <= b -> skipn (b - a) (skipn a ms) = skipn b ms.
Proof.
  induction a as [|a IH]; intros b ms L; [rewrite Nat.sub_0_r; reflexivity|]. destruct b as [|b]; [lia|]. destruct ms as [|m ms]; [rewrite !skipn_nil; reflexivity|].
  cbn [skipn Nat.sub]. apply IH. lia.
Qed.
(** how many regions are open after [l], where [k] were before *)
Fixpoint depth (k : Z) (l : list marker) : Z :=
  match l with [] => k | Opens :: l => depth (k + 1) l | Closes :: l => depth (k - 1) l | Neither :: l => depth k l end.
(** no line is in two ranges: each marker is matched once *)
Theorem C75_once : forall content s e s' e', In (s, e) (folding_ranges content) -> In (s', e') (folding_ranges content) -> s < e /\ (e = e' <-> s = s') /\ s <> e' /\ (s < s' < e -> e' < e).
Proof.
  intros content s e s' e'. unfold folding_ranges. rewrite folds_markers. generalize (map markerb (lines content)). intros ms H H'.
  assert (G : forall s e, In (s, e) (mfolds 0 [] ms) -> region ms s e).
  { intros a b Hab. destruct (mfolds_sound ms [] [] a b (or_nil []) Hab) as (q & b' & t & E & R). exists q, b', t. split; [exact E|exact R]. }
  assert (P : forall s e, In (s, e) (mfolds 0 [] ms) -> nth_error ms s = Some Opens /\ nth_error ms e = Some Closes /\ s < e).
  { intros a b Hab. destruct (G _ _ Hab) as (p & x & q & -> & Hx & -> & ->). split; [rewrite nth_error_app2, Nat.sub_diag by lia; reflexivity|]. split; [|lia].
    rewrite nth_error_app2 by lia. replace (List.length p + 1 + List.length x - List.length p) with (S (List.length x)) by lia. cbn [nth_error]. rewrite nth_error_app2, Nat.sub_diag by lia. reflexivity. }
  destruct (P _ _ H) as (P1 & P2 & P3), (P _ _ H') as (P1' & P2' & P3').
  assert (Dapp : forall a b k, depth k (a ++ b) = depth (depth k a) b) by (induction a as [|[] a IH]; intros b k; cbn [app depth]; auto).
  assert (Dadd : forall a k, depth k a = (k + depth 0 a)%Z).
  { induction a as [|[] a IH]; intros k; cbn [depth]; [lia|rewrite (IH (k + 1)%Z), (IH (0 + 1)%Z); lia|rewrite (IH (k - 1)%Z), (IH (0 - 1)%Z); lia|apply IH]. }
  assert (Dbal : forall b, balanced b -> depth 0 b = 0%Z /\ forall n, (0 <= depth 0 (firstn n b))%Z).
  { intros b Hb. induction Hb as [|b Hb [IH1 IH2]|a b Ha [IHa1 IHa2] Hb [IHb1 IHb2]].
    - split; [reflexivity|]. intros n. rewrite firstn_nil. cbn. lia.
    - split; [exact IH1|]. intros [|n]; [cbn; lia|]. cbn [firstn depth]. apply IH2.
    - split.
      + cbn [depth]. rewrite Dapp. cbn [depth]. rewrite (Dadd a), IHa1. replace (0 + 1 + 0 - 1)%Z with 0%Z by lia. exact IHb1.
      + intros [|n]; [cbn; lia|]. cbn [firstn depth]. rewrite firstn_app, Dapp, (Dadd (firstn n a)). destruct (n - List.length a) as [|k] eqn:K.
        * cbn [firstn depth]. specialize (IHa2 n). lia.
        * rewrite firstn_all2 by lia. rewrite IHa1. cbn [firstn depth]. replace (0 + 1 + 0 - 1)%Z with 0%Z by lia. apply IHb2. }
  assert (Between : forall s e, region ms s e -> forall k, s < k -> k <= e -> (1 <= depth 0 (firstn (k - s) (skipn s ms)))%Z /\ depth 0 (firstn (S e - s) (skipn s ms)) = 0%Z).
  { intros a b (p & x & q & -> & Hx & -> & ->) k K1 K2. destruct (Dbal x Hx) as [D1 D2]. rewrite skipn_app, skipn_all, Nat.sub_diag. cbn [app skipn]. split.
    - replace (k - List.length p) with (S (k - List.length p - 1)) by lia. cbn [firstn depth]. rewrite Dadd, firstn_app. replace (k - List.length p - 1 - List.length x) with 0 by lia. cbn [firstn]. rewrite app_nil_r.
      specialize (D2 (k - List.length p - 1)). lia.
    - replace (S (List.length p + 1 + List.length x) - List.length p) with (S (S (List.length x))) by lia. rewrite firstn_cons. cbn [depth]. rewrite Dadd, firstn_app.
      rewrite firstn_all2 by lia. replace (S (List.length x) - List.length x) with 1 by lia. cbn [firstn]. rewrite Dapp, D1. cbn [depth]. lia. }
  assert (Unique : forall s e e', region ms s e -> region ms s e' -> e < e' -> False).
  { intros a b c R1 R2 L. assert (B1 := Between _ _ R1 b). assert (B2 := Between _ _ R2 (S b)). destruct R1 as (p1 & x1 & q1 & _ & _ & Ea & Eb).
    destruct B1 as [_ B1]; [lia|lia|]. destruct B2 as [B2 _]; [lia|lia|]. lia. }
  assert (Split : forall a b c, a <= b -> b <= c -> firstn (c - a) (skipn a ms) = firstn (b - a) (skipn a ms) ++ firstn (c - b) (skipn b ms)).
  { intros a b c L1 L2. replace (c - a) with ((b - a) + (c - b)) by lia. rewrite <- (firstn_skipn (b - a) (skipn a ms)) at 1. rewrite firstn_app.
    assert (Sk : skipn (b - a) (skipn a ms) = skipn b ms).
    { apply skipn_sub. exact L1. }
    rewrite Sk. destruct (Nat.le_gt_cases (b - a) (List.length (skipn a ms))) as [Lb|Lb].
    - rewrite firstn_length, Nat.min_l by exact Lb. rewrite firstn_all2 by (rewrite firstn_length; lia). do 2 f_equal. lia.
    - assert (N : skipn b ms = []) by (apply skipn_all2; rewrite skipn_length in Lb; lia). rewrite N, !firstn_nil, !app_nil_r. apply firstn_all2. rewrite firstn_length. lia. }
  assert (Nest : forall s e s' e', region ms s e -> region ms s' e' -> s < s' -> s' < e -> e <= e' -> s' < e' -> False).
  { intros a b c d R1 R2 L1 L2 L3 L4. destruct (Between _ _ R1 c) as [B1 B2]; [lia|lia|]. destruct (Between _ _ R2 d) as [_ B4]; [lia|lia|].
    rewrite (Split a c (S b)) in B2 by lia. rewrite Dapp, Dadd in B2. destruct (Nat.eq_dec b d) as [->|N].
    - rewrite B4 in B2. lia.
    - destruct (Between _ _ R2 (S b)) as [B3 _]; [lia|lia|]. lia. }
  pose proof (G _ _ H) as R. pose proof (G _ _ H') as R'. split; [exact P3|]. split; [|split].
  - split.
    + intros <-. destruct (Nat.lt_trichotomy s s') as [L|[L|L]]; [|exact L|].
      * exfalso. apply (Nest s e s' e R R'); lia.
      * exfalso. apply (Nest s' e s e R' R); lia.
    + intros <-. destruct (Nat.lt_trichotomy e e') as [L|[L|L]]; [|exact L|]; exfalso; eapply Unique; [| |exact L| | |exact L]; eassumption.
  - intros ->. rewrite P1 in P2'. discriminate P2'.
  - intros [L1 L2]. destruct (Nat.lt_ge_cases e' e) as [L|L]; [exact L|]. exfalso. eapply (Nest s e s' e'); eassumption.
Qed.
Print Assumptions C75_once.

(** ** Links *)
Lemma add_pred e e' : loc_ok e -> (0 < lcol e)%Z -> pred e = Some e' -> add_columns e' 1 = Some e.
Proof.
  destruct e as [f [l c]]. unfold loc_ok, pred, add_columns, lfile, lline, lcol. cbn [fst snd]. intros (_ & _ & Hc) H. destruct (Z.eqb_spec c 0) as [Z|Z]; [lia|]. cbn [negb].
  intros E. injection E. intros <-. cbn [fst snd]. replace (c - 1 + 1)%Z with c by lia. destruct (Z.ltb_spec c (2 ^ 16)); [reflexivity|lia].
Qed.
Definition link_path (a : ann) : option text := match a with AInclude p | AResource p => Some p | _ => None end.
(** The links are those of the includes and resources of the file, in order; if a path makes no URL, the answer is an error. *)
Theorem C75_links : forall (url : Type) (to_url : text -> option url) (b : build ann) (file : Z),
  build_ok b -> (forall s e a, In (s, e, a) (inserted b) -> 0 < lcol e)%Z ->
  exists annotations items, run_build b = Some annotations /\ reports b (fun _ _ => true) items
    /\ (inserted b = [] -> document_links url to_url annotations file = Some (Fine None))
    /\ (inserted b <> [] ->
        (exists l, document_links url to_url annotations file = Some (Fine (Some l)) /\ Forall2 (links_to to_url b) (filter (linkb file) items) l)
        \/ (document_links url to_url annotations file = Some Error /\ exists i path, In i items /\ linkb file i = true /\ linked (ann_of i) path /\ to_url path = None)).
Proof.
  intros url to_url b file Hb Hc. destruct (Loc.Props.C05_annotation_lookups ann b Hb) as (a & Ha & Hl & (items & Hi & R) & _). exists a, items.
  split; [exact Ha|]. split; [exact R|].
  assert (Empty : alen a = 0 <-> inserted b = []) by (rewrite Hl; split; [apply length_zero_iff_nil|intros ->; reflexivity]).
  split. { intros H. apply Empty in H. unfold document_links. rewrite H. reflexivity. }
  intros Hne. unfold document_links. destruct (Nat.eqb_spec (alen a) 0) as [Z|Z]; [apply Empty in Z; contradiction|]. rewrite Hi.
  assert (From : forall i, In i items -> exists s e v, In (s, e, v) (inserted b) /\ i = reported (s, e, v)).
  { intros i Hin. destruct R as [_ R]. assert (G : In i (filter (fun x => range_eqb (fst x) (fst i)) items)) by (apply filter_In; split; [exact Hin|apply range_eqb_refl]).
    rewrite R in G. apply filter_In in G. destruct G as [G _]. apply in_map_iff in G. destruct G as ([[s e] v] & <- & G). apply filter_In in G. exists s, e, v. split; [exact (proj1 G)|reflexivity]. }
  clear Hi R. assert (L : (exists l, links url to_url file items = Some (Fine l) /\ Forall2 (links_to to_url b) (filter (linkb file) items) l)
        \/ (links url to_url file items = Some Error /\ exists i path, In i items /\ linkb file i = true /\ linked (ann_of i) path /\ to_url path = None)).
  { induction items as [|i items IH]; [left; exists []; split; [reflexivity|constructor]|].
    destruct (IH (fun k Hk => From k (or_intror Hk))) as [(l & E & F)|(E & k & path & Hk & B & Hp & Hu)]; destruct (From i (or_introl eq_refl)) as (s & e & v & Hin & Ei); clear IH From.
    - destruct (linkb file i) eqn:B.
      + assert (P : exists path, linked v path /\ links url to_url file (i :: items) = match add_columns (last_of i) 1 with
            | None => None | Some e' => match to_url path with None => Some Error | Some u => match links url to_url file items with Some (Fine l) => Some (Fine ((span_to_range (start_of i) e', u) :: l)) | r => r end end end).
        { unfold linkb in B. apply andb_true_iff in B. destruct B as [B1 B2]. subst i. cbn [reported] in *. unfold ann_of, start_of, last_of in *. cbn [fst snd links] in *. rewrite B1. cbn [negb].
          destruct v as [p|p|p n|t n|n|p|p|]; try discriminate B2; exists p; (split; [unfold linked; auto|reflexivity]). }
        destruct P as (path & Hp & ->). destruct (Hb _ _ _ Hin) as (Hs & He & Hpe). destruct (has_pred_Some e He Hpe) as (e' & Ee & _).
        assert (La : last_of i = e') by (subst i; unfold reported, last_of; rewrite Ee; reflexivity). assert (Si : start_of i = s) by (subst i; reflexivity).
        rewrite La, (add_pred e e' He (Hc _ _ _ Hin) Ee). destruct (to_url path) as [u|] eqn:U.
        * left. rewrite E. exists ((span_to_range (start_of i) e, u) :: l). split; [reflexivity|]. cbn [filter]. rewrite B. constructor; [|exact F].
          exists s, e, v, path. split; [exact Hin|]. split; [exact Ei|]. split; [exact Hp|]. split; [exact U|]. rewrite Si. cbn. unfold position_of. auto.
        * right. split; [reflexivity|]. exists i, path. split; [left; reflexivity|]. split; [exact B|]. split; [subst i; exact Hp|exact U].
      + left. exists l. cbn [filter]. rewrite B. split; [|exact F]. rewrite <- E. subst i. cbn [reported links]. unfold linkb, start_of, ann_of in B. cbn [reported fst snd] in B.
        destruct (lfile s =? file)%Z; [|reflexivity]. cbn [negb andb] in *. destruct v; try discriminate B; reflexivity.
    - destruct (linkb file i) eqn:B'.
      + assert (P : exists path, linked v path /\ links url to_url file (i :: items) = match add_columns (last_of i) 1 with
            | None => None | Some e' => match to_url path with None => Some Error | Some u => match links url to_url file items with Some (Fine l) => Some (Fine ((span_to_range (start_of i) e', u) :: l)) | r => r end end end).
        { unfold linkb in B'. apply andb_true_iff in B'. destruct B' as [B1 B2]. subst i. cbn [reported] in *. unfold ann_of, start_of, last_of in *. cbn [fst snd links] in *. rewrite B1. cbn [negb].
          destruct v as [p|p|p n|t n|n|p|p|]; try discriminate B2; exists p; (split; [unfold linked; auto|reflexivity]). }
        destruct P as (path' & Hp' & ->). destruct (Hb _ _ _ Hin) as (Hs & He & Hpe). destruct (has_pred_Some e He Hpe) as (e' & Ee & _).
        assert (La : last_of i = e') by (subst i; unfold reported, last_of; rewrite Ee; reflexivity).
        rewrite La, (add_pred e e' He (Hc _ _ _ Hin) Ee). right. destruct (to_url path') as [u|] eqn:U.
        * rewrite E. split; [reflexivity|]. exists k, path. split; [right; exact Hk|auto].
        * split; [reflexivity|]. exists i, path'. split; [left; reflexivity|]. split; [exact B'|]. split; [subst i; exact Hp'|exact U].
      + right. split.
        * rewrite <- E. subst i. cbn [reported links]. unfold linkb, start_of, ann_of in B'. cbn [reported fst snd] in B'.
          destruct (lfile s =? file)%Z; [|reflexivity]. cbn [negb andb] in *. destruct v; try discriminate B'; reflexivity.
        * exists k, path. split; [right; exact Hk|auto]. }
  destruct L as [(l & -> & F)|(-> & H)]; [left; exists l; split; [reflexivity|exact F]|right; split; [reflexivity|exact H]].
Qed.
Print Assumptions C75_links.
