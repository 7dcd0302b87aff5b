(** Lemmas about the [str] methods of Common.Text. *)
From Coq Require Import List NArith ZArith Lia Bool.
From Verif Require Import Common.Text Common.Decimal.
Import ListNotations.

Lemma split_char_app : forall sep l rest, ~ In sep l ->
  split_char sep (l ++ sep :: rest) = l :: split_char sep rest.
Proof.
  induction l as [|c l IH]; intros rest H; cbn [app split_char].
  - rewrite N.eqb_refl. reflexivity.
  - destruct (N.eqb_spec c sep) as [->|_]; [contradiction H; left; reflexivity|].
    rewrite IH by (intro; apply H; right; assumption). reflexivity.
Qed.

Lemma split_char_none : forall sep l, ~ In sep l -> split_char sep l = [l].
Proof.
  induction l as [|c l IH]; intro H; cbn [split_char]; [reflexivity|].
  destruct (N.eqb_spec c sep) as [->|_]; [contradiction H; left; reflexivity|].
  rewrite IH by (intro; apply H; right; assumption). reflexivity.
Qed.

Lemma split_lines : forall ls, (forall l, In l ls -> ~ In 10%N l) ->
  split_char 10%N (flat_map (fun l => l ++ [10%N]) ls) = ls ++ [[]].
Proof.
  induction ls as [|l ls IH]; intro H; cbn [flat_map app]; [reflexivity|].
  rewrite <- app_assoc. cbn [app]. rewrite split_char_app by (apply H; left; reflexivity).
  rewrite IH by (intros; apply H; right; assumption). reflexivity.
Qed.

Lemma lines_aux_snoc : forall ls, lines_aux (ls ++ [[]]) = map strip_cr ls.
Proof.
  induction ls as [|l ls IH]; [reflexivity|].
  cbn [app map]. rewrite <- IH. destruct (ls ++ [[]]) as [|x y] eqn:E; [destruct ls; discriminate|].
  reflexivity.
Qed.

Definition last_ok (l : text) : Prop := exists pre c, l = pre ++ [c] /\ is_whitespace c = false.

Lemma strip_cr_id : forall l, last_ok l -> strip_cr l = l.
Proof.
  intros l (pre & c & -> & Hc). unfold strip_cr. rewrite rev_app_distr. cbn [rev app].
  destruct c as [|p]; [reflexivity|].
  do 4 (destruct p as [p|p|]; try reflexivity). discriminate Hc.
Qed.

Lemma lines_flat : forall ls, (forall l, In l ls -> ~ In 10%N l /\ last_ok l) ->
  lines (flat_map (fun l => l ++ [10%N]) ls) = ls.
Proof.
  intros ls H. unfold lines. rewrite split_lines by (intros; apply H; assumption).
  rewrite lines_aux_snoc. rewrite <- (map_id ls) at 2. apply map_ext_in.
  intros l Hl. apply strip_cr_id. apply H. exact Hl.
Qed.

Lemma trim_end_ok : forall l, last_ok l -> trim_end l = l.
Proof.
  intros l (pre & c & -> & Hc). unfold trim_end. rewrite rev_app_distr. cbn [rev app drop_while].
  rewrite Hc. cbn [rev]. rewrite rev_involutive. reflexivity.
Qed.

Lemma trim_ok : forall c l, is_whitespace c = false -> last_ok (c :: l) -> trim (c :: l) = c :: l.
Proof.
  intros c l Hc Hl. unfold trim, trim_start. cbn [drop_while]. rewrite Hc. apply trim_end_ok. exact Hl.
Qed.

Lemma trim_tab : forall l, trim (9%N :: l) = trim l.
Proof. reflexivity. Qed.

Lemma last_ok_app : forall a b, last_ok b -> last_ok (a ++ b).
Proof. intros a b (pre & c & -> & Hc). exists (a ++ pre), c. rewrite app_assoc. auto. Qed.
Lemma last_ok_cons : forall c b, last_ok b -> last_ok (c :: b).
Proof. intros c b H. apply (last_ok_app [c] b H). Qed.

Lemma last_ok_nonws : forall l, l <> [] -> (forall c, In c l -> is_whitespace c = false) -> last_ok l.
Proof.
  intros l Hne H. destruct (exists_last Hne) as (pre & c & ->). exists pre, c.
  split; [reflexivity|]. apply H. apply in_or_app. right. left. reflexivity.
Qed.

Lemma digit_not_ws : forall c, is_digit c = true -> is_whitespace c = false.
Proof.
  intros c H. unfold is_digit in H. apply andb_true_iff in H. destruct H as [H1 H2].
  apply N.leb_le in H1, H2. unfold is_whitespace.
  repeat match goal with
         | |- context [(?x =? ?y)%N] => destruct (N.eqb_spec x y); [lia|]
         | |- context [(?x <=? ?y)%N] => destruct (N.leb_spec x y); try lia
         end; reflexivity.
Qed.

Lemma print_N_last : forall n, last_ok (print_N n).
Proof.
  intro n. apply last_ok_nonws; [apply print_N_nonempty|].
  intros c Hc. apply digit_not_ws. pose proof (print_N_digits n) as H. rewrite Forall_forall in H. auto.
Qed.

Lemma print_N_no : forall n c, is_digit c = false -> ~ In c (print_N n).
Proof.
  intros n c Hc Hin. pose proof (print_N_digits n) as H. rewrite Forall_forall in H.
  apply H in Hin. congruence.
Qed.

Lemma Forall2_length : forall A B (R : A -> B -> Prop) l1 l2, Forall2 R l1 l2 -> List.length l1 = List.length l2.
Proof. induction 1; cbn [List.length]; congruence. Qed.
Arguments Forall2_length {A B R l1 l2} _.

(** comparing two ways of cutting a list *)
Lemma app_cut : forall (A : Type) (p q a b : list A), p ++ q = a ++ b -> (exists x, p = a ++ x /\ b = x ++ q) \/ (exists x, a = p ++ x /\ x <> [] /\ q = x ++ b).
Proof.
  induction p as [|c p IH]; intros q a b H; cbn [app] in H.
  - destruct a as [|c a]; [left; exists []; subst; split; reflexivity|]. right. exists (c :: a). subst. split; [reflexivity|]. split; [discriminate | reflexivity].
  - destruct a as [|c' a]; cbn [app] in H; [left; exists (c :: p); subst; split; reflexivity|]. injection H as <- H.
    destruct (IH q a b H) as [(x & -> & ->)|(x & -> & Hx & ->)]; [left; exists x; split; reflexivity | right; exists x; split; [reflexivity|split; [exact Hx | reflexivity]]].
Qed.
