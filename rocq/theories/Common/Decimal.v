(** Decimal printing of unsigned integers ([Display for u32/usize]) and its inverse. *)
From Coq Require Import List NArith ZArith Lia Bool.
From Verif Require Import Common.Text.
Import ListNotations.
Open Scope N_scope.

Fixpoint print_aux (fuel : nat) (n : N) (acc : text) : text :=
  match fuel with
  | O => acc
  | S f => if n <? 10 then (48 + n) :: acc else print_aux f (n / 10) ((48 + n mod 10) :: acc)
  end.
(** [Display] for unsigned integers *)
Definition print_N (n : N) : text := print_aux (S (N.size_nat n)) n [].

Lemma is_digit_of : forall d, d < 10 -> is_digit (48 + d) = true.
Proof.
  intros d H. unfold is_digit. apply andb_true_iff. split; apply N.leb_le; lia.
Qed.

Lemma size_nat_div : forall n, n < 2 ^ N.of_nat (N.size_nat n).
Proof.
  intro n. destruct n as [|p]; [reflexivity|].
  unfold N.size_nat.
  assert (H : N.of_nat (Pos.size_nat p) = N.size (N.pos p)).
  { cbn [N.size]. induction p; cbn [Pos.size_nat Pos.size]; try reflexivity;
      rewrite Nat2N.inj_succ, IHp; reflexivity. }
  rewrite H. apply N.size_gt.
Qed.

Lemma print_aux_value : forall fuel n acc, n < 2 ^ N.of_nat fuel ->
  digits_value 0 (print_aux (S fuel) n acc) = digits_value n acc.
Proof.
  induction fuel as [|fuel IH]; intros n acc Hn.
  - assert (n = 0) by (change (2 ^ N.of_nat 0) with 1 in Hn; lia). subst n.
    cbn [print_aux]. change (0 <? 10) with true. cbv iota. cbn [digits_value].
    rewrite (is_digit_of 0) by lia. reflexivity.
  - remember (S fuel) as f eqn:Hf. cbn [print_aux]. destruct (N.ltb_spec n 10) as [Hlt|Hge].
    + cbn [digits_value]. rewrite is_digit_of by lia. f_equal. lia.
    + subst f. rewrite IH.
      * cbn [digits_value]. rewrite is_digit_of by (apply N.mod_lt; lia).
        f_equal. pose proof (N.div_mod' n 10) as Hdm. pose proof (N.add_sub (n mod 10) 48) as Hs. rewrite (N.add_comm 48), Hs. rewrite <- Hdm. reflexivity.
      * apply N.div_lt_upper_bound; [lia|].
        rewrite Nat2N.inj_succ, N.pow_succ_r' in Hn. lia.
Qed.

Lemma print_aux_digits : forall fuel n acc, Forall (fun c => is_digit c = true) acc ->
  Forall (fun c => is_digit c = true) (print_aux fuel n acc).
Proof.
  induction fuel as [|f IH]; intros n acc H; cbn [print_aux]; [exact H|].
  destruct (N.ltb_spec n 10) as [Hl|Hl].
  - constructor; [apply is_digit_of; exact Hl | exact H].
  - apply IH. constructor; [apply is_digit_of, N.mod_lt; lia | exact H].
Qed.

Lemma print_N_digits : forall n, Forall (fun c => is_digit c = true) (print_N n).
Proof. intro n. apply print_aux_digits. constructor. Qed.

Lemma print_aux_nonempty : forall fuel n acc, acc <> [] \/ (0 < fuel)%nat -> print_aux fuel n acc <> [].
Proof.
  induction fuel as [|f IH]; intros n acc H; cbn [print_aux].
  - destruct H as [H|H]; [exact H | lia].
  - destruct (n <? 10); [discriminate|]. apply IH. left; discriminate.
Qed.

Lemma print_N_nonempty : forall n, print_N n <> [].
Proof. intro n. apply print_aux_nonempty. right. lia. Qed.

Lemma print_N_value : forall n, digits_value 0 (print_N n) = Some n.
Proof. intro n. unfold print_N. rewrite print_aux_value by apply size_nat_div. reflexivity. Qed.

Lemma parse_print : forall max n, n <= max -> parse_uint max (print_N n) = Some n.
Proof.
  intros max n H. unfold parse_uint.
  pose proof (print_N_value n) as Hv. pose proof (print_N_digits n) as Hd.
  destruct (print_N n) as [|c s] eqn:Hs; [exact (False_ind _ (print_N_nonempty n Hs))|].
  assert (Hc : c <> 43).
  { intro; subst c. inversion Hd as [|? ? Hh _]. discriminate Hh. }
  cbv zeta. destruct (N.eqb_spec c 43) as [He|_]; [contradiction|]. rewrite Hv.
  destruct (N.leb_spec n max); [reflexivity | lia].
Qed.

Example print_demo : print_N 1203 = [49; 50; 48; 51].
Proof. reflexivity. Qed.
