(** C28: model of crates/dm-langserver/src/jrpc_io.rs, over bytes. *)
From Coq Require Import List NArith ZArith Lia Bool.
From Verif Require Import Common.Text Common.Decimal Common.TextFacts Common.Utf8.
From Coq Require Import String.
Import ListNotations.
Open Scope N_scope.

Definition bytes := list N.

(** [BufRead::read_line]: up to and including the first newline, or everything *)
Fixpoint take_line (input : bytes) : bytes * bytes :=
  match input with
  | [] => ([], [])
  | b :: r => if b =? 10 then ([b], r) else let '(l, rest) := take_line r in (b :: l, rest)
  end.

(** [str::eq_ignore_ascii_case] *)
Definition ascii_lower (c : chr) : chr := if (65 <=? c) && (c <=? 90) then c + 32 else c.
Definition eq_ignore_ascii_case (a b : text) : bool := text_eqb (map ascii_lower a) (map ascii_lower b).

Inductive outcome := Message (m : text) (rest : bytes) | Stop | Failed.

(** jrpc_io.rs:21-49 read.  [Stop] = Ok(None), [Failed] = Err.  (Allocating the buffer of [size] bytes is not
    modelled: for sizes the machine cannot allocate the program aborts where the model says Failed.) *)
Definition read (input : bytes) : outcome :=
  let '(line, rest) := take_line input in
  match decode line with
  | None => Failed
  | Some [] => Stop
  | Some buffer =>
      match split_char 32 buffer with
      | [name; value] =>
          if eq_ignore_ascii_case name (lit "content-length:") then
            match parse_uint U64_MAX (trim value) with
            | None => Failed
            | Some size =>
                let '(blank, rest2) := take_line rest in
                match decode blank with
                | None => Failed
                | Some _ =>
                    if N.of_nat (List.length rest2) <? size then Failed
                    else match decode (firstn (N.to_nat size) rest2) with
                         | None => Failed
                         | Some m => Message m (skipn (N.to_nat size) rest2)
                         end
                end
            end
          else Stop
      | _ => Stop
      end
  end.

(** jrpc_io.rs:7-19 run_until_stdin_eof, run_with_read: the messages handed to the callback, and whether the
    loop ended (true) or panicked (false).  Every message read consumes input. *)
Fixpoint run_fuel (fuel : nat) (input : bytes) : list text * bool :=
  match fuel with
  | O => ([], false)
  | S f => match read input with
           | Stop => ([], true)
           | Failed => ([], false)
           | Message m rest => let '(ms, ok) := run_fuel f rest in (m :: ms, ok)
           end
  end.
Definition run_with_read (input : bytes) : list text * bool := run_fuel (S (List.length input)) input.

(** jrpc_io.rs:57-60 write_to *)
Definition str_len (t : text) : N := N.of_nat (List.length (encode t)).
Definition write_to (json : text) : bytes :=
  encode (lit "Content-Length: " ++ print_N (str_len json) ++ [13; 10; 13; 10] ++ json).

(** ** Proofs *)
Lemma take_line_cut : forall a r, ~ In 10 a -> take_line (a ++ 10 :: r) = (a ++ [10], r).
Proof.
  induction a as [|b a IH]; intros r H; cbn [app take_line]; [reflexivity|].
  destruct (N.eqb_spec b 10) as [->|]; [contradiction H; left; reflexivity|]. rewrite IH by (intro; apply H; right; assumption). reflexivity.
Qed.
Lemma take_line_all : forall a, ~ In 10 a -> take_line a = (a, []).
Proof.
  induction a as [|b a IH]; intro H; cbn [take_line]; [reflexivity|].
  destruct (N.eqb_spec b 10) as [->|]; [contradiction H; left; reflexivity|]. rewrite IH by (intro; apply H; right; assumption). reflexivity.
Qed.

Lemma take_line_split : forall i l r, take_line i = (l, r) -> i = l ++ r.
Proof.
  induction i as [|b i IH]; intros l r H; cbn [take_line] in H; [injection H as <- <-; reflexivity|].
  destruct (N.eqb_spec b 10); [injection H as <- <-; reflexivity|]. destruct (take_line i) as [l' r']. injection H as <- <-. cbn [app]. f_equal. apply IH. reflexivity.
Qed.
Lemma read_consumes : forall i m r, read i = Message m r -> (List.length r < List.length i)%nat.
Proof.
  intros i m r H. unfold read in H. destruct (take_line i) as [line rest] eqn:E. apply take_line_split in E.
  destruct (decode line) as [buffer|] eqn:Ed; [|discriminate]. destruct buffer as [|b0 buf]; [discriminate|].
  assert (Hl : line <> []) by (intros ->; discriminate).
  destruct (split_char 32 (b0 :: buf)) as [|name [|value [|? ?]]]; try discriminate.
  destruct (eq_ignore_ascii_case name _); [|discriminate]. destruct (parse_uint U64_MAX (trim value)) as [size|]; [|discriminate].
  destruct (take_line rest) as [blank rest2] eqn:E2. apply take_line_split in E2. destruct (decode blank); [|discriminate].
  destruct (_ <? size); [discriminate|]. destruct (decode (firstn _ _)) as [m'|]; [|discriminate]. assert (r = skipn (N.to_nat size) rest2) as -> by congruence.
  assert (H3 : (List.length (skipn (N.to_nat size) rest2) <= List.length rest2)%nat) by (rewrite skipn_length; lia).
  subst i rest. rewrite !app_length. destruct line; [contradiction|]. cbn [List.length]. lia.
Qed.
Lemma run_enough : forall fuel i, (List.length i < fuel)%nat -> run_fuel fuel i = run_with_read i.
Proof.
  assert (G : forall f1 f2 i, (List.length i < f1)%nat -> (List.length i < f2)%nat -> run_fuel f1 i = run_fuel f2 i).
  { induction f1 as [|f1 IH]; intros f2 i H1 H2; [lia|]. destruct f2 as [|f2]; [lia|]. cbn [run_fuel].
    destruct (read i) as [m r| |] eqn:E; try reflexivity. apply read_consumes in E. rewrite (IH f2 r) by lia. reflexivity. }
  intros fuel i H. apply G; [exact H | lia].
Qed.
Lemma run_step : forall i, run_with_read i = match read i with
  | Stop => ([], true) | Failed => ([], false)
  | Message m r => let '(ms, ok) := run_with_read r in (m :: ms, ok) end.
Proof.
  intro i. unfold run_with_read at 1. cbn [run_fuel]. destruct (read i) as [m r| |] eqn:E; try reflexivity. apply read_consumes in E.
  rewrite run_enough by lia. reflexivity.
Qed.

(** the header *)
Definition head (n : N) : text := lit "Content-Length: " ++ print_N n ++ [13].
Lemma digits_ascii : forall n, ascii_text (print_N n).
Proof.
  intro n. eapply Forall_impl; [|apply print_N_digits]. intros c H. cbn beta in *. unfold is_digit in H. apply andb_true_iff in H. rewrite !N.leb_le in H. lia.
Qed.
Lemma ascii_lit : forall s, Forall (fun c => c <? 0x80 = true) (lit s) -> ascii_text (lit s).
Proof. intros s H. eapply Forall_impl; [|exact H]. intros c Hc. cbn beta in *. apply N.ltb_lt. exact Hc. Qed.
Lemma clen_ascii : ascii_text (lit "Content-Length: ").
Proof. apply ascii_lit. cbn [lit]. repeat constructor. Qed.
Lemma head_ascii : forall n, ascii_text (head n).
Proof. intro n. unfold head, ascii_text. rewrite !Forall_app. split; [apply clen_ascii|]. split; [apply digits_ascii | repeat constructor]. Qed.
Lemma write_bytes : forall m, write_to m = (head (str_len m) ++ [10]) ++ ([13] ++ [10]) ++ encode m.
Proof.
  intro m. unfold write_to. rewrite !encode_app, (encode_ascii _ clen_ascii), (encode_ascii _ (digits_ascii _)).
  unfold head. rewrite <- !app_assoc. reflexivity.
Qed.
Lemma head_no_nl : forall n, ~ In 10 (head n).
Proof.
  intro n. unfold head. rewrite !in_app_iff. intros [H|[H|H]].
  - vm_compute in H. repeat (destruct H as [H|H]; [discriminate|]). destruct H.
  - revert H. apply print_N_no. reflexivity.
  - destruct H as [H|[]]. discriminate.
Qed.

(** parsing (part of) the header *)
Lemma split_header : forall v, ~ In 32 v -> split_char 32 (lit "Content-Length: " ++ v) = [lit "Content-Length:"; v].
Proof.
  intros v H. change (lit "Content-Length: ") with (lit "Content-Length:" ++ [32]). rewrite <- app_assoc. cbn [app].
  rewrite split_char_app; [rewrite split_char_none by exact H; reflexivity|].
  vm_compute. intro E. repeat (destruct E as [E|E]; [discriminate|]). destruct E.
Qed.
Lemma name_ok : eq_ignore_ascii_case (lit "Content-Length:") (lit "content-length:") = true.
Proof. reflexivity. Qed.
Lemma digits_no : forall d c, Forall (fun x => is_digit x = true) d -> is_digit c = false -> ~ In c d.
Proof. intros d c H Hc Hin. rewrite Forall_forall in H. specialize (H c Hin). congruence. Qed.
Lemma trim_digits : forall d tail, Forall (fun x => is_digit x = true) d -> d <> [] -> Forall (fun c => is_whitespace c = true) tail -> trim (d ++ tail) = d.
Proof.
  intros d tail Hd Hne Ht. unfold trim, trim_start, trim_end.
  assert (E1 : drop_while is_whitespace (d ++ tail) = d ++ tail).
  { destruct d as [|c d]; [congruence|]. cbn [app drop_while]. inversion Hd; subst. rewrite digit_not_ws by assumption. reflexivity. }
  rewrite E1, rev_app_distr.
  assert (E2 : forall w r, Forall (fun c => is_whitespace c = true) w -> drop_while is_whitespace (w ++ r) = drop_while is_whitespace r).
  { induction w as [|c w IH]; intros r Hw; [reflexivity|]. inversion Hw; subst. cbn [app drop_while]. rewrite H1. apply IH. assumption. }
  rewrite E2 by (apply Forall_rev; exact Ht).
  assert (E3 : drop_while is_whitespace (rev d) = rev d).
  { assert (Hr : Forall (fun x => is_digit x = true) (rev d)) by (apply Forall_rev; exact Hd). destruct (rev d) as [|c l]; [reflexivity|].
    cbn [drop_while]. inversion Hr; subst. rewrite digit_not_ws by assumption. reflexivity. }
  rewrite E3. apply rev_involutive.
Qed.

(** one complete message *)
Lemma read_message : forall m rest, Forall scalar m -> str_len m <= U64_MAX -> read (write_to m ++ rest) = Message m rest.
Proof.
  intros m rest Hs Hlen. rewrite write_bytes. unfold read. rewrite <- !app_assoc. cbn [app].
  rewrite take_line_cut by apply head_no_nl.
  rewrite decode_ascii by (apply Forall_app; split; [apply head_ascii | repeat constructor]).
  assert (Eh : head (str_len m) ++ [10] = lit "Content-Length: " ++ (print_N (str_len m) ++ [13; 10])) by (unfold head; rewrite <- !app_assoc; reflexivity).
  rewrite Eh. rewrite split_header; [|rewrite in_app_iff; intros [H|[H|[H|[]]]]; [revert H; apply print_N_no; reflexivity | discriminate | discriminate]].
  destruct (lit "Content-Length: " ++ _) as [|b0 bf] eqn:Eb; [discriminate|]. rewrite name_ok.
  rewrite trim_digits; [|apply print_N_digits | apply print_N_nonempty | repeat constructor].
  rewrite parse_print by exact Hlen.
  change (13 :: 10 :: encode m ++ rest) with ([13] ++ 10 :: (encode m ++ rest)). rewrite take_line_cut by (intros [H|[]]; discriminate).
  change (decode ([13] ++ [10])) with (Some [13; 10]).
  assert (El : N.to_nat (str_len m) = List.length (encode m)) by (unfold str_len; apply Nat2N.id).
  destruct (N.ltb_spec (N.of_nat (List.length (encode m ++ rest))) (str_len m)) as [L|_]; [rewrite app_length in L; unfold str_len in L; lia|].
  rewrite El, firstn_app, firstn_all, Nat.sub_diag, app_nil_r, decode_encode by exact Hs.
  rewrite skipn_app, skipn_all, Nat.sub_diag. reflexivity.
Qed.
Lemma run_nil : run_with_read [] = ([], true). Proof. reflexivity. Qed.

(** *** truncated input *)
Lemma print_aux_head : forall fuel n acc, n < 2 ^ N.of_nat fuel -> 0 < n -> exists c r, print_aux (S fuel) n acc = c :: r /\ 49 <= c <= 57.
Proof.
  induction fuel as [|f IH]; intros n acc Hn Hp; [cbn in Hn; lia|]. cbn [print_aux].
  destruct (N.ltb_spec n 10) as [L|L].
  - exists (48 + n mod 10), acc. rewrite N.mod_small by exact L. split; [reflexivity | lia].
  - change (exists c r, print_aux (S f) (n / 10) ((48 + n mod 10) :: acc) = c :: r /\ 49 <= c <= 57). apply IH.
    + apply N.div_lt_upper_bound; [lia|]. rewrite Nat2N.inj_succ, N.pow_succ_r' in Hn. lia.
    + pose proof (N.div_le_lower_bound n 10 1). lia.
Qed.
Lemma digits_grow : forall d a, Forall (fun x => is_digit x = true) d -> exists v, digits_value a d = Some v /\ a <= v.
Proof.
  induction d as [|c d IH]; intros a H; [exists a; split; [reflexivity | lia]|]. inversion H; subst. cbn [digits_value].
  match goal with E : is_digit c = true |- _ => rewrite E end. destruct (IH (10 * a + (c - 48))) as (v & E & L); [assumption|]. exists v. split; [exact E | lia].
Qed.
Lemma digits_app : forall d1 d2 a, Forall (fun x => is_digit x = true) d1 -> exists v, digits_value a d1 = Some v /\ digits_value a (d1 ++ d2) = digits_value v d2.
Proof.
  induction d1 as [|c d IH]; intros d2 a H; [exists a; split; reflexivity|]. inversion H; subst. cbn [app digits_value].
  match goal with E : is_digit c = true |- _ => rewrite E end. apply IH. assumption.
Qed.
(** a nonempty beginning of a printed number parses, to a value that is zero only if the number is *)
Lemma parse_prefix : forall n d1 d2, n <= U64_MAX -> print_N n = d1 ++ d2 -> d1 <> [] -> exists v, parse_uint U64_MAX d1 = Some v /\ (v = 0 -> n = 0) /\ v <= n.
Proof.
  intros n d1 d2 Hn E Hne. pose proof (print_N_digits n) as Hd. rewrite E in Hd. apply Forall_app in Hd. destruct Hd as [Hd1 Hd2].
  destruct (digits_app d1 d2 0 Hd1) as (v & E1 & E2). rewrite <- E, print_N_value in E2.
  destruct (digits_grow d2 v Hd2) as (v2 & E3 & L3). rewrite E3 in E2. injection E2 as <-.
  exists v. split; [|split; [|exact L3]].
  - unfold parse_uint. destruct d1 as [|c d1]; [congruence|]. inversion Hd1; subst.
    destruct (N.eqb_spec c 43) as [->|]; [discriminate|]. rewrite E1. destruct (N.leb_spec v U64_MAX); [reflexivity | lia].
  - intros ->. destruct (N.eq_dec n 0) as [|Hnz]; [assumption|]. exfalso.
    destruct (print_aux_head (N.size_nat n) n [] (size_nat_div n) ltac:(lia)) as (c & r & Eh & Hc). unfold print_N in E. rewrite Eh in E.
    destruct d1 as [|c1 d1]; [congruence|]. injection E as <- _. cbn [digits_value] in E1. inversion Hd1; subst.
    match goal with X : is_digit c = true |- _ => rewrite X in E1 end.
    match goal with X : Forall _ d1 |- _ => destruct (digits_grow d1 (10 * 0 + (c - 48)) X) as (w & Ew & Lw) end. rewrite Ew in E1. injection E1 as ->. lia.
Qed.

Definition prefix (a b : bytes) : Prop := exists r, b = a ++ r.
Lemma read_header_only : forall v, ~ In 10 v -> ~ In 32 v -> ascii_text v -> read (lit "Content-Length: " ++ v) =
  match parse_uint U64_MAX (trim v) with None => Failed | Some size => if 0 <? size then Failed else Message [] [] end.
Proof.
  intros v H10 H32 Ha. unfold read. rewrite take_line_all.
  2:{ rewrite in_app_iff. intros [H|H]; [|auto]. vm_compute in H. repeat (destruct H as [H|H]; [discriminate|]). destruct H. }
  rewrite decode_ascii by (apply Forall_app; split; [apply clen_ascii | exact Ha]). rewrite split_header by exact H32.
  destruct (lit "Content-Length: " ++ v) as [|b0 bf] eqn:Eb; [discriminate|]. rewrite name_ok.
  destruct (parse_uint U64_MAX (trim v)) as [size|]; [|reflexivity]. cbn [take_line List.length]. change (decode []) with (Some ([] : text)). cbn [N.of_nat].
  destruct (N.ltb_spec 0 size) as [L|L]; [reflexivity|]. assert (size = 0) as -> by lia. reflexivity.
Qed.

Lemma str_len_zero : forall m, str_len m = 0 -> m = [].
Proof.
  intros [|c m] H; [reflexivity|]. unfold str_len in H. cbn [encode flat_map] in H. destruct (encode_char_nonempty c) as (b & r & E). rewrite E in H. cbn [app List.length] in H. lia.
Qed.

(** a message cut short is not delivered as another message *)
Lemma read_truncated : forall m p x, str_len m <= U64_MAX -> write_to m = p ++ x -> x <> [] ->
  read p = Stop \/ read p = Failed \/ (read p = Message m [] /\ m = []).
Proof.
  intros m p x Hlen E Hx. rewrite write_bytes in E. symmetry in E.
  set (n := str_len m) in *.
  destruct (app_cut _ _ _ _ _ E) as [(y & -> & Ey)|(y & Ep & Hy & _)].
  - (* the first line is complete *)
    unfold read. unfold head at 1. rewrite <- !app_assoc. cbn [app].
    replace (lit "Content-Length: " ++ print_N n ++ 13 :: 10 :: y) with (head n ++ 10 :: y) by (unfold head; rewrite <- !app_assoc; reflexivity).
    rewrite take_line_cut by apply head_no_nl. rewrite decode_ascii by (apply Forall_app; split; [apply head_ascii | repeat constructor]).
    assert (Eh : head n ++ [10] = lit "Content-Length: " ++ (print_N n ++ [13; 10])) by (unfold head; rewrite <- !app_assoc; reflexivity).
    rewrite Eh. rewrite split_header; [|rewrite in_app_iff; intros [H|[H|[H|[]]]]; [revert H; apply print_N_no; reflexivity | discriminate | discriminate]].
    destruct (lit "Content-Length: " ++ _) as [|b0 bf] eqn:Eb; [discriminate|]. rewrite name_ok.
    rewrite trim_digits; [|apply print_N_digits | apply print_N_nonempty | repeat constructor]. rewrite parse_print by exact Hlen.
    symmetry in Ey. destruct (app_cut _ _ _ _ _ Ey) as [(z & -> & Ez)|(z & Ey2 & Hz & _)].
    + (* the blank line is complete too *)
      change (([13] ++ [10]) ++ z) with ([13] ++ 10 :: z). rewrite take_line_cut by (intros [H|[]]; discriminate). change (decode ([13] ++ [10])) with (Some [13; 10]).
      assert (Hl : List.length (encode m) = (List.length z + List.length x)%nat) by (rewrite Ez, app_length; reflexivity).
      destruct x as [|x0 x]; [congruence|]. cbn [List.length] in Hl.
      destruct (N.ltb_spec (N.of_nat (List.length z)) n) as [|L]; [right; left; reflexivity|]. unfold n, str_len in L. lia.
    + assert (Hy2 : y = [] \/ y = [13]).
      { destruct y as [|c1 [|c2 y]]; [left; reflexivity| |]; cbn [app] in Ey2; [right; congruence|]. exfalso. destruct y; cbn [app] in Ey2; [|discriminate]. apply Hz. congruence. }
      assert (Et : take_line y = (y, [])) by (apply take_line_all; destruct Hy2 as [->| ->]; [intros [] | intros [H|[]]; discriminate]). rewrite Et.
      assert (Ed : exists q, decode y = Some q) by (destruct Hy2 as [->| ->]; eexists; reflexivity). destruct Ed as [q ->]. cbn [List.length N.of_nat].
      destruct (N.ltb_spec 0 n) as [|L]; [right; left; reflexivity|]. assert (Hn0 : n = 0) by lia. rewrite Hn0. cbn [N.to_nat firstn skipn].
      change (decode []) with (Some ([] : text)). right. right. rewrite (str_len_zero m Hn0). split; reflexivity.
  - (* the first line is cut *)
    unfold head in Ep. rewrite <- app_assoc in Ep. symmetry in Ep. destruct (app_cut _ _ _ _ _ Ep) as [(v & -> & Ev)|(v & Ec & Hv & _)].
    + assert (Hv : exists d1 d2 w, v = d1 ++ w /\ print_N n = d1 ++ d2 /\ (w = [] \/ w = [13])).
      { rewrite <- app_assoc in Ev. symmetry in Ev. destruct (app_cut _ _ _ _ _ Ev) as [(w & -> & Ew)|(w & Ew & _ & _)].
        - exists (print_N n), [], w. rewrite app_nil_r. split; [reflexivity|]. split; [reflexivity|].
          destruct w as [|c1 [|c2 w]]; [left; reflexivity| |]; cbn [app] in Ew; [right; congruence|]. exfalso. destruct w; cbn [app] in Ew; [|discriminate]. apply Hy. congruence.
        - exists v, w, []. rewrite app_nil_r. auto. }
      destruct Hv as (d1 & d2 & w & -> & Ed & Hw).
      pose proof (print_N_digits n) as Hd. rewrite Ed in Hd. apply Forall_app in Hd. destruct Hd as [Hd1 _].
      assert (Hwno : forall c, c <> 13 -> ~ In c w) by (intros c Hc H; destruct Hw as [->| ->]; [destruct H | destruct H as [H|[]]; congruence]).
      rewrite read_header_only.
      * destruct d1 as [|c d1].
        { right. left. destruct Hw as [->| ->]; reflexivity. }
        rewrite trim_digits; [|exact Hd1 | discriminate | destruct Hw as [->| ->]; repeat constructor].
        destruct (parse_prefix n (c :: d1) d2 Hlen Ed ltac:(discriminate)) as (v & Evv & Hz & _). rewrite Evv.
        destruct (N.ltb_spec 0 v) as [|L]; [right; left; reflexivity|]. assert (n = 0) as Hn0 by (apply Hz; lia). right. right. rewrite (str_len_zero m Hn0). split; reflexivity.
      * rewrite in_app_iff. intros [H|H]; [revert H; apply digits_no; [exact Hd1 | reflexivity] | revert H; apply Hwno; discriminate].
      * rewrite in_app_iff. intros [H|H]; [revert H; apply digits_no; [exact Hd1 | reflexivity] | revert H; apply Hwno; discriminate].
      * apply Forall_app. split; [|destruct Hw as [->| ->]; repeat constructor].
        eapply Forall_impl; [|exact Hd1]. intros c H. cbn beta in *. unfold is_digit in H. apply andb_true_iff in H. rewrite !N.leb_le in H. lia.
    + (* inside the header's name: at most one piece, or nothing *)
      left.
      assert (G : forall k, (k <= 15)%nat -> read (firstn k (lit "Content-Length: ")) = Stop).
      { intros k Hk. do 16 (destruct k as [|k]; [vm_compute; reflexivity|]). lia. }
      assert (Hk : p = firstn (List.length p) (lit "Content-Length: ")) by (rewrite Ec, firstn_app, firstn_all, Nat.sub_diag, app_nil_r; reflexivity).
      rewrite Hk. apply G. apply (f_equal (@List.length _)) in Ec. rewrite app_length in Ec. change (List.length (lit "Content-Length: ")) with 16%nat in Ec.
      destruct v; [congruence|]. cbn [List.length] in Ec. lia.
Qed.

(** C28.  Any sequence of messages written one after the other is read back exactly, then end of input. *)
Theorem C28_round_trip :
  forall ms, Forall (fun m => Forall scalar m /\ str_len m <= U64_MAX) ms ->
  run_with_read (flat_map write_to ms) = (ms, true).
Proof.
  induction ms as [|m ms IH]; intro H; [reflexivity|]. inversion H as [|? ? [H1 H2] H3]; subst. cbn [flat_map].
  rewrite run_step, read_message by assumption. rewrite IH by assumption. reflexivity.
Qed.
Print Assumptions C28_round_trip.

(** C28, crash points: if the writer dies at any byte, the reader has delivered a prefix of the messages sent —
    never a truncated or a different one. *)
Theorem C28_truncation :
  forall ms p x, Forall (fun m => Forall scalar m /\ str_len m <= U64_MAX) ms -> flat_map write_to ms = p ++ x ->
  exists k ok, run_with_read p = (firstn k ms, ok).
Proof.
  induction ms as [|m ms IH]; intros p x H E.
  - cbn [flat_map] in E. symmetry in E. apply app_eq_nil in E. destruct E as [-> _]. exists 0%nat, true. reflexivity.
  - inversion H as [|? ? [H1 H2] H3]; subst. cbn [flat_map] in E. symmetry in E. destruct (app_cut _ _ _ _ _ E) as [(y & -> & Ey)|(y & Ey & Hy & _)].
    + rewrite run_step, read_message by assumption. destruct (IH y x H3 Ey) as (k & ok & Ek). exists (S k), ok. rewrite Ek. reflexivity.
    + rewrite run_step. destruct (read_truncated m p y H2 Ey Hy) as [->|[->|[-> _]]].
      * exists 0%nat, true. reflexivity.
      * exists 0%nat, false. reflexivity.
      * rewrite run_nil. exists 1%nat, true. reflexivity.
Qed.
Print Assumptions C28_truncation.

(** messages may hold anything, header look-alikes included *)
Example C28_demo :
  let m1 := lit "{""a"":1}" ++ [10; 13; 10; 0x1F600] ++ lit "Content-Length: 3" in
  run_with_read (write_to m1 ++ write_to [] ++ write_to (lit "x")) = ([m1; []; lit "x"], true).
Proof. vm_compute. reflexivity. Qed.

(** A protocol-conforming message with the optional second header is misread: its header line is
    taken for the blank line, and the body is read from the wrong place. *)
Theorem C28_second_header_refuted :
  exists input, input = encode (lit "Content-Length: 2" ++ [13; 10] ++ lit "Content-Type: a" ++ [13; 10; 13; 10] ++ lit "{}") /\
    run_with_read input <> ([lit "{}"], true).
Proof. eexists. split; [reflexivity|]. vm_compute. discriminate. Qed.
Print Assumptions C28_second_header_refuted.
