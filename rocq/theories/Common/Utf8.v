(** UTF-8 as std encodes and validates it ([char::encode_utf8], [String::from_utf8]).  A byte is an N below 256. *)
From Coq Require Import List NArith Lia Bool.
From Coq Require Import ZArith.
From Verif Require Import Common.Text.
Import ListNotations.
Open Scope N_scope.

Definition scalar (c : chr) : Prop := c < 0xD800 \/ (0xE000 <= c /\ c < 0x110000).
Definition encode_char (c : chr) : list N :=
  if c <? 0x80 then [c]
  else if c <? 0x800 then [0xC0 + c / 64; 0x80 + c mod 64]
  else if c <? 0x10000 then [0xE0 + c / 4096; 0x80 + (c / 64) mod 64; 0x80 + c mod 64]
  else [0xF0 + c / 262144; 0x80 + (c / 4096) mod 64; 0x80 + (c / 64) mod 64; 0x80 + c mod 64].
Definition encode (t : text) : list N := flat_map encode_char t.

Definition cont (b : N) : bool := (0x80 <=? b) && (b <=? 0xBF).
(** first character and rest; [None] = not UTF-8 *)
Definition decode_char (bs : list N) : option (chr * list N) :=
  match bs with
  | [] => None
  | b0 :: r0 =>
      if b0 <? 0x80 then Some (b0, r0)
      else if b0 <? 0xC2 then None
      else if b0 <? 0xE0 then
        match r0 with
        | b1 :: r => if cont b1 then Some ((b0 - 0xC0) * 64 + (b1 - 0x80), r) else None
        | _ => None
        end
      else if b0 <? 0xF0 then
        match r0 with
        | b1 :: b2 :: r =>
            let c := (b0 - 0xE0) * 4096 + (b1 - 0x80) * 64 + (b2 - 0x80) in
            if cont b1 && cont b2 && (0x800 <=? c) && negb ((0xD800 <=? c) && (c <=? 0xDFFF)) then Some (c, r) else None
        | _ => None
        end
      else if b0 <? 0xF5 then
        match r0 with
        | b1 :: b2 :: b3 :: r =>
            let c := (b0 - 0xF0) * 262144 + (b1 - 0x80) * 4096 + (b2 - 0x80) * 64 + (b3 - 0x80) in
            if cont b1 && cont b2 && cont b3 && (0x10000 <=? c) && (c <? 0x110000) then Some (c, r) else None
        | _ => None
        end
      else None
  end.
Fixpoint decode_fuel (fuel : nat) (bs : list N) : option text :=
  match bs, fuel with
  | [], _ => Some []
  | _, O => None
  | _, S f => match decode_char bs with
              | Some (c, r) => option_map (cons c) (decode_fuel f r)
              | None => None
              end
  end.
Definition decode (bs : list N) : option text := decode_fuel (length bs) bs.

Lemma cont_mod : forall m, m < 64 -> cont (0x80 + m) = true.
Proof. intros m H. unfold cont. apply andb_true_iff. rewrite !N.leb_le. lia. Qed.

Lemma div_mod64 : forall c, c = 64 * (c / 64) + c mod 64 /\ c mod 64 < 64.
Proof. intro c. split; [apply N.div_mod; lia | apply N.mod_lt; lia]. Qed.
Lemma div4096 : forall c, c / 4096 = c / 64 / 64.
Proof. intro c. rewrite N.div_div by lia. reflexivity. Qed.
Lemma div262144 : forall c, c / 262144 = c / 64 / 64 / 64.
Proof. intro c. rewrite !N.div_div by lia. reflexivity. Qed.

Lemma decode_encode_char : forall c r, scalar c -> decode_char (encode_char c ++ r) = Some (c, r).
Proof.
  intros c r Hs. unfold encode_char.
  destruct (div_mod64 c) as [D1 M1]. destruct (div_mod64 (c / 64)) as [D2 M2]. destruct (div_mod64 (c / 64 / 64)) as [D3 M3].
  rewrite div262144, div4096.
  remember (c / 64) as q eqn:Eq. remember (q / 64) as q2 eqn:Eq2. remember (q2 / 64) as q3 eqn:Eq3.
  remember (c mod 64) as m1 eqn:Em1. remember (q mod 64) as m2 eqn:Em2. remember (q2 mod 64) as m3 eqn:Em3. clear Eq Eq2 Eq3 Em1 Em2 Em3.
  destruct (N.ltb_spec c 0x80) as [L1|L1].
  - cbn [app decode_char]. destruct (N.ltb_spec c 0x80); [reflexivity | lia].
  - destruct (N.ltb_spec c 0x800) as [L2|L2].
    + cbn [app decode_char]. 
      destruct (N.ltb_spec (0xC0 + q) 0x80); [lia|]. destruct (N.ltb_spec (0xC0 + q) 0xC2); [lia|]. destruct (N.ltb_spec (0xC0 + q) 0xE0); [|lia].
      rewrite cont_mod by assumption. f_equal. f_equal. lia.
    + destruct (N.ltb_spec c 0x10000) as [L3|L3].
      * cbn [app decode_char]. 
        destruct (N.ltb_spec (0xE0 + q2) 0x80); [lia|]. destruct (N.ltb_spec (0xE0 + q2) 0xC2); [lia|]. destruct (N.ltb_spec (0xE0 + q2) 0xE0); [lia|]. destruct (N.ltb_spec (0xE0 + q2) 0xF0); [|lia].
        rewrite !cont_mod by assumption. cbn [andb].
        replace ((0xE0 + q2 - 0xE0) * 4096 + (0x80 + m2 - 0x80) * 64 + (0x80 + m1 - 0x80)) with c by lia.
        destruct (N.leb_spec 0x800 c); [|lia]. destruct (N.leb_spec 0xD800 c); [|reflexivity]. destruct (N.leb_spec c 0xDFFF); [|reflexivity]. unfold scalar in Hs. lia.
      * cbn [app decode_char]. 
        assert (q3 <= 4) by (unfold scalar in Hs; lia).
        destruct (N.ltb_spec (0xF0 + q3) 0x80); [lia|]. destruct (N.ltb_spec (0xF0 + q3) 0xC2); [lia|]. destruct (N.ltb_spec (0xF0 + q3) 0xE0); [lia|]. destruct (N.ltb_spec (0xF0 + q3) 0xF0); [lia|].
        destruct (N.ltb_spec (0xF0 + q3) 0xF5); [|lia].
        rewrite !cont_mod by assumption. cbn [andb].
        replace ((0xF0 + q3 - 0xF0) * 262144 + (0x80 + m3 - 0x80) * 4096 + (0x80 + m2 - 0x80) * 64 + (0x80 + m1 - 0x80)) with c by lia.
        destruct (N.leb_spec 0x10000 c); [|lia]. destruct (N.ltb_spec c 0x110000); [reflexivity|]. unfold scalar in Hs. lia.
Qed.
Lemma encode_char_length : forall c, N.of_nat (length (encode_char c)) = len_utf8 c.
Proof. intro c. unfold encode_char, len_utf8. repeat (destruct (_ <? _)); reflexivity. Qed.
Lemma encode_char_nonempty : forall c, exists b r, encode_char c = b :: r.
Proof. intro c. unfold encode_char. repeat (destruct (_ <? _)); eexists; eexists; reflexivity. Qed.
Lemma encode_app : forall a b, encode (a ++ b) = encode a ++ encode b.
Proof. intros. apply flat_map_app. Qed.
Lemma encode_length : forall t, N.of_nat (length (encode t)) = fold_right (fun c n => len_utf8 c + n) 0 t.
Proof.
  induction t as [|c t IH]; [reflexivity|]. cbn [encode flat_map fold_right]. rewrite app_length, Nat2N.inj_add, encode_char_length. unfold encode in IH. rewrite IH. reflexivity.
Qed.

Lemma decode_fuel_encode : forall t fuel, (length (encode t) <= fuel)%nat -> Forall scalar t -> decode_fuel fuel (encode t) = Some t.
Proof.
  induction t as [|c t IH]; intros fuel Hf Hs; [destruct fuel; reflexivity|].
  inversion Hs as [|? ? Hc Ht]; subst. cbn [encode flat_map] in *. destruct (encode_char_nonempty c) as (b & r & E).
  assert (E2 : encode_char c ++ flat_map encode_char t = b :: (r ++ flat_map encode_char t)) by (rewrite E; reflexivity).
  rewrite E2 in *. destruct fuel as [|f]; [cbn [length] in Hf; lia|]. cbn [decode_fuel]. rewrite <- E2, decode_encode_char by exact Hc.
  fold (encode t) in *. rewrite IH; [reflexivity| |exact Ht]. cbn [length] in Hf. rewrite app_length in Hf. lia.
Qed.
Theorem decode_encode : forall t, Forall scalar t -> decode (encode t) = Some t.
Proof. intros t H. apply decode_fuel_encode; [lia | exact H]. Qed.

(** ASCII is its own encoding, and no byte of another character is ASCII *)
Definition ascii_text (t : text) : Prop := Forall (fun c => c < 0x80) t.
Lemma encode_ascii : forall t, ascii_text t -> encode t = t.
Proof.
  induction t as [|c t IH]; intro H; [reflexivity|]. inversion H as [|? ? Hc Ht]; subst. cbn [encode flat_map]. unfold encode_char.
  destruct (N.ltb_spec c 0x80); [|lia]. cbn [app]. f_equal. apply IH, Ht.
Qed.
Lemma ascii_scalar : forall t, ascii_text t -> Forall scalar t.
Proof. intros t H. eapply Forall_impl; [|exact H]. intros c Hc. cbn beta in Hc. left. lia. Qed.
Lemma decode_ascii : forall t, ascii_text t -> decode t = Some t.
Proof. intros t H. rewrite <- (encode_ascii t H) at 1. apply decode_encode, ascii_scalar, H. Qed.

(** everything [decode] accepts is the encoding of scalars *)
Lemma decode_char_sound : forall bs c r, Forall (fun b => b < 256) bs -> decode_char bs = Some (c, r) -> scalar c /\ bs = encode_char c ++ r.
Proof.
  intros bs c r Hb H. destruct bs as [|b0 r0]; [discriminate|]. cbn [decode_char] in H.
  assert (CB : forall b, cont b = true -> 0x80 <= b /\ b <= 0xBF) by (intros b E; unfold cont in E; apply andb_true_iff in E; rewrite !N.leb_le in E; exact E).
  destruct (N.ltb_spec b0 0x80) as [L|L].
  { injection H as <- <-. split; [left; lia|]. unfold encode_char. destruct (N.ltb_spec b0 0x80); [reflexivity | lia]. }
  destruct (N.ltb_spec b0 0xC2) as [|L2]; [discriminate|].
  destruct (N.ltb_spec b0 0xE0) as [L3|L3].
  { destruct r0 as [|b1 r1]; [discriminate|]. destruct (cont b1) eqn:C1; [|discriminate]. injection H as <- <-. apply CB in C1.
    split; [left; lia|]. unfold encode_char. set (c := (b0 - 0xC0) * 64 + (b1 - 0x80)).
    assert (Q : c / 64 = b0 - 0xC0) by (symmetry; apply (N.div_unique c 64 _ (b1 - 0x80)); unfold c; lia).
    assert (R : c mod 64 = b1 - 0x80) by (symmetry; apply (N.mod_unique c 64 (b0 - 0xC0)); unfold c; lia).
    rewrite Q, R. clear Q R.
    destruct (N.ltb_spec c 0x80); [unfold c in *; lia|]. destruct (N.ltb_spec c 0x800); [|unfold c in *; lia]. cbn [app]. f_equal; [lia|]. f_equal. lia. }
  destruct (N.ltb_spec b0 0xF0) as [L4|L4].
  { destruct r0 as [|b1 [|b2 r1]]; try discriminate. cbv zeta in H. set (c' := (b0 - 0xE0) * 4096 + (b1 - 0x80) * 64 + (b2 - 0x80)) in *.
    destruct (cont b1) eqn:C1; [|discriminate]. destruct (cont b2) eqn:C2; [|discriminate]. cbn [andb] in H. apply CB in C1, C2.
    destruct (N.leb_spec 0x800 c') as [G1|]; [|discriminate]. cbn [andb] in H.
    assert (Hs : scalar c').
    { destruct (N.leb_spec 0xD800 c'); [|left; lia]. destruct (N.leb_spec c' 0xDFFF); [discriminate|]. right. split; [lia | unfold c'; lia]. }
    destruct (negb _); [|discriminate]. injection H as <- <-. split; [exact Hs|]. unfold encode_char. rewrite div4096.
    assert (Q1 : c' / 64 = (b0 - 0xE0) * 64 + (b1 - 0x80)) by (symmetry; apply (N.div_unique c' 64 _ (b2 - 0x80)); unfold c'; lia).
    assert (R1 : c' mod 64 = b2 - 0x80) by (symmetry; apply (N.mod_unique c' 64 ((b0 - 0xE0) * 64 + (b1 - 0x80))); unfold c'; lia).
    assert (Q2 : c' / 64 / 64 = b0 - 0xE0) by (rewrite Q1; symmetry; apply (N.div_unique _ 64 _ (b1 - 0x80)); lia).
    assert (R2 : (c' / 64) mod 64 = b1 - 0x80) by (rewrite Q1; symmetry; apply (N.mod_unique _ 64 (b0 - 0xE0)); lia).
    rewrite Q2, R2, R1. clear Q1 R1 Q2 R2. destruct (N.ltb_spec c' 0x80); [lia|]. destruct (N.ltb_spec c' 0x800); [lia|]. destruct (N.ltb_spec c' 0x10000); [|unfold c' in *; lia].
    cbn [app]. f_equal; [lia|]. f_equal; [lia|]. f_equal. lia. }
  destruct (N.ltb_spec b0 0xF5) as [L5|]; [|discriminate].
  destruct r0 as [|b1 [|b2 [|b3 r1]]]; try discriminate. cbv zeta in H. set (c' := (b0 - 0xF0) * 262144 + (b1 - 0x80) * 4096 + (b2 - 0x80) * 64 + (b3 - 0x80)) in *.
  destruct (cont b1) eqn:C1; [|discriminate]. destruct (cont b2) eqn:C2; [|discriminate]. destruct (cont b3) eqn:C3; [|discriminate]. cbn [andb] in H. apply CB in C1, C2, C3.
  destruct (N.leb_spec 0x10000 c') as [G1|]; [|discriminate]. destruct (N.ltb_spec c' 0x110000) as [G2|]; [|discriminate]. cbn [andb] in H. injection H as <- <-.
  split; [right; lia|]. unfold encode_char. rewrite div262144, div4096.
  assert (Q1 : c' / 64 = (b0 - 0xF0) * 4096 + (b1 - 0x80) * 64 + (b2 - 0x80)) by (symmetry; apply (N.div_unique c' 64 _ (b3 - 0x80)); unfold c'; lia).
  assert (R1 : c' mod 64 = b3 - 0x80) by (symmetry; apply (N.mod_unique c' 64 ((b0 - 0xF0) * 4096 + (b1 - 0x80) * 64 + (b2 - 0x80))); unfold c'; lia).
  assert (Q2 : c' / 64 / 64 = (b0 - 0xF0) * 64 + (b1 - 0x80)) by (rewrite Q1; symmetry; apply (N.div_unique _ 64 _ (b2 - 0x80)); lia).
  assert (R2 : (c' / 64) mod 64 = b2 - 0x80) by (rewrite Q1; symmetry; apply (N.mod_unique _ 64 ((b0 - 0xF0) * 64 + (b1 - 0x80))); lia).
  assert (Q3 : c' / 64 / 64 / 64 = b0 - 0xF0) by (rewrite Q2; symmetry; apply (N.div_unique _ 64 _ (b1 - 0x80)); lia).
  assert (R3 : (c' / 64 / 64) mod 64 = b1 - 0x80) by (rewrite Q2; symmetry; apply (N.mod_unique _ 64 (b0 - 0xF0)); lia).
  rewrite Q3, R3, R2, R1. clear Q1 R1 Q2 R2 Q3 R3. destruct (N.ltb_spec c' 0x80); [lia|]. destruct (N.ltb_spec c' 0x800); [lia|]. destruct (N.ltb_spec c' 0x10000); [lia|].
  cbn [app]. f_equal; [lia|]. f_equal; [lia|]. f_equal; [lia|]. f_equal. lia.
Qed.
Theorem decode_sound : forall bs t, Forall (fun b => b < 256) bs -> decode bs = Some t -> Forall scalar t /\ bs = encode t.
Proof.
  intros bs t Hb. unfold decode. generalize (length bs) at 1. intro fuel. revert bs t Hb.
  induction fuel as [|f IH]; intros bs t Hb H; (destruct bs as [|b0 r0]; [change (Some ([] : text) = Some t) in H; assert (t = []) as -> by congruence; split; [apply Forall_nil | reflexivity]|]).
  - discriminate.
  - cbn [decode_fuel] in H. destruct (decode_char (b0 :: r0)) as [[c r]|] eqn:E; [|discriminate].
    destruct (decode_char_sound _ _ _ Hb E) as [Hs Eb]. destruct (decode_fuel f r) as [t'|] eqn:Et; [|discriminate]. cbn in H. injection H as <-.
    assert (Hr : Forall (fun b => b < 256) r) by (rewrite Eb in Hb; apply Forall_app in Hb; apply Hb).
    destruct (IH r t' Hr Et) as [Hs' Er]. split; [constructor; assumption|]. rewrite Eb, Er at 1. reflexivity.
Qed.
