(** Rust strings as lists of Unicode scalar values, and the [str] methods the modelled code calls.
    These model std (not /repo), as documented for [str::lines], [trim], [split_once], [split],
    [FromStr for u8/u32/usize]. *)
From Coq Require Import List NArith ZArith Lia Bool Ascii String.
Import ListNotations.

Notation chr := N.
Definition text := list chr.

(** a literal *)
Fixpoint lit (s : string) : text :=
  match s with
  | EmptyString => []
  | String a s' => N_of_ascii a :: lit s'
  end.

Fixpoint text_eqb (a b : text) : bool :=
  match a, b with
  | [], [] => true
  | x :: a', y :: b' => N.eqb x y && text_eqb a' b'
  | _, _ => false
  end.

Lemma text_eqb_spec : forall a b, reflect (a = b) (text_eqb a b).
Proof.
  induction a as [|x a IH]; intros [|y b]; cbn [text_eqb]; try (constructor; congruence).
  destruct (N.eqb_spec x y) as [->|Hne]; cbn [andb].
  - destruct (IH b) as [->|Hne]; constructor; congruence.
  - constructor; congruence.
Qed.

Lemma text_eqb_refl : forall a, text_eqb a a = true.
Proof. intro a. destruct (text_eqb_spec a a); congruence. Qed.

Lemma text_eqb_eq : forall a b, text_eqb a b = true <-> a = b.
Proof. intros a b. destruct (text_eqb_spec a b); split; congruence. Qed.

Definition text_eq_dec (a b : text) : {a = b} + {a <> b} := list_eq_dec N.eq_dec a b.

(** [str::starts_with] with a string pattern *)
Fixpoint starts_with (pat s : text) : bool :=
  match pat, s with
  | [], _ => true
  | p :: pat', c :: s' => N.eqb p c && starts_with pat' s'
  | _ :: _, [] => false
  end.

Lemma starts_with_spec : forall pat s, starts_with pat s = true <-> exists r, s = pat ++ r.
Proof.
  induction pat as [|p pat IH]; intros s.
  - split; [intros _; exists s; reflexivity | reflexivity].
  - destruct s as [|c s]; cbn [starts_with]; [split; [discriminate | intros [r H]; discriminate] |].
    destruct (N.eqb_spec p c) as [->|Hne]; cbn [andb].
    + rewrite IH. split; intros [r H]; exists r; [subst; reflexivity | cbn in H; congruence].
    + split; [discriminate | intros [r H]; cbn in H; congruence].
Qed.

(** [str::split_once] with a string pattern: the first occurrence *)
Fixpoint split_once (pat s : text) : option (text * text) :=
  if starts_with pat s then Some ([], skipn (List.length pat) s)
  else match s with
       | [] => None
       | c :: s' => match split_once pat s' with
                    | Some (a, b) => Some (c :: a, b)
                    | None => None
                    end
       end.

(** [str::split(char)]: always at least one piece *)
Fixpoint split_char (sep : chr) (s : text) : list text :=
  match s with
  | [] => [[]]
  | c :: s' =>
      if N.eqb c sep then [] :: split_char sep s'
      else match split_char sep s' with
           | [] => [[c]]
           | p :: ps => (c :: p) :: ps
           end
  end.

(** [str::lines]: split at \n, drop one \r before it, no last empty line *)
Definition strip_cr (l : text) : text :=
  match rev l with
  | 13%N :: r => rev r
  | _ => l
  end.
Fixpoint lines_aux (pieces : list text) : list text :=
  match pieces with
  | [] => []
  | [last] => match last with [] => [] | _ => [last] end
  | p :: ps => strip_cr p :: lines_aux ps
  end.
Definition lines (s : text) : list text := lines_aux (split_char 10%N s).

(** [char::is_whitespace]: the Unicode White_Space property *)
Definition is_whitespace (c : chr) : bool :=
  ((9 <=? c) && (c <=? 13) || (c =? 32) || (c =? 0x85) || (c =? 0xA0) || (c =? 0x1680)
   || ((0x2000 <=? c) && (c <=? 0x200A)) || (c =? 0x2028) || (c =? 0x2029) || (c =? 0x202F)
   || (c =? 0x205F) || (c =? 0x3000))%N.

Fixpoint drop_while (f : chr -> bool) (s : text) : text :=
  match s with
  | [] => []
  | c :: s' => if f c then drop_while f s' else s
  end.

Definition trim_start (s : text) : text := drop_while is_whitespace s.
Definition trim_end (s : text) : text := rev (drop_while is_whitespace (rev s)).
Definition trim (s : text) : text := trim_end (trim_start s).

Definition is_digit (c : chr) : bool := ((48 <=? c) && (c <=? 57))%N.

Fixpoint digits_value (acc : N) (s : text) : option N :=
  match s with
  | [] => Some acc
  | c :: s' => if is_digit c then digits_value (10 * acc + (c - 48)) s' else None
  end.

(** [str::parse::<uN>()] with largest value [max]: an optional '+', then at least one digit *)
Definition parse_uint (max : N) (s : text) : option N :=
  let body := match s with c :: r => if N.eqb c 43 then r else s | [] => [] end in
  match body with
  | [] => None
  | _ => match digits_value 0 body with
         | Some v => if (v <=? max)%N then Some v else None
         | None => None
         end
  end.

Definition U8_MAX : N := 255.
Definition U16_MAX : N := 65535.
Definition U32_MAX : N := 4294967295.
Definition U64_MAX : N := 18446744073709551615.

Definition contains_char (c : chr) (s : text) : bool := existsb (N.eqb c) s.

(** number of UTF-8 bytes of a char / of a string ([char::len_utf8], [str::len]) *)
Definition len_utf8 (c : chr) : N :=
  (if c <? 0x80 then 1 else if c <? 0x800 then 2 else if c <? 0x10000 then 3 else 4)%N.
(** number of UTF-16 code units ([char::len_utf16]) *)
Definition len_utf16 (c : chr) : N := (if c <? 0x10000 then 1 else 2)%N.

Example lines_demo : lines (lit "a" ++ [13; 10; 10]%N ++ lit "b" ++ [10%N]) = [lit "a"; []; lit "b"].
Proof. reflexivity. Qed.
Example split_once_demo : split_once (lit " = ") (lit "x = y = z") = Some (lit "x", lit "y = z").
Proof. reflexivity. Qed.
Example trim_demo : trim (lit "  a b ") = lit "a b".
Proof. reflexivity. Qed.
Example parse_demo : parse_uint U8_MAX (lit "+255") = Some 255%N /\ parse_uint U8_MAX (lit "256") = None /\
  parse_uint U8_MAX (lit "") = None /\ parse_uint U8_MAX (lit "1 ") = None.
Proof. repeat split. Qed.
