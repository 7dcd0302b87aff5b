(** Colour literals.  Models crates/dm-langserver/src/color.rs.  Property C31. *)
From Coq Require Import List NArith Arith Lia Bool String.
From Verif Require Import Common.Text Common.TextFacts Common.Decimal.
Import ListNotations.
Open Scope N_scope.

(** [r, g, b, a]: four u8 *)
Definition color := (N * N * N * N)%type.
Definition byte_color (c : color) : Prop := let '(r, g, b, a) := c in r < 256 /\ g < 256 /\ b < 256 /\ a < 256.

Definition is_hex (c : chr) : bool := is_digit c || ((65 <=? c) && (c <=? 70)) || ((97 <=? c) && (c <=? 102)).
(** [char::to_digit(16)] of a hexadecimal digit *)
Definition hex_value (c : chr) : N := if is_digit c then c - 48 else if c <=? 70 then c - 55 else c - 87.
(** [{:x}] of one digit *)
Definition hex_char (v : N) : chr := if v <? 10 then 48 + v else 87 + v.

Fixpoint take_while (f : chr -> bool) (s : text) : text :=
  match s with [] => [] | c :: s' => if f c then c :: take_while f s' else [] end.
(** greedy [x{0,n}] *)
Fixpoint up_to (n : nat) (f : chr -> bool) (s : text) : text * text :=
  match n, s with
  | S n', c :: s' => if f c then let '(a, b) := up_to n' f s' in (c :: a, b) else ([], s)
  | _, _ => ([], s)
  end.
Definition is_nil {A} (l : list A) : bool := match l with [] => true | _ => false end.
Definition blen (t : text) : N := fold_right (fun c n => len_utf8 c + n) 0 t.

Section Regex.
  (** regex [\d] without flags: the Unicode decimal digits *)
  Context (udigit : chr -> bool).

  Inductive token := Hex (digits : text) | Rgb (r g b : text) (a : option text).

  (** color.rs:100 COLOR_REGEX, its pieces.  The choices of the regex are between disjoint characters, so that
      leftmost-first matching needs no backtracking: after [x{3,8}] comes a quote, which is no hex digit; after
      [\d{1,3}] a comma, a space or a parenthesis. *)
  Definition match_quoted (q : chr) (t : text) : option (token * text) :=
    match t with
    | c0 :: c1 :: r =>
        if (c0 =? q) && (c1 =? 35) then
          let '(ds, r') := up_to 8 is_hex r in
          if (3 <=? List.length ds)%nat then
            match r' with c :: rest => if c =? q then Some (Hex ds, rest) else None | [] => None end
          else None
        else None
    | _ => None
    end.
  Definition number (t : text) : option (text * text) :=
    let '(ds, r) := up_to 3 udigit t in if is_nil ds then None else Some (ds, r).
  Definition comma_number (t : text) : option (text * text) :=
    match t with c :: r => if c =? 44 then number (drop_while is_whitespace r) else None | [] => None end.
  Definition close_paren (tk : token) (t : text) : option (token * text) :=
    match drop_while is_whitespace t with c :: r => if c =? 41 then Some (tk, r) else None | [] => None end.
  Definition match_rgb (t : text) : option (token * text) :=
    if Text.starts_with (lit "rgb(") t then
      match number (drop_while is_whitespace (skipn 4 t)) with
      | None => None
      | Some (d1, t1) =>
          match comma_number t1 with
          | None => None
          | Some (d2, t2) =>
              match comma_number t2 with
              | None => None
              | Some (d3, t3) =>
                  match comma_number t3 with
                  | Some (d4, t4) => match close_paren (Rgb d1 d2 d3 (Some d4)) t4 with Some m => Some m | None => close_paren (Rgb d1 d2 d3 None) t3 end
                  | None => close_paren (Rgb d1 d2 d3 None) t3
                  end
              end
          end
      end
    else None.
  Definition match_here (t : text) : option (token * text) :=
    match match_quoted 34 t with
    | Some m => Some m
    | None => match match_quoted 39 t with Some m => Some m | None => match_rgb t end
    end.

  (** color.rs:127-160 parse_hex: [sum] is a u32 (at most 8 digits) *)
  Definition hex_sum (hex : text) : N := fold_left (fun sum ch => 16 * sum + hex_value ch) hex 0.
  Definition as_u8 (n : N) : N := n mod 256.
  Definition parse_hex (hex : text) : option color :=
    let sum := hex_sum hex in
    if (List.length hex =? 8)%nat then Some (as_u8 (sum / 2 ^ 24), as_u8 (sum / 2 ^ 16), as_u8 (sum / 2 ^ 8), as_u8 sum)
    else if (List.length hex =? 6)%nat then Some (as_u8 (sum / 2 ^ 16), as_u8 (sum / 2 ^ 8), as_u8 sum, 255)
    else if (List.length hex =? 4)%nat then
      Some (as_u8 (17 * ((sum / 2 ^ 12) mod 16)), as_u8 (17 * ((sum / 2 ^ 8) mod 16)), as_u8 (17 * ((sum / 2 ^ 4) mod 16)), as_u8 (17 * (sum mod 16)))
    else if (List.length hex =? 3)%nat then
      Some (as_u8 (17 * ((sum / 2 ^ 8) mod 16)), as_u8 (17 * ((sum / 2 ^ 4) mod 16)), as_u8 (17 * (sum mod 16)), 255)
    else None.
  (** color.rs:162-169 parse_rgba *)
  Definition parse_rgba (r g b : text) (a : option text) : option color :=
    match parse_uint U8_MAX r, parse_uint U8_MAX g, parse_uint U8_MAX b with
    | Some r, Some g, Some b =>
        Some (r, g, b, match a with Some a => match parse_uint U8_MAX a with Some a => a | None => 255 end | None => 255 end)
    | _, _, _ => None
    end.
  (** color.rs:103-125 parse_capture *)
  Definition parse_capture (tk : token) : option color :=
    match tk with Hex ds => parse_hex ds | Rgb r g b a => parse_rgba r g b a end.

  (** [captures_iter]: leftmost, non-overlapping; byte offsets *)
  Fixpoint captures (fuel : nat) (off : N) (t : text) : list (N * N * token) :=
    match fuel with
    | O => []
    | S f =>
        match match_here t with
        | Some (tk, rest) => let e := off + (blen t - blen rest) in (off, e, tk) :: captures f e rest
        | None => match t with [] => [] | c :: t' => captures f (off + len_utf8 c) t' end
        end
    end.
  Definition captures_iter (t : text) : list (N * N * token) := captures (S (List.length t)) 0 t.

  (** color.rs:10-17 extract_colors *)
  Definition extract_colors (t : text) : list (N * N * color) :=
    flat_map (fun q => let '(s, e, tk) := q in match parse_capture tk with Some c => [(s, e, c)] | None => [] end) (captures_iter t).
End Regex.

(** color.rs:19-30 ColorFormat *)
Inductive color_format := FHex (single_quoted short alpha : bool) | FRgb (alpha : bool).

Definition ends_with_char (c : chr) (t : text) : bool := match rev t with x :: _ => x =? c | [] => false end.

(** color.rs:32-53 ColorFormat::parse *)
Definition format_parse (input : text) : option color_format :=
  if Text.starts_with (lit "rgb") input then Some (FRgb (2 <? List.length (filter (N.eqb 44) input))%nat)
  else
    let mk q := Some (FHex q (blen input <=? 7) ((blen input =? 7) || (blen input =? 11))) in
    if Text.starts_with (lit "'#") input && ends_with_char 39 input then mk true
    else if Text.starts_with [34; 35] input && ends_with_char 34 input then mk false
    else None.

(** [{:02x}] *)
Definition hex2 (n : N) : text := [hex_char (n / 16); hex_char (n mod 16)].

(** color.rs:55-90 format *)
Definition format (f : color_format) (c : color) : text :=
  let '(r, g, b, a) := c in
  match f with
  | FHex single_quoted short alpha =>
      let q := if single_quoted then 39 else 34 in
      let short := short && (r mod 17 =? 0) && (g mod 17 =? 0) && (b mod 17 =? 0) && (a mod 17 =? 0) in
      let alpha := alpha || negb (a =? 255) in
      [q; 35] ++
      match short, alpha with
      | false, false => hex2 r ++ hex2 g ++ hex2 b
      | false, true => hex2 r ++ hex2 g ++ hex2 b ++ hex2 a
      | true, false => [hex_char (r / 17); hex_char (g / 17); hex_char (b / 17)]
      | true, true => [hex_char (r / 17); hex_char (g / 17); hex_char (b / 17); hex_char (a / 17)]
      end ++ [q]
  | FRgb alpha =>
      if alpha || negb (a =? 255)
      then lit "rgb(" ++ print_N r ++ lit ", " ++ print_N g ++ lit ", " ++ print_N b ++ lit ", " ++ print_N a ++ lit ")"
      else lit "rgb(" ++ print_N r ++ lit ", " ++ print_N g ++ lit ", " ++ print_N b ++ lit ")"
  end.

(** ** Specification: the literals and the colours they denote *)
Section Spec.
  Context (udigit : chr -> bool).
  Definition spaces (w : text) : Prop := Forall (fun c => is_whitespace c = true) w.
  Definition digits (d : text) : Prop := Forall (fun c => udigit c = true) d /\ (1 <= List.length d <= 3)%nat.
  Inductive literal : text -> token -> Prop :=
  | lit_hex : forall q ds, q = 34 \/ q = 39 -> Forall (fun c => is_hex c = true) ds -> (3 <= List.length ds <= 8)%nat ->
      literal (q :: 35 :: ds ++ [q]) (Hex ds)
  | lit_rgb : forall w1 d1 w2 d2 w3 d3 w, spaces w1 -> spaces w2 -> spaces w3 -> spaces w -> digits d1 -> digits d2 -> digits d3 ->
      literal (lit "rgb(" ++ w1 ++ d1 ++ 44 :: w2 ++ d2 ++ 44 :: w3 ++ d3 ++ w ++ [41]) (Rgb d1 d2 d3 None)
  | lit_rgba : forall w1 d1 w2 d2 w3 d3 w4 d4 w, spaces w1 -> spaces w2 -> spaces w3 -> spaces w4 -> spaces w -> digits d1 -> digits d2 -> digits d3 -> digits d4 ->
      literal (lit "rgb(" ++ w1 ++ d1 ++ 44 :: w2 ++ d2 ++ 44 :: w3 ++ d3 ++ 44 :: w4 ++ d4 ++ w ++ [41]) (Rgb d1 d2 d3 (Some d4)).
End Spec.
(** the decimal number a digit string denotes *)
Definition decimal (d : text) (n : N) : Prop := Forall (fun c => is_digit c = true) d /\ n = fold_left (fun v c => 10 * v + (c - 48)) d 0.
Inductive denotes : token -> color -> Prop :=
| den_3 : forall x y z, denotes (Hex [x; y; z]) (17 * hex_value x, 17 * hex_value y, 17 * hex_value z, 255)
| den_4 : forall x y z w, denotes (Hex [x; y; z; w]) (17 * hex_value x, 17 * hex_value y, 17 * hex_value z, 17 * hex_value w)
| den_6 : forall x1 x2 y1 y2 z1 z2, denotes (Hex [x1; x2; y1; y2; z1; z2])
    (16 * hex_value x1 + hex_value x2, 16 * hex_value y1 + hex_value y2, 16 * hex_value z1 + hex_value z2, 255)
| den_8 : forall x1 x2 y1 y2 z1 z2 w1 w2, denotes (Hex [x1; x2; y1; y2; z1; z2; w1; w2])
    (16 * hex_value x1 + hex_value x2, 16 * hex_value y1 + hex_value y2, 16 * hex_value z1 + hex_value z2, 16 * hex_value w1 + hex_value w2)
| den_rgb : forall dr dg db r g b, decimal dr r -> decimal dg g -> decimal db b -> r < 256 -> g < 256 -> b < 256 -> denotes (Rgb dr dg db None) (r, g, b, 255)
| den_rgba : forall dr dg db da r g b a, decimal dr r -> decimal dg g -> decimal db b -> decimal da a -> r < 256 -> g < 256 -> b < 256 -> a < 256 -> denotes (Rgb dr dg db (Some da)) (r, g, b, a)
  (* an alpha that is no byte counts as opaque *)
| den_rgba_opaque : forall dr dg db da r g b, decimal dr r -> decimal dg g -> decimal db b -> r < 256 -> g < 256 -> b < 256 ->
    (forall a, decimal da a -> 256 <= a) -> denotes (Rgb dr dg db (Some da)) (r, g, b, 255).

(** ** Proofs *)
Lemma up_to_app : forall f n ds r, Forall (fun c => f c = true) ds -> (List.length ds <= n)%nat -> (match r with [] => True | c :: _ => f c = false end) ->
  up_to n f (ds ++ r) = (ds, r).
Proof.
  intros f n ds. revert n. induction ds as [|c ds IH]; intros n r H Hn Hr; cbn [app].
  - destruct n; [reflexivity|]. destruct r as [|c r]; [reflexivity|]. cbn. rewrite Hr. reflexivity.
  - inversion H as [|? ? Hc Hd]; subst. destruct n as [|n]; cbn [List.length] in Hn; [lia|]. cbn [up_to]. rewrite Hc, IH; [reflexivity | exact Hd | lia | exact Hr].
Qed.
Lemma up_to_sound : forall f n t a b, up_to n f t = (a, b) -> t = a ++ b /\ Forall (fun c => f c = true) a /\ (List.length a <= n)%nat.
Proof.
  induction n as [|n IH]; intros t a b H; [injection H as <- <-; cbn; auto using Forall_nil|].
  destruct t as [|c t]; cbn [up_to] in H; [injection H as <- <-; cbn; split; [reflexivity|]; split; [constructor | lia]|].
  destruct (f c) eqn:E; [|injection H as <- <-; cbn; split; [reflexivity|]; split; [constructor | lia]].
  destruct (up_to n f t) as [a' b'] eqn:Eu. injection H as <- <-. destruct (IH _ _ _ Eu) as (-> & H1 & H2). cbn. split; [reflexivity|]. split; [constructor; assumption | lia].
Qed.
Lemma drop_ws_app : forall w r, spaces w -> (match r with [] => True | c :: _ => is_whitespace c = false end) -> drop_while is_whitespace (w ++ r) = r.
Proof.
  induction w as [|c w IH]; intros r H Hr; cbn [app].
  - destruct r as [|c r]; [reflexivity|]. cbn. rewrite Hr. reflexivity.
  - inversion H; subst. cbn. rewrite H2. apply IH; assumption.
Qed.
Lemma drop_ws_sound : forall t, exists w, t = w ++ drop_while is_whitespace t /\ spaces w.
Proof.
  induction t as [|c t (w & E & H)]; [exists []; split; [reflexivity | constructor]|]. cbn [drop_while]. destruct (is_whitespace c) eqn:Ec.
  - exists (c :: w). split; [cbn; congruence | constructor; assumption].
  - exists []. split; [reflexivity | constructor].
Qed.

Section RegexFacts.
  Context (udigit : chr -> bool) (ascii_agrees : forall c, c < 128 -> udigit c = is_digit c) (not_space : forall c, udigit c = true -> is_whitespace c = false).

  Lemma number_app : forall d r, digits udigit d -> (match r with [] => True | c :: _ => udigit c = false end) -> number udigit (d ++ r) = Some (d, r).
  Proof. intros d r [H1 H2] Hr. unfold number. rewrite (up_to_app udigit 3 d r H1 ltac:(lia) Hr). destruct d; [cbn in H2; lia | reflexivity]. Qed.
  Lemma number_sound : forall t d r, number udigit t = Some (d, r) -> t = d ++ r /\ digits udigit d.
  Proof.
    intros t d r H. unfold number in H. destruct (up_to 3 udigit t) as [a b] eqn:E. apply up_to_sound in E. destruct E as (-> & H1 & H2).
    destruct a as [|c a]; [discriminate|]. injection H as <- <-. split; [reflexivity|]. split; [exact H1 | cbn [List.length] in *; lia].
  Qed.
  Lemma comma_app : forall w d r, spaces w -> digits udigit d -> (match r with [] => True | c :: _ => udigit c = false end) -> comma_number udigit (44 :: w ++ d ++ r) = Some (d, r).
  Proof using not_space.
    intros w d r Hw Hd Hr. cbn [comma_number]. rewrite N.eqb_refl, drop_ws_app.
    - apply number_app; assumption.
    - exact Hw.
    - destruct Hd as [H1 H2]. destruct d as [|c d]; [cbn in H2; lia|]. inversion H1; subst. cbn [app]. apply not_space. assumption.
  Qed.
  Lemma comma_sound : forall t d r, comma_number udigit t = Some (d, r) -> exists w, t = 44 :: w ++ d ++ r /\ spaces w /\ digits udigit d.
  Proof.
    intros t d r H. destruct t as [|c t]; [discriminate|]. cbn [comma_number] in H. destruct (N.eqb_spec c 44) as [->|]; [|discriminate].
    apply number_sound in H. destruct H as [E H]. destruct (drop_ws_sound t) as (w & Ew & Hw). exists w. rewrite <- E, <- Ew. auto.
  Qed.
  Lemma close_app : forall tk w r, spaces w -> close_paren tk (w ++ 41 :: r) = Some (tk, r).
  Proof. intros tk w r Hw. unfold close_paren. rewrite drop_ws_app by (assumption || reflexivity). reflexivity. Qed.
  Lemma close_sound : forall tk t tk' r, close_paren tk t = Some (tk', r) -> tk' = tk /\ exists w, t = w ++ 41 :: r /\ spaces w.
  Proof.
    intros tk t tk' r H. unfold close_paren in H. destruct (drop_ws_sound t) as (w & Ew & Hw). destruct (drop_while is_whitespace t) as [|c t']; [discriminate|].
    destruct (N.eqb_spec c 41) as [->|]; [|discriminate]. injection H as <- <-. split; [reflexivity|]. exists w. auto.
  Qed.
  Lemma space_or_paren : forall w r, spaces w -> match w ++ 41 :: r with [] => True | c :: _ => udigit c = false end.
  Proof using ascii_agrees not_space.
    intros w r Hw. destruct w as [|c w]; cbn [app]; [rewrite ascii_agrees by lia; reflexivity|]. inversion Hw as [|? ? E _]; subst.
    destruct (udigit c) eqn:Eu; [|reflexivity]. apply not_space in Eu. congruence.
  Qed.
  Lemma comma_not_digit : udigit 44 = false.
  Proof using ascii_agrees. exact (eq_trans (ascii_agrees 44 eq_refl) eq_refl). Qed.
  Lemma ws_comma : is_whitespace 44 = false. Proof. reflexivity. Qed.

  Lemma match_rgb_after : forall x, match_rgb udigit (lit "rgb(" ++ x) =
    match number udigit (drop_while is_whitespace x) with
    | None => None
    | Some (d1, t1) =>
        match comma_number udigit t1 with
        | None => None
        | Some (d2, t2) =>
            match comma_number udigit t2 with
            | None => None
            | Some (d3, t3) =>
                match comma_number udigit t3 with
                | Some (d4, t4) => match close_paren (Rgb d1 d2 d3 (Some d4)) t4 with Some m => Some m | None => close_paren (Rgb d1 d2 d3 None) t3 end
                | None => close_paren (Rgb d1 d2 d3 None) t3
                end
            end
        end
    end.
  Proof using Type. reflexivity. Qed.

  (** matching accepts every literal, and consumes exactly it *)
  Lemma match_literal : forall l tk post, literal udigit l tk -> match_here udigit (l ++ post) = Some (tk, post).
  Proof using ascii_agrees not_space.
    intros l tk post H. inversion H as [q ds Hq Hh Hl|w1 d1 w2 d2 w3 d3 w W1 W2 W3 W D1 D2 D3|w1 d1 w2 d2 w3 d3 w4 d4 w W1 W2 W3 W4 W D1 D2 D3 D4]; subst l tk; clear H.
    - assert (E : match_quoted q (q :: 35 :: (ds ++ [q]) ++ post) = Some (Hex ds, post)).
      { cbn [match_quoted]. rewrite !N.eqb_refl. cbn [andb]. rewrite <- app_assoc. cbn [app]. rewrite up_to_app; [|exact Hh | lia | destruct Hq as [->| ->]; reflexivity].
        destruct (Nat.leb_spec 3 (List.length ds)); [|lia]. rewrite N.eqb_refl. reflexivity. }
      cbn [app]. unfold match_here. destruct Hq as [->| ->]; [rewrite E; reflexivity|]. replace (match_quoted 34 _) with (@None (token * text)) by reflexivity. rewrite E. reflexivity.
    - unfold match_here. replace (match_quoted 34 _) with (@None (token * text)) by reflexivity. replace (match_quoted 39 _) with (@None (token * text)) by reflexivity.
      rewrite <- app_assoc. rewrite match_rgb_after.
      rewrite <- ?app_assoc. cbn [app]. rewrite <- ?app_assoc. cbn [app]. rewrite <- ?app_assoc. cbn [app].
      rewrite drop_ws_app; [|exact W1 | destruct D1 as [X Y]; destruct d1 as [|c d1]; [cbn in Y; lia|]; inversion X; subst; cbn [app]; apply not_space; assumption].
      rewrite number_app by (assumption || exact comma_not_digit). rewrite comma_app by (assumption || exact comma_not_digit).
      rewrite comma_app by (assumption || (apply space_or_paren; assumption)).
      replace (comma_number udigit (w ++ 41 :: post)) with (@None (text * text)); [apply close_app; exact W|].
      destruct w as [|c w]; [reflexivity|]. inversion W as [|? ? E _]; subst. cbn [app comma_number]. destruct (N.eqb_spec c 44) as [->|]; [discriminate | reflexivity].
    - unfold match_here. replace (match_quoted 34 _) with (@None (token * text)) by reflexivity. replace (match_quoted 39 _) with (@None (token * text)) by reflexivity.
      rewrite <- app_assoc. rewrite match_rgb_after.
      rewrite <- ?app_assoc. cbn [app]. rewrite <- ?app_assoc. cbn [app]. rewrite <- ?app_assoc. cbn [app]. rewrite <- ?app_assoc. cbn [app].
      rewrite drop_ws_app; [|exact W1 | destruct D1 as [X Y]; destruct d1 as [|c d1]; [cbn in Y; lia|]; inversion X; subst; cbn [app]; apply not_space; assumption].
      rewrite number_app by (assumption || exact comma_not_digit). rewrite comma_app by (assumption || exact comma_not_digit). rewrite comma_app by (assumption || exact comma_not_digit).
      rewrite comma_app by (assumption || (apply space_or_paren; assumption)). rewrite close_app by exact W. reflexivity.
  Qed.
  (** and nothing else *)
  Lemma match_sound : forall t tk rest, match_here udigit t = Some (tk, rest) -> exists l, t = l ++ rest /\ literal udigit l tk.
  Proof.
    intros t tk rest H.
    assert (Q : forall q, q = 34 \/ q = 39 -> match_quoted q t = Some (tk, rest) -> exists l, t = l ++ rest /\ literal udigit l tk).
    { intros q Hq E. destruct t as [|c0 [|c1 r]]; try discriminate. cbn [match_quoted] in E.
      destruct (N.eqb_spec c0 q) as [->|]; [|discriminate]. destruct (N.eqb_spec c1 35) as [->|]; [|discriminate]. cbn [andb] in E.
      destruct (up_to 8 is_hex r) as [ds r'] eqn:Eu. apply up_to_sound in Eu. destruct Eu as (-> & Hh & Hl). destruct (Nat.leb_spec 3 (List.length ds)) as [L|]; [|discriminate].
      destruct r' as [|c r']; [discriminate|]. destruct (N.eqb_spec c q) as [->|]; [|discriminate]. injection E as <- <-.
      exists (q :: 35 :: ds ++ [q]). split; [cbn; rewrite <- app_assoc; reflexivity | constructor; auto]. }
    unfold match_here in H. destruct (match_quoted 34 t) as [m|] eqn:E1; [injection H as ->; apply (Q 34); auto|].
    destruct (match_quoted 39 t) as [m|] eqn:E2; [injection H as ->; apply (Q 39); auto|]. clear Q E1 E2.
    unfold match_rgb in H. destruct (Text.starts_with (lit "rgb(") t) eqn:Es; [|discriminate]. apply starts_with_spec in Es. destruct Es as [r0 ->].
    replace (skipn 4 (lit "rgb(" ++ r0)) with r0 in H by reflexivity.
    destruct (drop_ws_sound r0) as (w1 & E0 & W1). destruct (number udigit (drop_while is_whitespace r0)) as [[d1 t1]|] eqn:E1; [|discriminate]. apply number_sound in E1. destruct E1 as [E1 D1].
    destruct (comma_number udigit t1) as [[d2 t2]|] eqn:E2; [|discriminate]. apply comma_sound in E2. destruct E2 as (w2 & -> & W2 & D2).
    destruct (comma_number udigit t2) as [[d3 t3]|] eqn:E3; [|discriminate]. apply comma_sound in E3. destruct E3 as (w3 & -> & W3 & D3).
    rewrite E1 in E0. clear E1.
    assert (Q : close_paren (Rgb d1 d2 d3 None) t3 = Some (tk, rest) -> exists l, lit "rgb(" ++ r0 = l ++ rest /\ literal udigit l tk).
    { intro E. apply close_sound in E. destruct E as [-> (w & -> & W)]. rewrite E0.
      exists (lit "rgb(" ++ w1 ++ d1 ++ 44 :: w2 ++ d2 ++ 44 :: w3 ++ d3 ++ w ++ [41]). split; [|constructor; assumption].
      repeat (rewrite <- app_assoc; cbn [app]). reflexivity. }
    destruct (comma_number udigit t3) as [[d4 t4]|] eqn:E4; [|apply Q; exact H].
    destruct (close_paren (Rgb d1 d2 d3 (Some d4)) t4) as [m|] eqn:E5; [|apply Q; exact H]. injection H as ->.
    apply comma_sound in E4. destruct E4 as (w4 & -> & W4 & D4). apply close_sound in E5. destruct E5 as [-> (w & -> & W)]. rewrite E0.
    exists (lit "rgb(" ++ w1 ++ d1 ++ 44 :: w2 ++ d2 ++ 44 :: w3 ++ d3 ++ 44 :: w4 ++ d4 ++ w ++ [41]). split; [|constructor; assumption].
    repeat (rewrite <- app_assoc; cbn [app]). reflexivity.
  Qed.
End RegexFacts.

Lemma blen_app : forall a b, blen (a ++ b) = blen a + blen b.
Proof. induction a as [|c a IH]; intro b; [reflexivity|]. cbn [app blen fold_right]. fold (blen (a ++ b)) (blen a). rewrite IH. lia. Qed.
Lemma literal_shape : forall u l tk, literal u l tk -> exists c m, l = c :: m /\ m <> [].
Proof. intros u l tk H. inversion H; subst; cbn; eexists; eexists; (split; [reflexivity|]); [destruct ds; discriminate | discriminate | discriminate]. Qed.

Section Scan.
  Context (udigit : chr -> bool) (ascii_agrees : forall c, c < 128 -> udigit c = is_digit c) (not_space : forall c, udigit c = true -> is_whitespace c = false).
  Definition scan (off : N) (t : text) : list (N * N * token) := captures udigit (S (List.length t)) off t.

  Lemma match_shorter : forall t tk rest, match_here udigit t = Some (tk, rest) -> (List.length rest < List.length t)%nat.
  Proof using Type. intros t tk rest H. apply match_sound in H. destruct H as (l & -> & H). apply literal_shape in H. destruct H as (c & m & -> & _). rewrite app_length. cbn. lia. Qed.
  Lemma captures_S : forall n off t, captures udigit (S n) off t =
    match match_here udigit t with
    | Some (tk, rest) => (off, off + (blen t - blen rest), tk) :: captures udigit n (off + (blen t - blen rest)) rest
    | None => match t with [] => [] | c :: t' => captures udigit n (off + len_utf8 c) t' end
    end.
  Proof using Type. reflexivity. Qed.
  Lemma captures_fuel : forall n m t off, (List.length t < n)%nat -> (List.length t < m)%nat -> captures udigit n off t = captures udigit m off t.
  Proof using Type.
    induction n as [|n IH]; intros m t off Hn Hm; [lia|]. destruct m as [|m]; [lia|]. cbn [captures].
    destruct (match_here udigit t) as [[tk rest]|] eqn:E.
    - apply match_shorter in E. f_equal. apply IH; lia.
    - destruct t as [|c t]; [reflexivity|]. cbn [List.length] in *. apply IH; lia.
  Qed.
  Lemma scan_none : forall off c t, match_here udigit (c :: t) = None -> scan off (c :: t) = scan (off + len_utf8 c) t.
  Proof using Type. intros off c t E. unfold scan. rewrite captures_S, E. apply captures_fuel; cbn [List.length]; lia. Qed.
  Lemma scan_nil : forall off, scan off [] = [].
  Proof using Type. reflexivity. Qed.
  Lemma scan_some : forall off l tk rest, literal udigit l tk -> scan off (l ++ rest) = (off, off + blen l, tk) :: scan (off + blen l) rest.
  Proof using ascii_agrees not_space.
    intros off l tk rest H. unfold scan at 1. rewrite captures_S.
    rewrite (match_literal udigit ascii_agrees not_space l tk rest H). replace (blen (l ++ rest) - blen rest) with (blen l) by (rewrite blen_app; lia).
    f_equal. apply captures_fuel; [|lia]. apply literal_shape in H. destruct H as (c & m & -> & _). rewrite app_length. cbn. lia.
  Qed.
  Lemma scan_cases : forall t off, (t = [] /\ scan off t = []) \/ (exists c t', t = c :: t' /\ match_here udigit t = None /\ scan off t = scan (off + len_utf8 c) t') \/
    (exists l tk rest, t = l ++ rest /\ literal udigit l tk /\ scan off t = (off, off + blen l, tk) :: scan (off + blen l) rest).
  Proof using ascii_agrees not_space.
    intros t off. destruct (match_here udigit t) as [[tk rest]|] eqn:E.
    - right. right. apply match_sound in E. destruct E as (l & -> & H). exists l, tk, rest. split; [reflexivity|]. split; [exact H | apply scan_some; exact H].
    - destruct t as [|c t]; [left; auto|]. right. left. exists c, t. split; [reflexivity|]. split; [reflexivity | apply scan_none; exact E].
  Qed.

  (** offsets are relative *)
  Definition move (d : N) (q : N * N * token) : N * N * token := let '(s, e, tk) := q in (d + s, d + e, tk).
  Lemma scan_move : forall n t off d, (List.length t < n)%nat -> scan (d + off) t = map (move d) (scan off t).
  Proof using ascii_agrees not_space.
    induction n as [|n IH]; intros t off d Hn; [lia|]. destruct (scan_cases t (d + off)) as [[-> _]|[(c & t' & -> & E & ->)|(l & tk & rest & -> & H & ->)]].
    - reflexivity.
    - rewrite (scan_none off c t' E). rewrite <- N.add_assoc. apply IH. cbn in Hn. lia.
    - rewrite (scan_some off l tk rest H). cbn [map move]. rewrite N.add_assoc. f_equal. rewrite <- N.add_assoc. apply IH.
      apply literal_shape in H. destruct H as (c & m & -> & _). rewrite app_length in Hn. cbn in Hn. lia.
  Qed.

  (** completeness and soundness of scanning *)
  Lemma scan_complete : forall n t off pre l post tk, (List.length t < n)%nat -> t = pre ++ l ++ post -> literal udigit l tk ->
    exists s e tk', In (s, e, tk') (scan off t) /\ s <= off + blen pre < e /\ (s = off + blen pre -> tk' = tk /\ e = s + blen l).
  Proof using ascii_agrees not_space.
    induction n as [|n IH]; intros t off pre l post tk Hn Et Hl; [lia|].
    assert (Hpos : 0 < blen l).
    { apply literal_shape in Hl. destruct Hl as (c & m & -> & _). cbn [blen fold_right]. unfold len_utf8. destruct (c <? 128); [|destruct (c <? 2048); [|destruct (c <? 65536)]]; lia. }
    destruct pre as [|x pre].
    - cbn [app] in Et. subst t. rewrite (scan_some off l tk post Hl). exists off, (off + blen l), tk. cbn [blen fold_right]. split; [left; reflexivity|]. split; [lia | auto].
    - destruct (scan_cases t off) as [[-> _]|[(c & t' & E1 & _ & E2)|(l0 & tk0 & rest & E1 & H0 & E2)]]; [discriminate| |].
      + rewrite Et in E1. cbn [app] in E1. injection E1 as <- E1. destruct (IH t' (off + len_utf8 x) pre l post tk) as (s & e & tk' & Hin & Hb & Heq).
        * rewrite Et in Hn. cbn [app List.length] in Hn. rewrite <- E1. lia.
        * symmetry. exact E1.
        * exact Hl.
        * exists s, e, tk'. rewrite E2. split; [exact Hin|]. cbn [blen fold_right]. fold (blen pre). rewrite !N.add_assoc. auto.
      + (* a literal here: either ours starts inside it or after it *)
        rewrite Et in E1. destruct (app_cut _ _ _ _ _ E1) as [(p & Ep & Er)|(y & Ey & Hy & _)].
        2: { exists off, (off + blen l0), tk0. rewrite E2. split; [left; reflexivity|].
          destruct y as [|y0 y]; [congruence|]. rewrite Ey, blen_app. cbn [blen fold_right]. fold (blen pre) (blen y).
          assert (Hlen : forall c, 0 < len_utf8 c) by (intro c; unfold len_utf8; destruct (c <? 128); [|destruct (c <? 2048); [|destruct (c <? 65536)]]; lia).
          pose proof (Hlen x). pose proof (Hlen y0). split; [lia|]. intro; exfalso; lia. }
        { destruct (IH rest (off + blen l0) p l post tk) as (s & e & tk' & Hin & Hb & Heq).
          -- pose proof (literal_shape _ _ _ H0) as (c & m & Ec & _). rewrite Et, E1, Ec, app_length in Hn. cbn [List.length] in Hn. lia.
          -- exact Er.
          -- exact Hl.
          -- exists s, e, tk'. rewrite E2. split; [right; exact Hin|]. rewrite Ep, blen_app, N.add_assoc. auto. }
  Qed.

  (** the characters strictly inside a literal *)
  Lemma literal_inside : forall l tk a m z, literal udigit l tk -> l = a :: m ++ [z] -> ~ In 34 m /\ ~ In 39 m /\ ~ In 114 m.
  Proof using ascii_agrees.
    intros l tk a m z H E.
    assert (G : exists ok : chr -> bool, ok 34 = false /\ ok 39 = false /\ ok 114 = false /\ Forall (fun c => ok c = true) m).
    { pose (ok := fun c : chr => is_hex c || (c =? 35) || udigit c || is_whitespace c || (c =? 44) || (c =? 103) || (c =? 98) || (c =? 40)).
      exists ok. assert (K : ok 34 = false /\ ok 39 = false /\ ok 114 = false) by (unfold ok; rewrite !ascii_agrees by lia; repeat split). destruct K as (K1 & K2 & K3). split; [exact K1|]. split; [exact K2|]. split; [exact K3|].
      assert (Fh : forall d, Forall (fun c => is_hex c = true) d -> Forall (fun c => ok c = true) d) by (intros d F; eapply Forall_impl; [|exact F]; cbn beta; unfold ok; intros c ->; reflexivity).
      assert (Fs : forall w, spaces w -> Forall (fun c => ok c = true) w) by (intros d F; eapply Forall_impl; [|exact F]; cbn beta; unfold ok; intros c ->; rewrite !orb_true_r; reflexivity).
      assert (Fd : forall d, digits udigit d -> Forall (fun c => ok c = true) d) by (intros d [F _]; eapply Forall_impl; [|exact F]; cbn beta; unfold ok; intros c ->; rewrite !orb_true_r; reflexivity).
      assert (Fc : forall r, Forall (fun c => ok c = true) r -> Forall (fun c => ok c = true) (44 :: r)) by (intros r F; constructor; [unfold ok; rewrite !orb_true_r; reflexivity | exact F]).
      assert (Fg : forall r, Forall (fun c => ok c = true) r -> Forall (fun c => ok c = true) (103 :: 98 :: 40 :: r)) by (intros r F; repeat (constructor; [unfold ok; rewrite ?orb_true_r; reflexivity|]); exact F).
      inversion H as [q ds Hq Hh Hl E1|w1 d1 w2 d2 w3 d3 w W1 W2 W3 W D1 D2 D3 E1|w1 d1 w2 d2 w3 d3 w4 d4 w W1 W2 W3 W4 W D1 D2 D3 D4 E1]; clear H; rewrite <- E1 in E; clear E1.
      - assert (Em : m ++ [z] = (35 :: ds) ++ [q]) by (injection E as _ E; symmetry; exact E). apply app_inj_tail in Em. destruct Em as [-> _].
        constructor; [reflexivity | apply Fh; exact Hh].
      - assert (Em : m ++ [z] = (103 :: 98 :: 40 :: w1 ++ d1 ++ 44 :: w2 ++ d2 ++ 44 :: w3 ++ d3 ++ w) ++ [41]).
        { injection E as _ E. rewrite <- E. cbn [app]. do 3 f_equal. repeat (rewrite <- app_assoc; cbn [app]). reflexivity. }
        apply app_inj_tail in Em. destruct Em as [-> _]. apply Fg. rewrite !Forall_app. repeat split; auto. apply Fc. rewrite !Forall_app. repeat split; auto. apply Fc. rewrite !Forall_app. auto.
      - assert (Em : m ++ [z] = (103 :: 98 :: 40 :: w1 ++ d1 ++ 44 :: w2 ++ d2 ++ 44 :: w3 ++ d3 ++ 44 :: w4 ++ d4 ++ w) ++ [41]).
        { injection E as _ E. rewrite <- E. cbn [app]. do 3 f_equal. repeat (rewrite <- app_assoc; cbn [app]). reflexivity. }
        apply app_inj_tail in Em. destruct Em as [-> _]. apply Fg. rewrite !Forall_app. repeat split; auto. apply Fc. rewrite !Forall_app. repeat split; auto. apply Fc. rewrite !Forall_app. repeat split; auto. apply Fc. rewrite !Forall_app. auto. }
    destruct G as (ok & A & B & C & F). rewrite Forall_forall in F. repeat split; intro Hin; apply F in Hin; congruence.
  Qed.
  Lemma literal_first : forall l tk, literal udigit l tk -> exists c m, l = c :: m /\ (c = 34 \/ c = 39 \/ c = 114).
  Proof using Type. intros l tk H. inversion H as [q ds Hq| |]; subst; [exists q; eexists; split; [reflexivity | tauto] | |]; exists 114; eexists; (split; [reflexivity | tauto]). Qed.

  (** whether a literal starts before another one does not depend on what follows the first character of the latter *)
  Lemma match_before : forall p c r r', p <> [] -> c = 34 \/ c = 39 \/ c = 114 -> match_here udigit (p ++ c :: r) = None -> match_here udigit (p ++ c :: r') = None.
  Proof using ascii_agrees not_space.
    intros p c r r' Hp Hc E. destruct (match_here udigit (p ++ c :: r')) as [[tk rest]|] eqn:E'; [|reflexivity]. exfalso.
    apply match_sound in E'. destruct E' as (l & El & Hl).
    destruct (app_cut _ _ _ _ _ El) as [(y & -> & _)|(y & -> & Hy & Ey)].
    - rewrite <- app_assoc in E. rewrite (match_literal udigit ascii_agrees not_space l tk _ Hl) in E. discriminate.
    - destruct y as [|y0 y]; [congruence|]. cbn [app] in Ey. injection Ey as <- _. destruct y as [|y1 y].
      + change (p ++ c :: r) with (p ++ [c] ++ r) in E. rewrite app_assoc in E. rewrite (match_literal udigit ascii_agrees not_space _ tk _ Hl) in E. discriminate.
      + (* c is strictly inside *)
        destruct p as [|a p]; [congruence|]. destruct (exists_last (l := y1 :: y) ltac:(discriminate)) as (y' & z & Ey). rewrite Ey in Hl.
        destruct (literal_inside _ tk a (p ++ c :: y') z Hl) as (A & B & C); [cbn [app]; rewrite <- app_assoc; reflexivity|].
        destruct Hc as [->|[->| ->]]; [apply A | apply B | apply C]; apply in_app_iff; right; left; reflexivity.
  Qed.

  (** one match, and what replacing it by another literal of the same first character does *)
  Lemma scan_split : forall n t off s e tk, (List.length t < n)%nat -> In (s, e, tk) (scan off t) ->
    exists pre l post before, t = pre ++ l ++ post /\ literal udigit l tk /\ s = off + blen pre /\ e = s + blen l /\
      forall l' tk', literal udigit l' tk' -> hd 0 l' = hd 0 l -> scan off (pre ++ l' ++ post) = before ++ (s, s + blen l', tk') :: scan (s + blen l') post.
  Proof using ascii_agrees not_space.
    induction n as [|n IH]; intros t off s e tk Hn Hin; [lia|].
    destruct (scan_cases t off) as [[_ E]|[(c & t' & Et & E & E2)|(l0 & tk0 & rest & Et & H0 & E2)]].
    - rewrite E in Hin. destruct Hin.
    - subst t. rewrite E2 in Hin. destruct (IH t' (off + len_utf8 c) s e tk ltac:(cbn in Hn; lia) Hin) as (pre & l & post & before & -> & Hl & -> & -> & G).
      exists (c :: pre), l, post, before. cbn [blen fold_right]. fold (blen pre). rewrite N.add_assoc. split; [reflexivity|]. split; [exact Hl|]. split; [reflexivity|]. split; [reflexivity|].
      intros l' tk' Hl' Hh. rewrite <- (G l' tk' Hl' Hh). cbn [app]. apply scan_none.
      destruct (literal_first _ _ Hl) as (x & m & -> & Hx). destruct (literal_first _ _ Hl') as (x' & m' & -> & _). cbn [hd] in Hh. subst x'.
      change (c :: pre ++ (x :: m') ++ post) with ((c :: pre) ++ x :: (m' ++ post)). change (c :: pre ++ (x :: m) ++ post) with ((c :: pre) ++ x :: (m ++ post)) in E.
      eapply match_before; [discriminate | exact Hx | exact E].
    - subst t. rewrite E2 in Hin. destruct Hin as [Hin|Hin].
      + injection Hin as <- <- <-. exists [], l0, rest, []. cbn [app blen fold_right]. rewrite N.add_0_r. split; [reflexivity|]. split; [exact H0|]. split; [reflexivity|]. split; [reflexivity|].
        intros l' tk' Hl' _. apply scan_some. exact Hl'.
      + destruct (IH rest (off + blen l0) s e tk) as (pre & l & post & before & -> & Hl & -> & -> & G).
        * apply literal_shape in H0. destruct H0 as (c & m & -> & _). rewrite app_length in Hn. cbn in Hn. lia.
        * exact Hin.
        * exists (l0 ++ pre), l, post, ((off, off + blen l0, tk0) :: before). rewrite blen_app, N.add_assoc, <- app_assoc. split; [reflexivity|]. split; [exact Hl|]. split; [reflexivity|]. split; [reflexivity|].
          intros l' tk' Hl' Hh. rewrite <- app_assoc, (scan_some off l0 tk0 _ H0). cbn [app]. f_equal. apply G; assumption.
  Qed.
End Scan.

(** ** What literals denote *)
Lemma hex_value_lt : forall c, is_hex c = true -> hex_value c < 16.
Proof.
  intros c H. unfold is_hex, is_digit in H. unfold hex_value, is_digit. rewrite !orb_true_iff, !andb_true_iff, !N.leb_le in H.
  destruct (N.leb_spec 48 c), (N.leb_spec c 57); cbn [andb]; try lia; destruct (N.leb_spec c 70); lia.
Qed.
Lemma hex_char_value : forall v, v < 16 -> hex_value (hex_char v) = v /\ is_hex (hex_char v) = true.
Proof.
  intros v H. assert (G : forallb (fun v => (hex_value (hex_char v) =? v) && is_hex (hex_char v)) (map N.of_nat (seq 0 16)) = true) by reflexivity.
  rewrite forallb_forall in G. specialize (G v). rewrite andb_true_iff, N.eqb_eq in G. apply G. apply in_map_iff. exists (N.to_nat v). rewrite N2Nat.id. split; [reflexivity|]. apply in_seq. lia.
Qed.
Lemma div_small : forall a b n, b < n -> (n * a + b) / n = a /\ (n * a + b) mod n = b.
Proof. intros a b n H. split; [symmetry; apply (N.div_unique _ _ a b) | symmetry; apply (N.mod_unique _ _ a b)]; lia. Qed.
Lemma shr4 : forall n, n / 2 ^ 8 = n / 2 ^ 4 / 2 ^ 4 /\ n / 2 ^ 12 = n / 2 ^ 4 / 2 ^ 4 / 2 ^ 4 /\ n / 2 ^ 16 = n / 2 ^ 8 / 2 ^ 8 /\ n / 2 ^ 24 = n / 2 ^ 8 / 2 ^ 8 / 2 ^ 8.
Proof. intro n. rewrite !N.div_div by discriminate. repeat split; reflexivity. Qed.
Lemma as_u8_small : forall n, n < 256 -> as_u8 n = n.
Proof. intros. apply N.mod_small. assumption. Qed.
Lemma as_u8_mul : forall a b, b < 256 -> as_u8 (256 * a + b) = b.
Proof. intros a b H. unfold as_u8. apply (div_small a b 256 H). Qed.

Lemma parse_hex_3 : forall x y z, is_hex x = true -> is_hex y = true -> is_hex z = true -> parse_hex [x; y; z] = Some (17 * hex_value x, 17 * hex_value y, 17 * hex_value z, 255).
Proof.
  intros x y z Hx Hy Hz. apply hex_value_lt in Hx, Hy, Hz. unfold parse_hex. cbn [List.length Nat.eqb]. unfold hex_sum. cbn [fold_left]. rewrite N.mul_0_r, N.add_0_l.
  destruct (shr4 (16 * (16 * hex_value x + hex_value y) + hex_value z)) as (-> & _). change (2 ^ 4) with 16.
  destruct (div_small (16 * hex_value x + hex_value y) (hex_value z) 16 Hz) as [-> ->]. destruct (div_small (hex_value x) (hex_value y) 16 Hy) as [-> ->].
  rewrite (N.mod_small (hex_value x)) by exact Hx. rewrite !as_u8_small by lia. reflexivity.
Qed.
Lemma parse_hex_4 : forall x y z w, is_hex x = true -> is_hex y = true -> is_hex z = true -> is_hex w = true -> parse_hex [x; y; z; w] = Some (17 * hex_value x, 17 * hex_value y, 17 * hex_value z, 17 * hex_value w).
Proof.
  intros x y z w Hx Hy Hz Hw. apply hex_value_lt in Hx, Hy, Hz, Hw. unfold parse_hex. cbn [List.length Nat.eqb]. unfold hex_sum. cbn [fold_left]. rewrite N.mul_0_r, N.add_0_l.
  destruct (shr4 (16 * (16 * (16 * hex_value x + hex_value y) + hex_value z) + hex_value w)) as (-> & -> & _). change (2 ^ 4) with 16.
  destruct (div_small (16 * (16 * hex_value x + hex_value y) + hex_value z) (hex_value w) 16 Hw) as [-> ->].
  destruct (div_small (16 * hex_value x + hex_value y) (hex_value z) 16 Hz) as [-> ->]. destruct (div_small (hex_value x) (hex_value y) 16 Hy) as [-> ->].
  rewrite (N.mod_small (hex_value x)) by exact Hx. rewrite !as_u8_small by lia. reflexivity.
Qed.
Lemma parse_hex_6 : forall x1 x2 y1 y2 z1 z2, is_hex x1 = true -> is_hex x2 = true -> is_hex y1 = true -> is_hex y2 = true -> is_hex z1 = true -> is_hex z2 = true ->
  parse_hex [x1; x2; y1; y2; z1; z2] = Some (16 * hex_value x1 + hex_value x2, 16 * hex_value y1 + hex_value y2, 16 * hex_value z1 + hex_value z2, 255).
Proof.
  intros x1 x2 y1 y2 z1 z2 A B C D E F. apply hex_value_lt in A, B, C, D, E, F. unfold parse_hex. cbn [List.length Nat.eqb]. unfold hex_sum. cbn [fold_left]. rewrite N.mul_0_r, N.add_0_l.
  set (X := 16 * hex_value x1 + hex_value x2). set (Y := 16 * hex_value y1 + hex_value y2). set (Z := 16 * hex_value z1 + hex_value z2).
  replace (16 * (16 * (16 * (16 * X + hex_value y1) + hex_value y2) + hex_value z1) + hex_value z2) with (256 * (256 * X + Y) + Z) by (unfold X, Y, Z; lia).
  assert (X < 256) by (unfold X; lia). assert (Y < 256) by (unfold Y; lia). assert (HZ : Z < 256) by (unfold Z; lia). clearbody X Y Z.
  destruct (shr4 (256 * (256 * X + Y) + Z)) as (_ & _ & -> & _). change (2 ^ 8) with 256.
  rewrite as_u8_mul by exact HZ. destruct (div_small (256 * X + Y) Z 256 HZ) as [-> _]. rewrite as_u8_mul by assumption. destruct (div_small X Y 256) as [-> _]; [assumption|].
  rewrite as_u8_small by assumption. reflexivity.
Qed.
Lemma parse_hex_8 : forall x1 x2 y1 y2 z1 z2 w1 w2, is_hex x1 = true -> is_hex x2 = true -> is_hex y1 = true -> is_hex y2 = true -> is_hex z1 = true -> is_hex z2 = true -> is_hex w1 = true -> is_hex w2 = true ->
  parse_hex [x1; x2; y1; y2; z1; z2; w1; w2] = Some (16 * hex_value x1 + hex_value x2, 16 * hex_value y1 + hex_value y2, 16 * hex_value z1 + hex_value z2, 16 * hex_value w1 + hex_value w2).
Proof.
  intros x1 x2 y1 y2 z1 z2 w1 w2 A B C D E F G H. apply hex_value_lt in A, B, C, D, E, F, G, H. unfold parse_hex. cbn [List.length Nat.eqb]. unfold hex_sum. cbn [fold_left]. rewrite N.mul_0_r, N.add_0_l.
  set (X := 16 * hex_value x1 + hex_value x2). set (Y := 16 * hex_value y1 + hex_value y2). set (Z := 16 * hex_value z1 + hex_value z2). set (W := 16 * hex_value w1 + hex_value w2).
  replace (16 * (16 * (16 * (16 * (16 * (16 * X + hex_value y1) + hex_value y2) + hex_value z1) + hex_value z2) + hex_value w1) + hex_value w2) with (256 * (256 * (256 * X + Y) + Z) + W) by (unfold X, Y, Z, W; lia).
  assert (X < 256) by (unfold X; lia). assert (Y < 256) by (unfold Y; lia). assert (HZ : Z < 256) by (unfold Z; lia). assert (HW : W < 256) by (unfold W; lia). clearbody X Y Z W.
  destruct (shr4 (256 * (256 * (256 * X + Y) + Z) + W)) as (_ & _ & -> & ->). change (2 ^ 8) with 256.
  rewrite as_u8_mul by exact HW. destruct (div_small (256 * (256 * X + Y) + Z) W 256 HW) as [-> _]. rewrite as_u8_mul by exact HZ. destruct (div_small (256 * X + Y) Z 256 HZ) as [-> _]. rewrite as_u8_mul by assumption. destruct (div_small X Y 256) as [-> _]; [assumption|].
  rewrite as_u8_small by assumption. reflexivity.
Qed.

Lemma digits_value_spec : forall d acc n, digits_value acc d = Some n <-> Forall (fun c => is_digit c = true) d /\ n = fold_left (fun v c => 10 * v + (c - 48)) d acc.
Proof.
  induction d as [|c d IH]; intros acc n; cbn [digits_value fold_left].
  - split; [intro H; injection H as <-; auto | intros [_ ->]; reflexivity].
  - destruct (is_digit c) eqn:E.
    + rewrite IH. split; intros [H ->]; (split; [|reflexivity]); [constructor; assumption | inversion H; assumption].
    + split; [discriminate|]. intros [H _]. inversion H; congruence.
Qed.

Section Denote.
  Context (udigit : chr -> bool) (ascii_agrees : forall c, c < 128 -> udigit c = is_digit c) (not_space : forall c, udigit c = true -> is_whitespace c = false).
  Lemma parse_byte : forall d n, digits udigit d -> parse_uint U8_MAX d = Some n <-> decimal d n /\ n < 256.
  Proof using ascii_agrees.
    intros d n [H1 H2]. unfold parse_uint, decimal. destruct d as [|c d]; [cbn in H2; lia|]. inversion H1 as [|? ? Hc _]; subst.
    destruct (N.eqb_spec c 43) as [->|_]; [rewrite ascii_agrees in Hc by lia; discriminate|].
    destruct (digits_value 0 (c :: d)) as [v|] eqn:E.
    - pose proof E as E1. apply digits_value_spec in E. destruct E as [E ->]. unfold U8_MAX. destruct (N.leb_spec (fold_left (fun v0 c0 => 10 * v0 + (c0 - 48)) (c :: d) 0) 255) as [L|L].
      + split; [intro H; assert (n = fold_left (fun v0 c0 => 10 * v0 + (c0 - 48)) (c :: d) 0) as -> by congruence; split; [auto | lia] | intros [[_ ->] _]; reflexivity].
      + split; [discriminate|]. intros [[_ ->] Hn]. lia.
    - split; [discriminate|]. intros [[H ->] _]. assert (digits_value 0 (c :: d) = Some (fold_left (fun v c0 => 10 * v + (c0 - 48)) (c :: d) 0)) by (apply digits_value_spec; auto). congruence.
  Qed.
  Lemma decimal_fun : forall d n m, decimal d n -> decimal d m -> n = m.
  Proof using Type. intros d n m [_ ->] [_ ->]. reflexivity. Qed.

  Lemma capture_denotes : forall l tk c, literal udigit l tk -> parse_capture tk = Some c <-> denotes tk c.
  Proof using ascii_agrees.
    intros l tk c H. inversion H as [q ds Hq Hh Hl|w1 d1 w2 d2 w3 d3 w W1 W2 W3 W D1 D2 D3|w1 d1 w2 d2 w3 d3 w4 d4 w W1 W2 W3 W4 W D1 D2 D3 D4]; subst l tk; clear H.
    - destruct ds as [|x1 [|x2 [|x3 [|x4 [|x5 [|x6 [|x7 [|x8 [|x9 ds]]]]]]]]]; cbn [List.length] in Hl; try lia;
        repeat (match goal with F : Forall _ (_ :: _) |- _ => inversion_clear F end); cbn [parse_capture].
      + rewrite parse_hex_3 by assumption. split; [intro E; injection E as <-; constructor | intro D; inversion D; reflexivity].
      + rewrite parse_hex_4 by assumption. split; [intro E; injection E as <-; constructor | intro D; inversion D; reflexivity].
      + split; [discriminate | intro D; inversion D].
      + rewrite parse_hex_6 by assumption. split; [intro E; injection E as <-; constructor | intro D; inversion D; reflexivity].
      + split; [discriminate | intro D; inversion D].
      + rewrite parse_hex_8 by assumption. split; [intro E; injection E as <-; constructor | intro D; inversion D; reflexivity].
    - cbn [parse_capture]. unfold parse_rgba. split.
      + destruct (parse_uint U8_MAX d1) as [r|] eqn:E1; [|discriminate]. destruct (parse_uint U8_MAX d2) as [g|] eqn:E2; [|discriminate]. destruct (parse_uint U8_MAX d3) as [b|] eqn:E3; [|discriminate].
        apply parse_byte in E1, E2, E3; [|assumption..]. intro E. injection E as <-. apply den_rgb; tauto.
      + intro D. inversion D as [| | | |a1 a2 a3 r g b P1 P2 P3 L1 L2 L3| |]; subst.
        rewrite (proj2 (parse_byte d1 r D1)), (proj2 (parse_byte d2 g D2)), (proj2 (parse_byte d3 b D3)) by auto. reflexivity.
    - cbn [parse_capture]. unfold parse_rgba. split.
      + destruct (parse_uint U8_MAX d1) as [r|] eqn:E1; [|discriminate]. destruct (parse_uint U8_MAX d2) as [g|] eqn:E2; [|discriminate]. destruct (parse_uint U8_MAX d3) as [b|] eqn:E3; [|discriminate].
        apply parse_byte in E1, E2, E3; [|assumption..]. intro E. injection E as <-. destruct (parse_uint U8_MAX d4) as [a|] eqn:E4.
        * apply parse_byte in E4; [|assumption]. apply den_rgba; tauto.
        * apply den_rgba_opaque; try tauto. intros a Ha. destruct (N.lt_ge_cases a 256) as [L|L]; [|exact L]. rewrite (proj2 (parse_byte d4 a D4)) in E4 by auto. discriminate.
      + intro D. inversion D as [| | | | |a1 a2 a3 a4 r g b a P1 P2 P3 P4 L1 L2 L3 L4|a1 a2 a3 a4 r g b P1 P2 P3 L1 L2 L3 P4]; subst;
          rewrite (proj2 (parse_byte d1 r D1)), (proj2 (parse_byte d2 g D2)), (proj2 (parse_byte d3 b D3)) by auto.
        * rewrite (proj2 (parse_byte d4 a D4)) by auto. reflexivity.
        * destruct (parse_uint U8_MAX d4) as [a|] eqn:E4; [|reflexivity]. apply parse_byte in E4; [|assumption]. destruct E4 as [E4 L]. apply P4 in E4. lia.
  Qed.

  (** printed bytes *)
  Lemma print_byte : forall n, n < 256 -> digits udigit (print_N n) /\ decimal (print_N n) n.
  Proof using ascii_agrees.
    intros n H. assert (G : forallb (fun n => (List.length (print_N n) <=? 3)%nat) (map N.of_nat (seq 0 256)) = true) by (vm_compute; reflexivity).
    rewrite forallb_forall in G. specialize (G n). rewrite Nat.leb_le in G.
    assert (L : (List.length (print_N n) <= 3)%nat) by (apply G; apply in_map_iff; exists (N.to_nat n); rewrite N2Nat.id; split; [reflexivity | apply in_seq; lia]).
    pose proof (print_N_digits n) as D. pose proof (print_N_nonempty n) as Hne. split; [split|].
    - eapply Forall_impl; [|exact D]. cbn beta. intros c Hc. rewrite ascii_agrees; [exact Hc|]. unfold is_digit in Hc. rewrite andb_true_iff, !N.leb_le in Hc. lia.
    - destruct (print_N n); [congruence | cbn [List.length] in *; lia].
    - split; [exact D|]. pose proof (print_N_value n) as V. apply digits_value_spec in V. apply V.
  Qed.

  Lemma mod17 : forall n, n < 256 -> n mod 17 = 0 -> 17 * (n / 17) = n /\ n / 17 < 16.
  Proof using Type. intros n H H0. pose proof (N.div_mod n 17 ltac:(discriminate)) as E. rewrite H0 in E. revert E. generalize (n / 17). intros k E. lia. Qed.
  Lemma div16 : forall n, n < 256 -> 16 * (n / 16) + n mod 16 = n /\ n / 16 < 16 /\ n mod 16 < 16.
  Proof using Type. intros n H. pose proof (N.div_mod n 16 ltac:(discriminate)) as E. pose proof (N.mod_lt n 16 ltac:(discriminate)) as L. revert E L. generalize (n / 16) (n mod 16). intros k m E L. lia. Qed.

  (** what [format] writes is a literal of that colour, beginning as its style says *)
  Lemma format_literal : forall f c, byte_color c -> exists tk, literal udigit (format f c) tk /\ denotes tk c /\
    hd 0 (format f c) = match f with FHex true _ _ => 39 | FHex false _ _ => 34 | FRgb _ => 114 end.
  Proof using ascii_agrees.
    intros f [[[r g] b] a] (Hr & Hg & Hb & Ha). destruct f as [sq short alpha|alpha]; cbn [format].
    - set (q := if sq then 39 else 34). assert (Hq : q = 34 \/ q = 39) by (unfold q; destruct sq; auto).
      assert (Hhd : forall x, hd 0 ([q; 35] ++ x) = match sq with true => 39 | false => 34 end) by (intro x; unfold q; destruct sq; reflexivity).
      assert (HH : hd 0 (format (FHex sq short alpha) (r, g, b, a)) = match FHex sq short alpha with FHex true _ _ => 39 | FHex false _ _ => 34 | FRgb _ => 114 end) by (cbn [format]; rewrite Hhd; destruct sq; reflexivity).
      cbn [format] in HH. fold q in HH. clear Hhd.
      destruct (short && (r mod 17 =? 0) && (g mod 17 =? 0) && (b mod 17 =? 0) && (a mod 17 =? 0)) eqn:Es.
      + rewrite !andb_true_iff, !N.eqb_eq in Es. destruct Es as ((((_ & M1) & M2) & M3) & M4).
        destruct (mod17 r Hr M1) as [R1 R2], (mod17 g Hg M2) as [G1 G2], (mod17 b Hb M3) as [B1 B2], (mod17 a Ha M4) as [A1 A2].
        destruct (hex_char_value _ R2) as [VR XR], (hex_char_value _ G2) as [VG XG], (hex_char_value _ B2) as [VB XB], (hex_char_value _ A2) as [VA XA].
        destruct (alpha || negb (a =? 255)) eqn:Ea.
        * exists (Hex [hex_char (r / 17); hex_char (g / 17); hex_char (b / 17); hex_char (a / 17)]). split; [|split; [|exact HH]].
          -- apply (lit_hex udigit q [hex_char (r / 17); hex_char (g / 17); hex_char (b / 17); hex_char (a / 17)]); [exact Hq | repeat constructor; assumption | cbn; lia].
          -- pose proof (den_4 (hex_char (r / 17)) (hex_char (g / 17)) (hex_char (b / 17)) (hex_char (a / 17))) as D. rewrite VR, VG, VB, VA, R1, G1, B1, A1 in D. exact D.
        * apply orb_false_iff in Ea. destruct Ea as [_ Ea]. apply negb_false_iff, N.eqb_eq in Ea. subst a.
          exists (Hex [hex_char (r / 17); hex_char (g / 17); hex_char (b / 17)]). split; [|split; [|exact HH]].
          -- apply (lit_hex udigit q [hex_char (r / 17); hex_char (g / 17); hex_char (b / 17)]); [exact Hq | repeat constructor; assumption | cbn; lia].
          -- pose proof (den_3 (hex_char (r / 17)) (hex_char (g / 17)) (hex_char (b / 17))) as D. rewrite VR, VG, VB, R1, G1, B1 in D. exact D.
      + clear Es. destruct (div16 r Hr) as (R1 & R2 & R3), (div16 g Hg) as (G1 & G2 & G3), (div16 b Hb) as (B1 & B2 & B3), (div16 a Ha) as (A1 & A2 & A3).
        destruct (hex_char_value _ R2) as [VR XR], (hex_char_value _ G2) as [VG XG], (hex_char_value _ B2) as [VB XB], (hex_char_value _ A2) as [VA XA].
        destruct (hex_char_value _ R3) as [VR' XR'], (hex_char_value _ G3) as [VG' XG'], (hex_char_value _ B3) as [VB' XB'], (hex_char_value _ A3) as [VA' XA'].
        unfold hex2 in *.
        destruct (alpha || negb (a =? 255)) eqn:Ea.
        * exists (Hex [hex_char (r / 16); hex_char (r mod 16); hex_char (g / 16); hex_char (g mod 16); hex_char (b / 16); hex_char (b mod 16); hex_char (a / 16); hex_char (a mod 16)]). split; [|split; [|exact HH]].
          -- apply (lit_hex udigit q [hex_char (r / 16); hex_char (r mod 16); hex_char (g / 16); hex_char (g mod 16); hex_char (b / 16); hex_char (b mod 16); hex_char (a / 16); hex_char (a mod 16)]); [exact Hq | repeat constructor; assumption | cbn; lia].
          -- pose proof (den_8 (hex_char (r / 16)) (hex_char (r mod 16)) (hex_char (g / 16)) (hex_char (g mod 16)) (hex_char (b / 16)) (hex_char (b mod 16)) (hex_char (a / 16)) (hex_char (a mod 16))) as D.
             rewrite VR, VG, VB, VA, VR', VG', VB', VA', R1, G1, B1, A1 in D. exact D.
        * apply orb_false_iff in Ea. destruct Ea as [_ Ea]. apply negb_false_iff, N.eqb_eq in Ea. subst a.
          exists (Hex [hex_char (r / 16); hex_char (r mod 16); hex_char (g / 16); hex_char (g mod 16); hex_char (b / 16); hex_char (b mod 16)]). split; [|split; [|exact HH]].
          -- apply (lit_hex udigit q [hex_char (r / 16); hex_char (r mod 16); hex_char (g / 16); hex_char (g mod 16); hex_char (b / 16); hex_char (b mod 16)]); [exact Hq | repeat constructor; assumption | cbn; lia].
          -- pose proof (den_6 (hex_char (r / 16)) (hex_char (r mod 16)) (hex_char (g / 16)) (hex_char (g mod 16)) (hex_char (b / 16)) (hex_char (b mod 16))) as D.
             rewrite VR, VG, VB, VR', VG', VB', R1, G1, B1 in D. exact D.
    - destruct (print_byte r Hr) as [Dr Er], (print_byte g Hg) as [Dg Eg], (print_byte b Hb) as [Db Eb], (print_byte a Ha) as [Da Ea].
      assert (S0 : spaces []) by constructor. assert (S1 : spaces [32]) by (repeat constructor).
      destruct (alpha || negb (a =? 255)) eqn:E.
      + exists (Rgb (print_N r) (print_N g) (print_N b) (Some (print_N a))). split; [|split; [constructor; assumption | reflexivity]].
        pose proof (lit_rgba udigit [] (print_N r) [32] (print_N g) [32] (print_N b) [32] (print_N a) [] S0 S1 S1 S1 S0 Dr Dg Db Da) as L. exact L.
      + apply orb_false_iff in E. destruct E as [_ E]. apply negb_false_iff, N.eqb_eq in E. subst a.
        exists (Rgb (print_N r) (print_N g) (print_N b) None). split; [|split; [constructor; assumption | reflexivity]].
        pose proof (lit_rgb udigit [] (print_N r) [32] (print_N g) [32] (print_N b) [] S0 S1 S1 S0 Dr Dg Db) as L. exact L.
  Qed.
End Denote.

(** ** Detected styles *)
Section Detect.
  Context (udigit : chr -> bool) (ascii_agrees : forall c, c < 128 -> udigit c = is_digit c).
  Lemma hex_blen : forall ds, Forall (fun c => is_hex c = true) ds -> blen ds = N.of_nat (List.length ds).
  Proof using Type.
    induction ds as [|c ds IH]; intro H; [reflexivity|]. inversion H as [|? ? Hc Hd]; subst. cbn [blen fold_right List.length]. fold (blen ds). rewrite (IH Hd).
    assert (len_utf8 c = 1) as ->; [|lia]. unfold is_hex, is_digit in Hc. unfold len_utf8. rewrite !orb_true_iff, !andb_true_iff, !N.leb_le in Hc. destruct (N.ltb_spec c 128); [reflexivity | lia].
  Qed.
  Lemma no_comma : forall (P : chr -> Prop) d, Forall P d -> ~ P 44 -> filter (N.eqb 44) d = [].
  Proof using Type.
    intros P d H Hn. induction H as [|c d Hc _ IH]; [reflexivity|]. cbn [filter]. destruct (N.eqb_spec 44 c) as [<-|]; [contradiction | exact IH].
  Qed.
  Lemma ends_with_snoc : forall c t, ends_with_char c (t ++ [c]) = true.
  Proof using Type. intros. unfold ends_with_char. rewrite rev_app_distr. cbn. apply N.eqb_refl. Qed.
  Lemma detect : forall l tk, literal udigit l tk -> format_parse l = Some (match tk with
    | Hex ds => FHex (hd 0 l =? 39) (List.length ds <=? 4)%nat ((List.length ds =? 4) || (List.length ds =? 8))%nat
    | Rgb _ _ _ a => FRgb (match a with Some _ => true | None => false end) end).
  Proof using ascii_agrees.
    intros l tk H. assert (U : udigit 44 <> true) by (rewrite ascii_agrees by lia; discriminate). assert (W44 : is_whitespace 44 <> true) by discriminate.
    inversion H as [q ds Hq Hh Hl|w1 d1 w2 d2 w3 d3 w W1 W2 W3 W D1 D2 D3|w1 d1 w2 d2 w3 d3 w4 d4 w W1 W2 W3 W4 W D1 D2 D3 D4]; subst l tk; clear H.
    - assert (B : blen (q :: 35 :: ds ++ [q]) = N.of_nat (3 + List.length ds)).
      { cbn [blen fold_right]. fold (blen (ds ++ [q])). rewrite blen_app, hex_blen by exact Hh. cbn [blen fold_right]. assert (len_utf8 q = 1) as -> by (destruct Hq as [->| ->]; reflexivity). change (len_utf8 35) with 1. lia. }
      unfold format_parse. rewrite B.
      assert (E7 : (N.of_nat (3 + List.length ds) <=? 7) = (List.length ds <=? 4)%nat) by (destruct (N.leb_spec (N.of_nat (3 + List.length ds)) 7), (Nat.leb_spec (List.length ds) 4); try reflexivity; lia).
      assert (E4 : (N.of_nat (3 + List.length ds) =? 7) = (List.length ds =? 4)%nat) by (destruct (N.eqb_spec (N.of_nat (3 + List.length ds)) 7), (Nat.eqb_spec (List.length ds) 4); try reflexivity; lia).
      assert (E8 : (N.of_nat (3 + List.length ds) =? 11) = (List.length ds =? 8)%nat) by (destruct (N.eqb_spec (N.of_nat (3 + List.length ds)) 11), (Nat.eqb_spec (List.length ds) 8); try reflexivity; lia).
      rewrite E7, E4, E8. change (q :: 35 :: ds ++ [q]) with ((q :: 35 :: ds) ++ [q]). destruct Hq as [->| ->]; rewrite !ends_with_snoc; reflexivity.
    - unfold format_parse. replace (Text.starts_with (lit "rgb") _) with true by reflexivity. do 2 f_equal.
      rewrite !filter_app. cbn [filter N.eqb Pos.eqb]. rewrite !filter_app. cbn [filter N.eqb Pos.eqb]. rewrite !filter_app. destruct D1 as [D1 _], D2 as [D2 _], D3 as [D3 _].
      rewrite (no_comma _ _ W1 W44), (no_comma _ _ W2 W44), (no_comma _ _ W3 W44), (no_comma _ _ W W44), (no_comma _ _ D1 U), (no_comma _ _ D2 U), (no_comma _ _ D3 U). reflexivity.
    - unfold format_parse. replace (Text.starts_with (lit "rgb") _) with true by reflexivity. do 2 f_equal.
      rewrite !filter_app. cbn [filter N.eqb Pos.eqb]. rewrite !filter_app. cbn [filter N.eqb Pos.eqb]. rewrite !filter_app. cbn [filter N.eqb Pos.eqb]. rewrite !filter_app. destruct D1 as [D1 _], D2 as [D2 _], D3 as [D3 _], D4 as [D4 _].
      rewrite (no_comma _ _ W1 W44), (no_comma _ _ W2 W44), (no_comma _ _ W3 W44), (no_comma _ _ W4 W44), (no_comma _ _ W W44), (no_comma _ _ D1 U), (no_comma _ _ D2 U), (no_comma _ _ D3 U), (no_comma _ _ D4 U). reflexivity.
  Qed.
  (** the style keeps the first character *)
  Lemma detect_first : forall l tk f c, literal udigit l tk -> format_parse l = Some f -> byte_color c -> hd 0 (format f c) = hd 0 l.
  Proof using ascii_agrees.
    intros l tk f c H E Hc. rewrite (detect l tk H) in E. injection E as <-. destruct (format_literal udigit ascii_agrees (match tk with
      | Hex ds => FHex (hd 0 l =? 39) (List.length ds <=? 4)%nat ((List.length ds =? 4) || (List.length ds =? 8))%nat
      | Rgb _ _ _ a => FRgb (match a with Some _ => true | None => false end) end) c Hc) as (tk' & _ & _ & ->).
    inversion H as [q ds Hq| |]; subst; try reflexivity. destruct Hq as [->| ->]; reflexivity.
  Qed.
End Detect.

(** ** C31 *)
(** what is assumed of regex's Unicode table [\d]: the ASCII ones are 0-9, and no digit is white space *)
Definition unicode_digits (u : chr -> bool) : Prop := (forall c, c < 128 -> u c = is_digit c) /\ (forall c, u c = true -> is_whitespace c = false).

(** Extraction is exact: what is extracted are colour literals with the colours they denote, in order and disjoint;
    and every literal of the text is found unless it begins inside an earlier one. *)
Theorem C31_extract_exact :
  forall u t, unicode_digits u ->
  (forall s e c, In (s, e, c) (extract_colors u t) ->
     exists pre l post tk, t = pre ++ l ++ post /\ s = blen pre /\ e = s + blen l /\ literal u l tk /\ denotes tk c) /\
  (forall pre l post tk c, t = pre ++ l ++ post -> literal u l tk -> denotes tk c ->
     In (blen pre, blen (pre ++ l), c) (extract_colors u t) \/
     exists pre' l' post' tk', t = pre' ++ l' ++ post' /\ literal u l' tk' /\ blen pre' < blen pre < blen (pre' ++ l')).
Proof.
  intros u t [HA HS]. split.
  - intros s e c Hin. unfold extract_colors in Hin. apply in_flat_map in Hin. destruct Hin as ([[s0 e0] tk] & Hin & Hc).
    destruct (parse_capture tk) as [c0|] eqn:Ep; [|destruct Hc]. destruct Hc as [Hc|[]]. injection Hc as -> -> ->.
    destruct (scan_split u HA HS (S (List.length t)) t 0 s e tk ltac:(lia) Hin) as (pre & l & post & before & -> & Hl & -> & -> & _).
    exists pre, l, post, tk. rewrite N.add_0_l. repeat split; auto. apply (capture_denotes u HA l tk c Hl). exact Ep.
  - intros pre l post tk c Et Hl Hd. destruct (scan_complete u HA HS (S (List.length t)) t 0 pre l post tk ltac:(lia) Et Hl) as (s & e & tk' & Hin & Hb & Heq). rewrite N.add_0_l in *.
    destruct (N.eq_dec s (blen pre)) as [->|Hne].
    + left. destruct (Heq eq_refl) as [-> ->]. unfold extract_colors. apply in_flat_map. exists (blen pre, blen pre + blen l, tk). split; [exact Hin|].
      rewrite (proj2 (capture_denotes u HA l tk c Hl) Hd). left. rewrite blen_app. reflexivity.
    + right. destruct (scan_split u HA HS (S (List.length t)) t 0 s e tk' ltac:(lia) Hin) as (pre' & l' & post' & before & E' & Hl' & -> & -> & _). rewrite N.add_0_l in *.
      exists pre', l', post', tk'. rewrite blen_app. repeat split; auto; lia.
Qed.
Print Assumptions C31_extract_exact.

(** the extracted ranges are in order and do not overlap *)
Definition ordered (l : list (N * N * color)) : Prop :=
  forall a b c s e x s' e' x', l = a ++ (s, e, x) :: b ++ (s', e', x') :: c -> s < e /\ e <= s'.
Lemma scan_bounds : forall u, unicode_digits u -> forall n t off s e tk, (List.length t < n)%nat -> In (s, e, tk) (scan u off t) -> off <= s /\ s < e.
Proof.
  intros u [HA HS] n t off s e tk Hn Hin. destruct (scan_split u HA HS n t off s e tk Hn Hin) as (pre & l & post & before & -> & Hl & -> & -> & _).
  apply literal_shape in Hl. destruct Hl as (c & m & -> & _). cbn [blen fold_right]. assert (0 < len_utf8 c) by (unfold len_utf8; destruct (c <? 128); [|destruct (c <? 2048); [|destruct (c <? 65536)]]; lia). lia.
Qed.
Theorem C31_ordered : forall u t, unicode_digits u -> ordered (extract_colors u t).
Proof.
  intros u t Hu. unfold extract_colors, captures_iter. fold (scan u 0 t).
  assert (G : forall n t off, (List.length t < n)%nat -> ordered (flat_map (fun q : N * N * token => let '(s, e, tk) := q in match parse_capture tk with Some c => [(s, e, c)] | None => [] end) (scan u off t))).
  { induction n as [|n IH]; intros t0 off Hn; [lia|]. pose proof Hu as [HA HS]. destruct (scan_cases u HA HS t0 off) as [[_ E]|[(c & t' & -> & _ & E)|(l & tk & rest & -> & Hl & E)]]; rewrite E.
    - intros a b c s e x s' e' x' H. destruct a; discriminate.
    - apply IH. cbn in Hn. lia.
    - assert (Hrest : (List.length rest < n)%nat) by (apply literal_shape in Hl; destruct Hl as (c & m & -> & _); rewrite app_length in Hn; cbn in Hn; lia).
      cbn [flat_map]. destruct (parse_capture tk) as [c0|]; [|apply IH; exact Hrest]. cbn [app].
      intros a b c s e x s' e' x' H. destruct a as [|q a]; cbn [app] in H.
      + injection H as <- <- <- H. assert (Hin : In (s', e', x') (flat_map (fun q : N * N * token => let '(s, e, tk) := q in match parse_capture tk with Some c => [(s, e, c)] | None => [] end) (scan u (off + blen l) rest))) by (rewrite H; apply in_app_iff; right; left; reflexivity).
        apply in_flat_map in Hin. destruct Hin as ([[s0 e0] tk0] & Hin & Hc). destruct (parse_capture tk0); [|destruct Hc]. destruct Hc as [Hc|[]]. injection Hc as -> -> ->.
        destruct (scan_bounds u Hu n rest (off + blen l) s' e' tk0 Hrest Hin) as [B1 B2].
        assert (Hin0 : In (off, off + blen l, tk) (scan u off (l ++ rest))) by (rewrite E; left; reflexivity).
        destruct (scan_bounds u Hu (S n) (l ++ rest) off off (off + blen l) tk ltac:(lia) Hin0) as [_ B3]. lia.
      + injection H as <- H. eapply IH; [exact Hrest | exact H]. }
  apply (G (S (List.length t))). lia.
Qed.
Print Assumptions C31_ordered.

(** Formatting a colour in any style and extracting gives the colour back, also when text follows. *)
Definition moved (d : N) (q : N * N * color) : N * N * color := let '(s, e, c) := q in (d + s, d + e, c).
Lemma flat_move : forall d ms,
  flat_map (fun q : N * N * token => let '(s, e, tk) := q in match parse_capture tk with Some c => [(s, e, c)] | None => [] end) (map (move d) ms) =
  map (moved d) (flat_map (fun q : N * N * token => let '(s, e, tk) := q in match parse_capture tk with Some c => [(s, e, c)] | None => [] end) ms).
Proof. induction ms as [|[[s e] tk] ms IH]; [reflexivity|]. cbn [map flat_map move]. rewrite map_app, IH. f_equal. destruct (parse_capture tk); reflexivity. Qed.
Theorem C31_format_then_extract :
  forall u f c post, unicode_digits u -> byte_color c ->
  extract_colors u (format f c ++ post) = (0, blen (format f c), c) :: map (moved (blen (format f c))) (extract_colors u post).
Proof.
  intros u f c post [HA HS] Hc. destruct (format_literal u HA f c Hc) as (tk & Hl & Hd & _).
  unfold extract_colors at 1, captures_iter. fold (scan u 0 (format f c ++ post)). rewrite (scan_some u HA HS 0 _ tk post Hl). cbn [flat_map].
  rewrite (proj2 (capture_denotes u HA _ tk c Hl) Hd). cbn [app]. f_equal. rewrite N.add_0_l. rewrite <- (N.add_0_r (blen (format f c))) at 1.
  rewrite (scan_move u HA HS (S (List.length post))) by lia. apply flat_move.
Qed.
Print Assumptions C31_format_then_extract.

(** Editing: every extracted literal has a detected style; replacing it by any colour formatted in that style gives
    a text with that colour in that place and all the other colours as they were. *)
Theorem C31_edit_in_place :
  forall u t s e c, unicode_digits u -> In (s, e, c) (extract_colors u t) ->
  exists pre l post f before, t = pre ++ l ++ post /\ s = blen pre /\ e = s + blen l /\ format_parse l = Some f /\
    extract_colors u t = before ++ (s, e, c) :: map (moved e) (extract_colors u post) /\
    forall c', byte_color c' -> extract_colors u (pre ++ format f c' ++ post) =
      before ++ (s, s + blen (format f c'), c') :: map (moved (s + blen (format f c'))) (extract_colors u post).
Proof.
  intros u t s e c [HA HS] Hin. unfold extract_colors in Hin. apply in_flat_map in Hin. destruct Hin as ([[s0 e0] tk] & Hin & Hc).
  destruct (parse_capture tk) as [c0|] eqn:Ep; [|destruct Hc]. destruct Hc as [Hc|[]]. injection Hc as -> -> ->.
  destruct (scan_split u HA HS (S (List.length t)) t 0 s e tk ltac:(lia) Hin) as (pre & l & post & before & -> & Hl & -> & -> & G). rewrite N.add_0_l in *.
  pose proof (detect u HA l tk Hl) as Hf. set (f := match tk with Hex _ => _ | Rgb _ _ _ _ => _ end) in Hf.
  exists pre, l, post, f, (flat_map (fun q : N * N * token => let '(s, e, tk) := q in match parse_capture tk with Some c => [(s, e, c)] | None => [] end) before).
  assert (F : forall l' tk' c', literal u l' tk' -> hd 0 l' = hd 0 l -> parse_capture tk' = Some c' ->
    extract_colors u (pre ++ l' ++ post) = flat_map (fun q : N * N * token => let '(s, e, tk) := q in match parse_capture tk with Some c => [(s, e, c)] | None => [] end) before ++
      (blen pre, blen pre + blen l', c') :: map (moved (blen pre + blen l')) (extract_colors u post)).
  { intros l' tk' c' Hl' Hh Hc'. unfold extract_colors at 1, captures_iter. fold (scan u 0 (pre ++ l' ++ post)). rewrite (G l' tk' Hl' Hh), flat_map_app. f_equal. cbn [flat_map]. rewrite Hc'. cbn [app]. f_equal.
    rewrite <- (N.add_0_r (blen pre + blen l')) at 1. rewrite (scan_move u HA HS (S (List.length post))) by lia. apply flat_move. }
  split; [reflexivity|]. split; [reflexivity|]. split; [reflexivity|]. split; [exact Hf|]. split; [apply (F l tk c Hl eq_refl Ep)|].
  intros c' Hc'. destruct (format_literal u HA f c' Hc') as (tk' & Hl' & Hd' & _). apply (F _ tk' c' Hl').
  - apply (detect_first u HA l tk f c' Hl Hf Hc').
  - apply (capture_denotes u HA _ tk' c' Hl'). exact Hd'.
Qed.
Print Assumptions C31_edit_in_place.

(** Re-formatting a hexadecimal literal's own colour in its own style gives the literal back, in lower case; an rgb
    literal keeps its number of components. *)
Definition to_lower (c : chr) : chr := if (65 <=? c) && (c <=? 90) then c + 32 else c.
Lemma hex_char_of_value : forall c, is_hex c = true -> hex_char (hex_value c) = to_lower c.
Proof.
  intros c H. unfold is_hex, is_digit in H. rewrite !orb_true_iff, !andb_true_iff, !N.leb_le in H. unfold hex_char, hex_value, to_lower, is_digit.
  destruct (N.leb_spec 48 c), (N.leb_spec c 57), (N.leb_spec 65 c), (N.leb_spec c 90), (N.leb_spec c 70); cbn [andb]; try lia;
    match goal with |- context [?a <? 10] => destruct (N.ltb_spec a 10) end; lia.
Qed.
Theorem C31_reformat_same :
  forall u l tk c f, unicode_digits u -> literal u l tk -> denotes tk c -> format_parse l = Some f ->
  match tk with
  | Hex _ => format f c = map to_lower l
  | Rgb _ _ _ a => exists dr dg db a', literal u (format f c) (Rgb dr dg db a') /\ (a' = None <-> a = None)
  end.
Proof.
  intros u l tk c f [HA HS] Hl Hd Hf. rewrite (detect u HA l tk Hl) in Hf. injection Hf as <-.
  inversion Hl as [q ds Hq Hh Hlen|w1 d1 w2 d2 w3 d3 w W1 W2 W3 W D1 D2 D3|w1 d1 w2 d2 w3 d3 w4 d4 w W1 W2 W3 W4 W D1 D2 D3 D4]; subst l tk; clear Hl.
  - assert (Hqq : (if q =? 39 then 39 else 34) = q /\ to_lower q = q) by (destruct Hq as [->| ->]; split; reflexivity). destruct Hqq as [Hqq Hql].
    assert (M17 : forall v, (17 * v) mod 17 = 0 /\ 17 * v / 17 = v) by (intro v; rewrite N.mul_comm; split; [apply N.mod_mul; discriminate | apply N.div_mul; discriminate]).
    inversion Hd as [x y z E|x y z w E|x1 x2 y1 y2 z1 z2 E|x1 x2 y1 y2 z1 z2 w1 w2 E| | |]; subst ds c; repeat (match goal with F : Forall _ (_ :: _) |- _ => inversion_clear F end);
      cbn [hd List.length Nat.leb Nat.eqb orb format]; rewrite Hqq; cbn [map app]; rewrite Hql; change (to_lower 35) with 35.
    + destruct (M17 (hex_value x)) as [-> ->], (M17 (hex_value y)) as [-> ->], (M17 (hex_value z)) as [-> ->]. cbn. rewrite !hex_char_of_value by assumption. reflexivity.
    + destruct (M17 (hex_value x)) as [-> ->], (M17 (hex_value y)) as [-> ->], (M17 (hex_value z)) as [-> ->], (M17 (hex_value w)) as [-> ->]. cbn. rewrite !hex_char_of_value by assumption. reflexivity.
    + cbn [andb]. replace (false || negb (255 =? 255)) with false by reflexivity. unfold hex2.
      assert (V : forall a b, is_hex b = true -> (16 * hex_value a + hex_value b) / 16 = hex_value a /\ (16 * hex_value a + hex_value b) mod 16 = hex_value b) by (intros a b Hb; apply div_small, hex_value_lt, Hb).
      destruct (V x1 x2) as [-> ->]; [assumption|]. destruct (V y1 y2) as [-> ->]; [assumption|]. destruct (V z1 z2) as [-> ->]; [assumption|]. rewrite !hex_char_of_value by assumption. reflexivity.
    + cbn [andb]. unfold hex2.
      assert (V : forall a b, is_hex b = true -> (16 * hex_value a + hex_value b) / 16 = hex_value a /\ (16 * hex_value a + hex_value b) mod 16 = hex_value b) by (intros a b Hb; apply div_small, hex_value_lt, Hb).
      destruct (V x1 x2) as [-> ->]; [assumption|]. destruct (V y1 y2) as [-> ->]; [assumption|]. destruct (V z1 z2) as [-> ->]; [assumption|]. destruct (V w1 w2) as [-> ->]; [assumption|]. rewrite !hex_char_of_value by assumption. reflexivity.
  - inversion Hd as [| | | |a1 a2 a3 r g b P1 P2 P3 L1 L2 L3| |]; subst.
    assert (S0 : spaces []) by constructor. assert (S1 : spaces [32]) by (repeat constructor). destruct (print_byte u HA r L1) as [Dr _], (print_byte u HA g L2) as [Dg _], (print_byte u HA b L3) as [Db _].
    exists (print_N r), (print_N g), (print_N b), None. split; [|tauto]. exact (lit_rgb u [] (print_N r) [32] (print_N g) [32] (print_N b) [] S0 S1 S1 S0 Dr Dg Db).
  - assert (S0 : spaces []) by constructor. assert (S1 : spaces [32]) by (repeat constructor).
    assert (Hb : exists r g b a, c = (r, g, b, a) /\ r < 256 /\ g < 256 /\ b < 256 /\ a < 256) by (inversion Hd; subst; do 4 eexists; repeat split; eauto; lia).
    destruct Hb as (r & g & b & a & -> & L1 & L2 & L3 & L4). destruct (print_byte u HA r L1) as [Dr _], (print_byte u HA g L2) as [Dg _], (print_byte u HA b L3) as [Db _], (print_byte u HA a L4) as [Da _].
    exists (print_N r), (print_N g), (print_N b), (Some (print_N a)). split; [|split; discriminate].
    exact (lit_rgba u [] (print_N r) [32] (print_N g) [32] (print_N b) [32] (print_N a) [] S0 S1 S1 S1 S0 Dr Dg Db Da).
Qed.
Print Assumptions C31_reformat_same.

(** the hypotheses are met by the ASCII digits; a text with all kinds of literals *)
Example C31_demo_digits : unicode_digits is_digit.
Proof.
  split; [reflexivity|]. apply digit_not_ws.
Qed.
Example C31_demo :
  extract_colors is_digit (lit "x ""#FA0"" rgb(1,2,300) rgb( 1, 22,3 ) '#0102037f' ""#12345"" rgb(0,0,0,999)") =
    [(2, 8, (255, 170, 0, 255)); (22, 36, (1, 22, 3, 255)); (37, 48, (1, 2, 3, 127)); (58, 72, (0, 0, 0, 255))] /\
  format_parse (lit "rgb( 1, 22,3 )") = Some (FRgb false) /\ format (FRgb false) (1, 22, 3, 9) = lit "rgb(1, 22, 3, 9)" /\
  format_parse (lit "'#FA0'") = Some (FHex true true false) /\ format (FHex true true false) (255, 170, 1, 255) = lit "'#ffaa01'".
Proof. repeat split; vm_compute; reflexivity. Qed.
