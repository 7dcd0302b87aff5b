(** Specification for C09: which maps the text format can carry.  Nothing here refers to the reader. *)
From Coq Require Import List ZArith NArith Lia Bool Ascii String Sorted.
From Verif Require Import Common.Text Common.Decimal Common.Utf8 Dmm.Model Dmm.TgmModel.
Import ListNotations.
Open Scope N_scope.

Definition has_none_of (bad : list N) (t : list N) : Prop := forall c, In c t -> ~ In c bad.
Definition has_no_comment (t : list N) : Prop := forall a b, t <> a ++ lit "//" ++ b.
(** tab, newline, carriage return *)
Definition line_blanks : list N := [9; 10; 13].

(** A type path: any text without line blanks, [{] [,] [)] and [//]. *)
Definition path_ok (p : text) : Prop :=
  Forall scalar p /\ has_none_of (line_blanks ++ lit "{,)") p /\ has_no_comment p.

(** A variable name: not empty, no line blanks, quotes, [=] [;] [}] or [//]; it does not begin with a blank and its
    last byte is no Latin-1 whitespace. *)
Definition name_ok (v : text) : Prop :=
  Forall scalar v /\ has_none_of (line_blanks ++ lit """=;}") v /\ has_no_comment v /\
  (forall r, v <> 32 :: r) /\ (exists a b, encode v = a ++ [b] /\ ~ In b [9; 10; 11; 12; 13; 32; 0x85; 0xA0]).

(** The inside of a double-quoted string: every quote follows a backslash, the last byte is no backslash. *)
Definition quoted_ok (body : list N) : Prop :=
  has_none_of line_blanks body /\
  (forall a b, body = a ++ 34 :: b -> exists a', a = a' ++ [92]) /\
  (forall a, body <> a ++ [92]).

(** The text of a value: strings as above; outside of them no line blanks, [;] [}] and [//]. *)
Inductive value_ok : list N -> Prop :=
| value_end : value_ok []
| value_char c r : ~ In c (line_blanks ++ lit """;}") -> (c = 47 -> forall r', r <> 47 :: r') -> value_ok r -> value_ok (c :: r)
| value_string body r : quoted_ok body -> value_ok r -> value_ok (34 :: body ++ 34 :: r).

Section Spec.
  Context {C : Type} (show : C -> list N) (ev : list N -> option C).

  (** a value whose text evaluates back to it and can be told from the surrounding syntax *)
  Definition constant_ok (c : C) : Prop := ev (show c) = Some c /\ value_ok (show c).

  Definition prefab_ok (f : prefab C) : Prop :=
    path_ok (path f) /\ NoDup (map fst (vars f)) /\
    Forall (fun kv => name_ok (fst kv) /\ constant_ok (snd kv)) (vars f).

  (** a map: keys in order and u16, no empty tile, at least one cell *)
  Definition map_ok (m : map_ C) : Prop :=
    (1 <= key_length m <= 3)%Z /\
    dictionary m <> [] /\
    StronglySorted Z.lt (map fst (dictionary m)) /\
    Forall (fun e => (0 <= fst e <= KEY_MAX)%Z /\ snd e <> [] /\ Forall prefab_ok (snd e)) (dictionary m) /\
    grid3_ok (grid m) /\
    (let '(dz, dy, dx) := g3_dim (grid m) in 1 <= dz /\ 1 <= dy /\ 1 <= dx)%nat /\
    Forall (fun k => 0 <= k <= KEY_MAX)%Z (g3_data (grid m)).

  (** every key in the map has at most [key_length] letters *)
  Definition keys_fit (m : map_ C) : Prop :=
    Forall (fun k => k < 52 ^ key_length m)%Z (map fst (dictionary m) ++ g3_data (grid m)).
End Spec.

(** No line (its newline included) is longer than a column number can count. *)
Definition short_lines (bs : list N) : Prop :=
  forall a l b, bs = a ++ l ++ b -> ~ In 10 l -> N.of_nat (List.length l) <= 65534.

(** ** The standard (BYOND) layout of a map file: one line per dictionary entry, one block per level with a row of
    keys per line. *)
Section Dmm.
  Context {C : Type} (show : C -> list N).
  Fixpoint join (sep : list N) (l : list (list N)) : list N :=
    match l with
    | [] => []
    | [a] => a
    | a :: r => a ++ sep ++ join sep r
    end.
  Definition dmm_prefab (f : prefab C) : list N :=
    encode (path f) ++
    match vars f with
    | [] => []
    | vs => lit "{" ++ join (lit "; ") (map (fun kv => encode (fst kv) ++ lit " = " ++ show (snd kv)) vs) ++ lit "}"
    end.
  (** the text of a key, if it has one *)
  Definition key_letters (len k : Z) : list N :=
    match format_key len k with Some s => map N_of_ascii s | None => [] end.
  Definition dmm_entry (len : Z) (e : Z * list (prefab C)) : list N :=
    lit """" ++ key_letters len (fst e) ++ lit """ = (" ++ join (lit ",") (map dmm_prefab (snd e)) ++ lit ")" ++ [10].
  (** the keys of row [y] (from the top) of level [z] *)
  Definition row (g : grid3 Z) (z y : nat) : list Z :=
    let '(_, dy, dx) := g3_dim g in firstn dx (skipn ((z * dy + y) * dx) (g3_data g)).
  Definition dmm_level (len : Z) (g : grid3 Z) (z : nat) : list N :=
    let '(_, dy, _) := g3_dim g in
    [10] ++ lit "(1,1," ++ print_N (N.of_nat z + 1) ++ lit ") = {""" ++ [10] ++
    List.concat (map (fun y => List.concat (map (key_letters len) (row g z y)) ++ [10]) (seq 0 dy)) ++ lit """}" ++ [10].
  Definition dmm_text (m : map_ C) : list N :=
    List.concat (map (dmm_entry (key_length m)) (dictionary m)) ++
    List.concat (map (dmm_level (key_length m) (grid m)) (seq 0 (fst (fst (g3_dim (grid m)))))).
End Dmm.
