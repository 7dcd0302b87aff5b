(** Which constants come back from their printed form: the conditions, on the texts alone. *)
From Coq Require Import List NArith ZArith Bool String.
From Verif Require Import Common.Text Common.Utf8 Lexer.Spec Lexer.QuoteProps Const.Model.
Import ListNotations.
Open Scope nat_scope.

(** A name: letters, digits and underscores, not beginning with a digit, and not the word [in]. *)
Definition digit (b : N) : Prop := (48 <= b <= 57)%N.
Definition name (s : text) : Prop :=
  (exists b r, s = b :: r /\ ~ digit b) /\ Forall ident_byte s /\ s <> lit "in".
(** A string as the lexer makes them: its escapes are complete (C12). *)
Definition string_ok (s : text) : Prop :=
  Forall scalar s /\ (occurs [34; 125]%N s -> ~ In 64%N s) /\ (~ occurs [34; 125]%N s -> escaped s).
Definition resource_ok (s : text) : Prop := Forall scalar s /\ ~ In 39%N s /\ ~ In 92%N s.

(** The value of a string of decimal digits *)
Definition decimal (s : text) : Z := fold_left (fun a b => 10 * a + (Z.of_N b - 48))%Z s 0%Z.

Section SPEC.
Variable F : Type.
Variable fl : f32 F.
Notation constant := (constant F).

(** [w] is the literal of the number [v]: an integer of 31 bits without leading zeros; digits with a fraction, an
    exponent or both; or one of the two words for numbers that are none. *)
Inductive literal : text -> F -> Prop :=
  | L_int w : w <> [] -> Forall digit w -> hd 0%N w <> 48%N \/ w = lit "0" -> (decimal w < 2 ^ 31)%Z ->
      literal w (f_of_int F fl (decimal w))
  | L_float i f x v : i <> [] -> Forall digit i ->
      f = [] \/ (exists d, f = lit "." ++ d /\ d <> [] /\ Forall digit d) ->
      x = [] \/ (exists s d, x = lit "e" ++ s ++ d /\ In s [lit "+"; lit "-"] /\ d <> [] /\ Forall digit d) ->
      f ++ x <> [] -> f_parse F fl (i ++ f ++ x) = Some v -> literal (i ++ f ++ x) v
  | L_inf v : f_parse F fl (lit "inf") = Some v -> literal (lit "1.#INF") v
  | L_nan v : f_parse F fl (lit "NaN") = Some v -> literal (lit "1.#IND") v.
(** The printed form of [f] is a literal of [f], or a minus sign and a literal of the number that [f] is the negative of.
    (The printed form has six significant digits, so this is not so for every number.) *)
Definition float_ok (f : F) : Prop :=
  literal (f_format F fl f) f \/ exists w v, f_format F fl f = lit "-" ++ w /\ literal w v /\ f = f_neg F fl v.

Inductive ok : constant -> Prop :=
  | ok_null : ok (CNull None)
  | ok_new p a : (forall q, p = Some q -> ok_pop q) -> (forall l, a = Some l -> ok_args l) -> ok (CNew p a)
  | ok_list l : ok_args l -> ok (CList l)
  | ok_call f l : ok_args l -> ok (CCall f l)
  | ok_prefab p : ok_pop p -> ok (CPrefab p)
  | ok_string s : string_ok s -> ok (CString s)
  | ok_resource s : resource_ok s -> ok (CResource s)
  | ok_float f : float_ok f -> ok (CFloat f)
with ok_pop : pop F -> Prop :=
  | ok_Pop path vars : path <> [] -> Forall name path -> NoDup (map fst vars) -> ok_vars vars -> ok_pop (Pop path vars)
with ok_vars : list (text * constant) -> Prop :=
  | ok_vars_nil : ok_vars []
  | ok_vars_cons k v l : name k -> ok v -> ok_vars l -> ok_vars ((k, v) :: l)
with ok_args : arguments_t F -> Prop :=
  | ok_args_nil : ok_args []
  | ok_args_one k l : ok k -> ok_args l -> ok_args ((k, None) :: l)
  | ok_args_pair k v l : ok k -> ok v -> ok_args l -> ok_args ((k, Some v) :: l).
End SPEC.
