(** The theorems of Props on concrete expressions, from their text. *)
From Coq Require Import List NArith ZArith Bool String.
From Verif Require Import Common.Text Lexer.Punct Lexer.Model Parse.Ast Parse.Model Parse.Spec Parse.Props.
Import ListNotations.
Open Scope nat_scope.

Notation F := text.
Notation P p := (TPunct F p).
Definition tokens_of (s : string) : list (token F) :=
  match lex F (fun t => Some t) (fun t => t) [] (lit s) with Lexer.Model.Ok (ts, _) => map snd ts | _ => [] end.
Definition id (s : string) : expr F := Base (MIdent (lit s)) [].
Definition num (z : Z) : expr F := Base (MInt z) [].
(** reads without complaint up to the end of the line *)
Definition gives (s : string) (e : expr F) : Prop := reads F (tokens_of s) e [P PNewline].
Definition fails (s : string) : Prop := forall e rest, ~ reads F (tokens_of s) e rest.
Ltac fails_ := intros e rest H; vm_compute in H; discriminate H.

(** levels and grouping *)
Example C45_ex1 : gives "a + b * c" (Bin BAdd (id "a") (Bin BMul (id "b") (id "c"))).
Proof. reflexivity. Qed.
Example C45_ex2 : gives "a - b - c" (Bin BSub (Bin BSub (id "a") (id "b")) (id "c")).
Proof. reflexivity. Qed.
Example C45_ex3 : gives "a = b += c" (Assign AAssign (id "a") (Assign AAdd (id "b") (id "c"))).
Proof. reflexivity. Qed.
Example C45_ex4 : gives "a < b << c" (Bin BLShift (Bin BLess (id "a") (id "b")) (id "c")).
Proof. reflexivity. Qed.
Example C45_ex5 : gives "x = a ? b : c ? d : e"
  (Assign AAssign (id "x") (Tern (id "a") (id "b") (Tern (id "c") (id "d") (id "e")))).
Proof. reflexivity. Qed.
Example C45_ex6 : gives "-a ** b++" (Bin BPow (Base (MIdent (lit "a")) [FUnary Neg]) (Base (MIdent (lit "b")) [FUnary PostIncr])).
Proof. reflexivity. Qed.
Example C45_ex7 : gives "a || b && c in d" (Bin BIn (Bin BOr (id "a") (Bin BAnd (id "b") (id "c"))) (id "d")).
Proof. reflexivity. Qed.
(** the hypotheses of C45_precedence for the first of these *)
Example C45_hypotheses :
  infix F PAdd = Some (3, false, Bin BAdd) /\ infix F PMul = Some (2, false, Bin BMul) /\
  (forall i, In i ["a"; "b"; "c"]%string ->
     sp_group F false (id i) [TIdent F (lit i) false] (either F (follow_start F true false) (punct_in F [PLParen]))) /\
  ends_before F 14 (either F (follow_start F true false) (punct_in F [PLParen])) [P PNewline].
Proof.
  split; [reflexivity|]. split; [reflexivity|]. split; [|repeat split; intros H; try discriminate H; exfalso; apply H; reflexivity].
  intros i Hi. apply (G F false [] [] (MIdent (lit i)) true [TIdent F (lit i) false] (punct_in F [PLParen]) [] []); constructor.
  intros H. repeat (destruct Hi as [<-|Hi]; [vm_compute in H; intuition discriminate|]). destruct Hi.
Qed.

(** terms *)
Example C44_ex1 : gives "a.b(1, c[2])?.d" (Base (MIdent (lit "a"))
  [FCall KDot (lit "b") [num 1; Base (MIdent (lit "c")) [FIndex LNormal (num 2)]]; FField KSafeDot (lit "d")]).
Proof. reflexivity. Qed.
Example C44_ex2 : gives "new /obj/item{name = ""x""}(loc)" (Base (MNewPrefab [(PathSlash, lit "obj"); (PathSlash, lit "item")]
  [(lit "name", Base (MString (lit "x")) [])] (Some [id "loc"])) []).
Proof. reflexivity. Qed.
Example C44_ex3 : gives "pick(10;a, b)" (Base (MPick [(Some (num 10), id "a"); (None, id "b")]) []).
Proof. reflexivity. Qed.
Example C44_ex4 : gives "input(usr, ""?"") as null|text in L" (Base (MInput [id "usr"; Base (MString (lit "?")) []] (Some 132%N) (Some (id "L"))) []).
Proof. reflexivity. Qed.
Example C44_ex5 : gives """a[b + 1]c""" (Base (MInterp (lit "a") [(Some (Bin BAdd (id "b") (num 1)), lit "c")]) []).
Proof. reflexivity. Qed.
Example C44_ex6 : gives "for_each in 1 to 5" (Bin BIn (id "for_each") (Bin BTo (num 1) (num 5))).
Proof. reflexivity. Qed.
(** what comes after the expression is left alone *)
Example C44_ex7 : reads F (tokens_of "a b") (id "a") [TIdent F (lit "b") false; P PNewline].
Proof. reflexivity. Qed.
Example C44_ex8 : fails "a +".
Proof. fails_. Qed.
Example C44_ex9 : fails "f(a b)".
Proof. fails_. Qed.
(** a colon directly after a name is an access to a member *)
Example C44_ex10 : fails "a ? b:c".
Proof. fails_. Qed.
Example C44_ex11 : gives "a ? 1:c" (Tern (id "a") (num 1) (id "c")).
Proof. reflexivity. Qed.

(** what a reader of the language may not expect *)
Example C44_commas : gives "f(,1,,2,)" (Base (MCall (lit "f") [num 1; num 2]) []).
Proof. reflexivity. Qed.
Example C44_scope_arguments : gives "a::b(1, 2)" (Base (MIdent (lit "a")) [FProcRef (lit "b")]).
Proof. reflexivity. Qed.
Example C44_lone_slash : gives "/" (Base (MPrefab [(PathSlash, lit "__PARSE_ERROR__")] []) []).
Proof. reflexivity. Qed.

Print Assumptions C44_terminates.
Print Assumptions C44_parser_is_grammar.
Print Assumptions C44_unambiguous.
Print Assumptions C45_precedence.
Print Assumptions C45_conditional.
