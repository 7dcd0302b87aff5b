(** Specification for the indentation processor (C15, C16, C38): logical lines and brace depth, independent of the processor's state. *)
From Coq Require Import List Arith ZArith Bool.
From Verif Require Import Lexer.Punct Lexer.Model.
Import ListNotations.
Open Scope nat_scope.

Section SPEC.
Variable F : Type.
Variable Loc : Type.
Notation tok := (token F).
Notation ltok := (Loc * tok)%type.

Definition is_blank (t : tok) : bool :=
  match t with TPunct _ PNewline | TPunct _ PTab | TPunct _ PSpace => true | _ => false end.
Definition is_brace (t : tok) : bool := match t with TPunct _ PLBrace | TPunct _ PRBrace => true | _ => false end.

(** The significant tokens.  One that is the first of its line, outside parentheses, comes with the width of its margin and the
    place where the last line with a significant token ended.  Braces start no line (the line they stand on is laid out by hand),
    nor does the first line of the file, which follows no newline. *)
Fixpoint lines (parens : nat) (margin : option (nat * Loc)) (input : list ltok) : list (option (nat * Loc) * ltok) :=
  match input with
  | [] => []
  | (l, t) :: input' =>
      match t with
      | TPunct _ PNewline => lines parens (if parens =? 0 then Some (0, match margin with Some (_, e) => e | None => l end) else margin) input'
      | TPunct _ PTab | TPunct _ PSpace => lines parens (option_map (fun m => (S (fst m), snd m)) margin) input'
      | TPunct _ PLBrace | TPunct _ PRBrace => (None, (l, t)) :: lines parens None input'
      | TPunct _ PLParen => (margin, (l, t)) :: lines (S parens) None input'
      | TPunct _ PRParen => (margin, (l, t)) :: lines (pred parens) None input'
      | _ => (margin, (l, t)) :: lines parens None input'
      end
  end.

(** Open braces minus closed ones. *)
Definition weight (t : tok) : Z := match t with TPunct _ PLBrace => 1 | TPunct _ PRBrace => -1 | _ => 0 end.
Definition depth (ts : list ltok) : Z := fold_right (fun t z => (weight (snd t) + z)%Z) 0%Z ts.
(** Never more closed than opened, and everything closed at the end. *)
Definition balanced (ts : list ltok) : Prop :=
  (forall a b, ts = a ++ b -> (0 <= depth a)%Z) /\ depth ts = 0%Z.

(** The output, taken apart: [groups] are the tokens inserted before the significant tokens [sig], one group each. *)
Definition assemble (groups : list (list ltok)) (sig : list ltok) : list ltok :=
  concat (map (fun g => fst g ++ [snd g]) (combine groups sig)).
(** What may be inserted: nothing inside a line; at the start of a line one semicolon, or opening braces, or closing braces, placed at
    the end of the line before. *)
Definition group_ok (g : list ltok) (head : option (nat * Loc)) : Prop :=
  match head with
  | None => g = []
  | Some (_, e) => exists p k, g = repeat (e, TPunct F p) (S k) /\ (p = PSemicolon /\ k = 0 \/ p = PLBrace \/ p = PRBrace)
  end.
(** The whole output: the tokens of the logical lines [L] with their groups, and at the end of a normal run a semicolon and closing
    braces at the place of the last input token. *)
Definition laid_out (input : list ltok) (L : list (option (nat * Loc) * ltok)) (dflt : Loc) (ts : list ltok) (normal : bool) (groups : list (list ltok)) : Prop :=
  exists tail, ts = assemble groups (map snd L) ++ tail /\
    Forall2 group_ok groups (firstn (length groups) (map fst L)) /\
    if normal then length groups = length L /\ exists k, let l := last (map fst input) dflt in tail = (l, TPunct F PSemicolon) :: repeat (l, TPunct F PRBrace) k
    else tail = [].
(** The depth at which token number [i] ends up. *)
Definition depth_at (groups : list (list ltok)) (sig : list ltok) (i : nat) : Z :=
  depth (assemble (firstn i groups) sig ++ nth i groups []).
End SPEC.
