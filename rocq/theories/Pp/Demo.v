(** A small concrete world for the examples about the preprocessor: paths are texts, files are given as token lists. *)
From Coq Require Import List ZArith NArith Bool String.
From Verif Require Import Common.Text Loc.Model Lexer.Punct.
From Verif Require Lexer.Model.
From Verif Require Import Pp.Model.
Import ListNotations.
Open Scope nat_scope.

Notation dtok := (Lexer.Model.token unit).
Definition Id (s : string) : dtok := Lexer.Model.TIdent unit (lit s) false.
Definition Sp (s : string) : dtok := Lexer.Model.TIdent unit (lit s) true.
Definition Pu (p : punct) : dtok := Lexer.Model.TPunct unit p.
Definition In_ (z : Z) : dtok := Lexer.Model.TInt unit z.
Definition Str (s : string) : dtok := Lexer.Model.TString unit (lit s).
Definition NL : dtok := Pu PNewline.
(** a file as lines; the columns count tokens *)
Fixpoint line_toks (file line : Z) (col : Z) (ts : list dtok) : list (loc * dtok) :=
  match ts with [] => [((file, (line, col)), NL)] | t :: r => ((file, (line, col)), t) :: line_toks file line (col + 1)%Z r end.
Fixpoint file_toks (file line : Z) (ls : list (list dtok)) : list (loc * dtok) :=
  match ls with [] => [] | l :: r => line_toks file line 1 l ++ file_toks file (line + 1)%Z r end.
Fixpoint look {A : Type} (fs : list (text * A)) (n : text) : option A :=
  match fs with [] => None | (k, v) :: r => if text_eqb k n then Some v else look r n end.
Definition text_dec (a b : text) : {a = b} + {a <> b} := list_eq_dec N.eq_dec a b.
(** files have ids; conditions are [defined(X)]-free: a condition holds if its only token is a non-zero number *)
Definition demo_world (fs : list (text * (Z * list (list dtok)))) : @world unit text := {|
  w_path_eq := text_dec;
  w_join := fun _ t => Some t;
  w_empty_path := [];
  w_exists := fun p => match look fs p with Some _ => true | None => false end;
  w_type := fun p => FDm;
  w_file_id := fun p => match look fs p with Some (i, _) => i | None => FILEID_BAD end;
  w_open := fun p => match look fs p with Some (i, ls) => Some (file_toks i 1 ls) | None => None end;
  w_display_path := fun p => p;
  w_display := fun t => match t with Lexer.Model.TIdent _ i _ => i | Lexer.Model.TInt _ n => show_int n | Lexer.Model.TPunct _ PAdd => lit "+" | _ => [] end;
  w_evaluate := fun ts _ => match ts with [(_, Lexer.Model.TInt _ n)] => Some (negb (Z.eqb n 0)) | _ => None end
|}.
