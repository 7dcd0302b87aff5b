(** What a file declares. *)
From Coq Require Import List NArith ZArith Bool.
From Verif Require Import Common.Text Lexer.Model Parse.Ast Stmt.Ast.
Import ListNotations.

Section AST.
Variable F : Type.
Notation expr := (expr F).
(** ast.rs:1365-1372 Parameter, without its location *)
Record param : Type := { q_type : vartype; q_name : text; q_default : option expr; q_input : option N; q_in : option expr }.
(** ast.rs:309-312 ProcReturnType; the default is no type *)
Inductive rettype : Type := RInput (n : N) | RPath (p : list text).
(** ast.rs:331-334 ProcDeclBuilder: kind and flags *)
Record procdecl : Type := { d_verb : bool; d_final : bool }.
(** Where something is declared: the type; among the procedures of a kind, or not; among the variables of a type, or not *)
Record place : Type := { c_type : list text; c_proc : option procdecl; c_var : option vartype }.
(** What is declared in a type under a name: a new variable, with its input type and its value; a value for an inherited one; a
    procedure, with the tokens of its body, which are parsed as statements *)
Inductive member : Type :=
  | MVar (t : vartype) (input : option N) (value : option expr)
  | MSet (value : expr)
  | MProc (decl : option procdecl) (params : list param) (ret : option rettype) (body : list (token F)).
(** The calls of the builder: subtype_or_add, with the measure that decides on the location of the type; declare_var, override_var and
    register_proc *)
Inductive event : Type :=
  | EAdd (parent : list text) (child : text) (len : nat)
  | EMember (at_ : list text) (name : text) (m : member).
End AST.
Arguments q_type {F}. Arguments q_name {F}. Arguments q_default {F}. Arguments q_input {F}. Arguments q_in {F}.
Arguments MVar {F}. Arguments MSet {F}. Arguments MProc {F}.
