(** Statements of the DM language, crates/dreammaker/src/ast.rs (cited as ast.rs).  Locations ([Spanned]) are dropped: they play no
    part in equality of syntax trees (ast.rs:867-872). *)
From Coq Require Import List NArith ZArith Bool String.
From Verif Require Import Common.Text Parse.Ast.
Import ListNotations.
Open Scope nat_scope.

Section AST.
Variable F : Type.
Notation expr := (expr F).

(** ast.rs:1386-1390 VarType; the input type of a local variable is always empty and left out *)
Record vartype : Type := { v_flags : N; v_path : list text }.
(** ast.rs:1563-1567 VarStatement *)
Record vardecl : Type := { v_type : vartype; v_name : text; v_value : option expr }.
(** ast.rs:1570-1573 Case *)
Inductive case : Type := Exactly (e : expr) | Between (a b : expr).
(** ast.rs:453-458 SettingMode *)
Inductive setmode : Type := SetAssign | SetIn.
(** ast.rs:1502-1560 Statement, with ForListStatement (1576-1584), ForKeyValueStatement (1587-1595) and ForRangeStatement
    (1598-1605) written out; a block (ast.rs:1498) is a list of statements *)
Inductive stmt : Type :=
  | Expr (e : expr) | Return (e : option expr) | Throw (e : expr)
  | While (c : expr) (b : list stmt)
  | DoWhile (b : list stmt) (c : expr)
  | If (arms : list (expr * list stmt)) (else_ : option (list stmt))
  | ForInfinite (b : list stmt)
  | ForLoop (init : option stmt) (test : option expr) (inc : option stmt) (b : list stmt)
  | ForList (ty : option vartype) (name : text) (input_type : option N) (in_list : option expr) (b : list stmt)
  | ForKeyValue (ty : option vartype) (key : text) (key_input_type : option N) (value : text) (in_list : option expr) (b : list stmt)
  | ForRange (ty : option vartype) (name : text) (start end_ : expr) (step : option expr) (b : list stmt)
  | Var (d : vardecl) | Vars (ds : list vardecl)
  | Setting (name : text) (mode : setmode) (value : expr)
  | Spawn (delay : option expr) (b : list stmt)
  | Switch (input : expr) (cases : list (list case * list stmt)) (default : option (list stmt))
  | TryCatch (b : list stmt) (params : list (list text)) (handler : list stmt)
  | Continue (label : option text) | Break (label : option text) | Goto (label : text)
  | Label (name : text) (b : list stmt)
  | Del (e : expr) | Crash (e : option expr).
Definition block : Type := list stmt.
End AST.
Arguments v_type {F}. Arguments v_name {F}. Arguments v_value {F}.
Arguments Exactly {F}. Arguments Between {F}.
Arguments Expr {F}. Arguments Return {F}. Arguments Throw {F}. Arguments While {F}. Arguments DoWhile {F}. Arguments If {F}.
Arguments ForInfinite {F}. Arguments ForLoop {F}. Arguments ForList {F}. Arguments ForKeyValue {F}. Arguments ForRange {F}.
Arguments Var {F}. Arguments Vars {F}. Arguments Setting {F}. Arguments Spawn {F}. Arguments Switch {F}. Arguments TryCatch {F}.
Arguments Continue {F}. Arguments Break {F}. Arguments Goto {F}. Arguments Label {F}. Arguments Del {F}. Arguments Crash {F}.
