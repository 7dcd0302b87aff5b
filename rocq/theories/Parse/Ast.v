(** Expressions of the DM language, crates/dreammaker/src/ast.rs (cited as ast.rs).
    Locations ([Spanned]) are dropped: they play no part in equality of syntax trees (ast.rs:867-872).
    [Ident], [Box<str>] and [String] are all [text]. *)
From Coq Require Import List NArith ZArith Bool String.
From Verif Require Import Common.Text.
Import ListNotations.
Open Scope nat_scope.

(** ast.rs:28-38 UnaryOp *)
Inductive unop : Set := Neg | Not | BitNot | PreIncr | PostIncr | PreDecr | PostDecr | Reference | Dereference.
(** ast.rs:89-96 PathOp *)
Inductive pathop : Set := PathSlash | PathDot | PathColon.
(** ast.rs:116-142 BinaryOp *)
Inductive binop : Set :=
  | BAdd | BSub | BMul | BDiv | BPow | BMod | BFloatMod | BEq | BNotEq | BLess | BGreater | BLessEq | BGreaterEq
  | BLessOrGreater | BEquiv | BNotEquiv | BBitAnd | BBitXor | BBitOr | BLShift | BRShift | BAnd | BOr | BIn | BTo.
(** ast.rs:179-195 AssignOp *)
Inductive assignop : Set :=
  | AAssign | AAdd | ASub | AMul | ADiv | AMod | AFloatMod | AInto | ABitAnd | AAnd | ABitOr | AOr | ABitXor
  | ALShift | ARShift.
(** ast.rs:267-272 ListAccessKind *)
Inductive listkind : Set := LNormal | LSafe.
(** ast.rs:276-287 PropertyAccessKind *)
Inductive propkind : Set := KDot | KColon | KSafeDot | KSafeColon | KScope.

(** ast.rs:526-555 InputType: the bits *)
Definition input_types : list (text * N) :=
  [ (lit "mob", 1); (lit "obj", 2); (lit "text", 4); (lit "num", 8); (lit "file", 16); (lit "turf", 32);
    (lit "key", 64); (lit "null", 128); (lit "area", 256); (lit "icon", 512); (lit "sound", 1024);
    (lit "message", 2048); (lit "anything", 4096); (lit "password", 32768); (lit "command_text", 65536);
    (lit "color", 131072); (lit "movable", 3); (lit "atom", 291); (lit "list", 2147483648) ]%N.
(** ast.rs:495-506 FromStr for InputType *)
Definition input_type_of (s : text) : option N :=
  match find (fun e => text_eqb (fst e) s) input_types with Some e => Some (snd e) | None => None end.

Section AST.
(** f32 *)
Variable F : Type.

(** ast.rs:958-991 Expression; ast.rs:1121-1208 Term; ast.rs:1318-1337 Follow; a [Prefab] (ast.rs:920-923) is written
    out as its path and its variables, a [MiniExpr] (ast.rs:1311-1314) as its identifier and its fields *)
Inductive expr : Type :=
  | Base (t : term) (fs : list follow)
  | Bin (op : binop) (l r : expr)
  | Assign (op : assignop) (l r : expr)
  | Tern (c a b : expr)
with term : Type :=
  | MNull | MInt (z : Z) | MFloat (f : F) | MIdent (i : text) | MString (s : text) | MResource (s : text)
  | MAs (t : N) | MProc | MType | MImplied
  | MExpr (e : expr) | MPrefab (path : list (pathop * text)) (vars : list (text * expr))
  | MInterp (s : text) (parts : list (option expr * text))
  | MCall (i : text) (args : list expr) | MSelfCall (args : list expr) | MParentCall (args : list expr)
  | MNewImplicit (args : option (list expr))
  | MNewPrefab (path : list (pathop * text)) (vars : list (text * expr)) (args : option (list expr))
  | MNewMini (i : text) (fields : list (propkind * text)) (args : option (list expr))
  | MList (args : list expr)
  | MInput (args : list expr) (input_type : option N) (in_list : option expr)
  | MLocate (args : list expr) (in_list : option expr)
  | MPick (args : list (option expr * expr))
  | MDynCall (a b : list expr)
  | MExtCall (library : option expr) (function : expr) (args : list expr)
  | MGlobalIdent (i : text) | MGlobalCall (i : text) (args : list expr)
with follow : Type :=
  | FIndex (k : listkind) (e : expr)
  | FField (k : propkind) (i : text)
  | FCall (k : propkind) (i : text) (args : list expr)
  | FUnary (op : unop)
  | FStaticField (i : text)
  | FProcRef (i : text).
End AST.
Arguments Base {F}. Arguments Bin {F}. Arguments Assign {F}. Arguments Tern {F}.
Arguments MNull {F}. Arguments MInt {F}. Arguments MFloat {F}. Arguments MIdent {F}. Arguments MString {F}.
Arguments MResource {F}. Arguments MAs {F}. Arguments MProc {F}. Arguments MType {F}. Arguments MImplied {F}.
Arguments MExpr {F}. Arguments MPrefab {F}. Arguments MInterp {F}. Arguments MCall {F}. Arguments MSelfCall {F}.
Arguments MParentCall {F}. Arguments MNewImplicit {F}. Arguments MNewPrefab {F}. Arguments MNewMini {F}.
Arguments MList {F}. Arguments MInput {F}. Arguments MLocate {F}. Arguments MPick {F}. Arguments MDynCall {F}.
Arguments MExtCall {F}. Arguments MGlobalIdent {F}. Arguments MGlobalCall {F}.
Arguments FIndex {F}. Arguments FField {F}. Arguments FCall {F}. Arguments FUnary {F}. Arguments FStaticField {F}.
Arguments FProcRef {F}.
