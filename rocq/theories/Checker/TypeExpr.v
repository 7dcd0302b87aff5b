(** Return types of procedures.  Models crates/dreamchecker/src/type_expr.rs (cited as type_expr), and from
    crates/dreamchecker/src/lib.rs (cited as lib): StaticType 27-64, static_type 1172-1222, return types 974-1015 and 3454-3475, the
    arguments 3252-3355.

    Simplifications: locations are left out, errors are reduced to what they say.  What is known about an argument is given. *)
From Coq Require Import List Arith NArith Bool String.
From Verif Require Import Common.Text Objtree.Model Parse.Ast.
Import ListNotations.
Open Scope nat_scope.

Section TYPES.
Variables F V D : Type.
Variable t : objtree V D.
(** the type that objtree.expect("/list") gives *)
Variable list_type : nat.

(** lib 27-35 *)
Inductive sty : Type := SNone | SType (i : nat) | SList (list : nat) (keys : sty) | SProc.
(** lib 37-40, 51-64 *)
Definition is_truthy (s : sty) : bool := match s with SNone => false | _ => true end.
Definition strip_list (s : sty) : sty := match s with SList _ keys => keys | _ => SNone end.
Fixpoint strip_lists (s : sty) (n : nat) : sty := match n with O => s | S n' => strip_lists (strip_list s) n' end.

Inductive problem : Type := Undefined (path : list text) | BadExpression | BadTerm | NoParameter (name : text) | IndexNonParameter | IndexOther | TypeNonParameter | BadFollow.
Inductive res (A : Type) : Type := Good (a : A) | Bad (e : problem).
Arguments Good {A}. Arguments Bad {A}.
Definition then_ {A B : Type} (r : res A) (f : A -> res B) : res B := match r with Good a => f a | Bad e => Bad e end.

(** lib 1189-1203 *)
Definition modifiers : list text := map lit ["static"; "global"; "const"; "tmp"; "final"; "SpacemanDMM_final"; "SpacemanDMM_private"; "SpacemanDMM_protected"]%string.
(** lib 1184-1222 static_type *)
Fixpoint static_type (of : list text) : res sty :=
  match of with
  | [] => Good SNone
  | w :: rest =>
      if existsb (text_eqb w) modifiers then static_type rest
      else if text_eqb w (lit "list") then then_ (static_type rest) (fun keys => Good (SList list_type keys))
      else match type_by_path t of with Some i => Good (SType i) | None => Bad (Undefined of) end
  end.

(** type_expr 32-59 *)
Inductive texpr : Type :=
  | Static (s : sty)
  | ParamTypepath (name : text) (p_idx index_ct : nat)
  | ParamStaticType (name : text) (p_idx index_ct : nat)
  | Condition (cond if_ else_ : texpr).

(** ** Compiling *)
Section COMPILE.
(** the names of the parameters of the procedure *)
Variable params : list text.
(** type_expr 187-194 *)
Fixpoint position (name : text) (l : list text) (i : nat) : option nat :=
  match l with [] => None | p :: l' => if text_eqb name p then Some i else position name l' (S i) end.
(** type_expr 183-215 visit_term but for parentheses *)
Definition visit_leaf (x : term F) : res texpr :=
  match x with
  | MNull => Good (Static SNone)
  | MIdent name => match position name params 0 with Some i => Good (ParamTypepath name i 0) | None => Bad (NoParameter name) end
  | MPrefab path _ => then_ (static_type (map snd path)) (fun s => Good (Static s))
  | _ => Bad BadTerm
  end.
(** type_expr 217-266 visit_follow *)
Definition visit_follow (lhs : texpr) (f : follow F) : res texpr :=
  match f with
  | FIndex _ (Base (MIdent name) []) =>
      if text_eqb name (lit "_") then match lhs with ParamTypepath n i c => Good (ParamTypepath n i (S c)) | _ => Bad IndexNonParameter end else Bad IndexOther
  | FIndex _ _ => Bad IndexOther
  | FField _ name => if text_eqb name (lit "type") then match lhs with ParamTypepath n i c => Good (ParamStaticType n i c) | _ => Bad TypeNonParameter end else Bad BadFollow
  | _ => Bad BadFollow
  end.
Fixpoint visit_follows (ty : texpr) (fs : list (follow F)) : res texpr :=
  match fs with [] => Good ty | f :: fs' => then_ (visit_follow ty f) (fun ty' => visit_follows ty' fs') end.
(** type_expr 131-181 visit_expression *)
Fixpoint compile (e : expr F) : res texpr :=
  match e with
  | Base x fs => then_ (match x with MExpr e' => compile e' | _ => visit_leaf x end) (fun ty => visit_follows ty fs)
  | Bin BOr l r => then_ (compile l) (fun lty => then_ (compile r) (fun rty => Good (Condition lty lty rty)))
  | Bin BAnd l r => then_ (compile l) (fun lty => then_ (compile r) (fun rty => Good (Condition lty rty lty)))
  | Tern c a b => then_ (compile c) (fun c' => then_ (compile a) (fun a' => then_ (compile b) (fun b' => Good (Condition c' a' b'))))
  | _ => Bad BadExpression
  end.
End COMPILE.

(** ** Evaluating *)
(** What is known about an argument: the path, if its value is known and is a path, and its type *)
Record analysis : Type := { a_path : option (list text); a_type : sty }.
(** type_expr 13-17; lib 3252-3355: the maps that the loop over the arguments fills *)
Record context : Type := { by_name : list (text * analysis); by_idx : list (nat * analysis); next_idx : nat }.
Definition add_arg (c : context) (a : option text * analysis) : context :=
  match fst a with
  | Some name => {| by_name := ix_insert name (snd a) (by_name c); by_idx := by_idx c; next_idx := next_idx c |}
  | None => {| by_name := by_name c; by_idx := by_idx c ++ [(next_idx c, snd a)]; next_idx := S (next_idx c) |}
  end.
Definition context_of (args : list (option text * analysis)) : context := fold_left add_arg args {| by_name := []; by_idx := []; next_idx := 0 |}.
(** type_expr 19-30 get *)
Definition lookup (c : context) (name : text) (idx : nat) : option analysis :=
  match get name (by_name c) with
  | Some a => Some a
  | None => match List.find (fun e => fst e =? idx) (by_idx c) with Some e => Some (snd e) | None => None end
  end.
(** type_expr 75-120 evaluate *)
Fixpoint evaluate (c : context) (e : texpr) : res sty :=
  match e with
  | Static s => Good s
  | Condition cond a b => then_ (evaluate c cond) (fun s => if is_truthy s then evaluate c a else evaluate c b)
  | ParamTypepath name i _ => match lookup c name i with Some a => match a_path a with Some p => static_type p | None => Good SNone end | None => Good SNone end
  | ParamStaticType name i n => match lookup c name i with Some a => Good (strip_lists (a_type a) n) | None => Good SNone end
  end.

(** ** Which one is taken *)
(** lib 974-990: [as type] at the declaration: an input type that stands for this type, or a path *)
Inductive declared : Type := DInput (ty : option nat) | DPath (bits : list text).
Definition declared_type (d : option declared) : option texpr :=
  match d with
  | Some (DInput (Some i)) => Some (Static (SType i))
  | Some (DPath bits) => match static_type bits with Good s => Some (Static s) | Bad _ => None end
  | _ => None
  end.
(** lib 992-1015: a setting of SpacemanDMM_return_type *)
Definition setting (params : list text) (before : option texpr * list problem) (value : expr F) : option texpr * list problem :=
  match value with
  | Base (MPrefab path _) [] =>
      match static_type (map snd path) with Good s => (Some (Static s), snd before) | Bad e => (Some (Static SNone), snd before ++ [e]) end
  | _ => match compile params value with Good e => (Some e, snd before) | Bad e => (fst before, snd before ++ [e]) end
  end.
Definition return_type (params : list text) (d : option declared) (settings : list (expr F)) : option texpr * list problem := fold_left (setting params) settings (declared_type d, []).
(** lib 3454-3475: the type of a call *)
Definition call_type (r : option texpr) (args : list (option text * analysis)) : sty * list problem :=
  match r with
  | Some e => match evaluate (context_of args) e with Good s => (s, []) | Bad p => (SNone, [p]) end
  | None => (SNone, [])
  end.
End TYPES.
Arguments Good {A}. Arguments Bad {A}. Arguments static_type {V D}. Arguments compile {F V D}. Arguments evaluate {V D}. Arguments return_type {F V D}. Arguments call_type {V D}. Arguments visit_leaf {F V D}. Arguments visit_follow {F}. Arguments visit_follows {F}. Arguments setting {F V D}. Arguments declared_type {V D}.
