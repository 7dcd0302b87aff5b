(** Constants, how they are printed, and the evaluator of constant expressions.
    Models crates/dreammaker/src/constants.rs (cited without file name), with ast.rs for paths and variables. *)
From Coq Require Import List NArith ZArith Bool String.
From Verif Require Import Common.Text Common.Utf8 Loc.Model Lexer.Tracker Lexer.Punct Lexer.Model Lexer.QuoteProps Parse.Ast Parse.Model.
Import ListNotations.
Open Scope nat_scope.

(** 160-180 ConstFn *)
Inductive constfn : Set := FnIcon | FnMatrix | FnNewlist | FnSound | FnFilter | FnFile | FnGenerator | FnVector.
(** 430-443 Display for ConstFn *)
Definition fn_name (f : constfn) : text :=
  match f with
  | FnIcon => lit "icon" | FnMatrix => lit "matrix" | FnNewlist => lit "newlist" | FnSound => lit "sound"
  | FnFilter => lit "filter" | FnFile => lit "file" | FnGenerator => lit "generator" | FnVector => lit "vector"
  end.
(** 850-858: the names under which [term] finds them *)
Definition fn_of (s : text) : option constfn :=
  find (fun f => text_eqb (fn_name f) s) [FnMatrix; FnNewlist; FnIcon; FnSound; FnFilter; FnFile; FnGenerator; FnVector].

Section CONST.
(** f32 *)
Variable F : Type.

(** 76-100 Constant; 25-30 Pop.  An IndexMap is the list of its entries in order. *)
Inductive constant : Type :=
  | CNull (hint : option (list text))
  | CNew (type_ : option pop) (args : option (list (constant * option constant)))
  | CList (args : list (constant * option constant))
  | CCall (f : constfn) (args : list (constant * option constant))
  | CPrefab (p : pop)
  | CString (s : text)
  | CResource (s : text)
  | CFloat (f : F)
with pop : Type := Pop (path : list text) (vars : list (text * constant)).
Definition pop_path (p : pop) : list text := let '(Pop path _) := p in path.
Definition pop_vars (p : pop) : list (text * constant) := let '(Pop _ vars) := p in vars.
Definition arguments_t : Type := list (constant * option constant).

(** What the standard library does with f32: conversions, operators, comparisons, and [FormatFloat] (lexer.rs:376-419).
    Floating point arithmetic is not modelled. *)
Record f32 : Type := {
  f_of_int : Z -> F; f_neg : F -> F; f_zero : F; f_one : F; f_is_zero : F -> bool; f_eq : F -> F -> bool;
  f_arith : binop -> F -> F -> F; f_less : binop -> F -> F -> bool; f_to_u32 : F -> N; f_of_u32 : N -> F;
  f_trig : text -> F -> F; f_format : F -> text; f_parse : text -> option F; f_show : F -> text }.
Variable fl : f32.

(** ** Printing *)
(** ast.rs:890-899 FormatTreePath *)
Definition show_path (p : list text) : text := List.concat (map (fun s => lit "/" ++ s) p).
(** ast.rs:935-954 FormatVars *)
Definition show_vars (show : constant -> text) : bool -> list (text * constant) -> text :=
  fix go first vs :=
    match vs with
    | [] => if first then [] else lit "}"
    | (k, v) :: vs' => (if first : bool then lit " {" else lit "; ") ++ k ++ lit " = " ++ show v ++ go false vs'
    end.
(** 367-375, 409-417: arguments with ", " between them *)
Definition show_args (show : constant -> text) : bool -> arguments_t -> text :=
  fix go first l :=
    match l with
    | [] => []
    | (k, v) :: l' =>
        (if first : bool then [] else lit ", ") ++ show k ++
        (match v with Some v => lit " = " ++ show v | None => [] end) ++ go false l'
    end.
(** 385-401: the elements of a list with "," between them, and a space after a pair *)
Definition show_elements (show : constant -> text) : bool -> bool -> arguments_t -> text :=
  fix go first previous_assoc l :=
    match l with
    | [] => []
    | (k, v) :: l' =>
        (if first : bool then [] else lit "," ++ if previous_assoc : bool then lit " " else []) ++ show k ++
        (match v with Some v => lit " = " ++ show v | None => [] end) ++
        go false (match v with Some _ => true | None => false end) l'
    end.
(** 352-428 Display for Constant; 67-76 Display for Pop *)
Fixpoint show (c : constant) : text :=
  match c with
  | CNull _ => lit "null"
  | CNew ty args =>
      lit "new" ++ (match ty with Some p => lit " " ++ show_pop p | None => [] end) ++
      (match args with Some l => lit "(" ++ show_args show true l ++ lit ")" | None => [] end)
  | CList l => lit "list(" ++ show_elements show true false l ++ lit ")"
  | CCall f l => fn_name f ++ lit "(" ++ show_args show true l ++ lit ")"
  | CPrefab p => show_pop p
  | CString s => quote s
  | CResource s => lit "'" ++ s ++ lit "'"
  | CFloat f => f_format fl f
  end
with show_pop (p : pop) : text :=
  match p with Pop path vars => show_path path ++ show_vars show true vars end.

(** ** Evaluation *)
(** 205-212 to_bool *)
Definition to_bool (c : constant) : bool :=
  match c with
  | CNull _ => false
  | CFloat f => negb (f_is_zero fl f)
  | CString s => match s with [] => false | _ => true end
  | _ => true
  end.
(** 312-319 From<bool> *)
Definition of_bool (b : bool) : constant := CFloat (if b then f_one fl else f_zero fl).
(** 104-108 from_bit_op *)
Definition from_bit_op (x : N) : constant := CFloat (f_of_u32 fl (N.land x 0xffffff)).

(** 134-156 PartialEq for Constant; 39-43 for Pop.  Two IndexMaps are equal if they have the same length and every entry
    of the first has an equal one under its key in the second. *)
Definition opt_eqb {A B : Type} (f : A -> B -> bool) (x : option A) (y : option B) : bool :=
  match x, y with Some a, Some b => f a b | None, None => true | _, _ => false end.
Definition list_eqb {A B : Type} (f : A -> B -> bool) : list A -> list B -> bool :=
  fix go x y :=
    match x, y with
    | [], [] => true
    | a :: x', b :: y' => f a b && go x' y'
    | _, _ => false
    end.
Definition map_get (k : text) (m : list (text * constant)) : option constant :=
  match find (fun e => text_eqb (fst e) k) m with Some e => Some (snd e) | None => None end.
Definition fn_eqb (f g : constfn) : bool := text_eqb (fn_name f) (fn_name g).
Fixpoint const_eqb (a b : constant) {struct a} : bool :=
  let arg_eqb := fun (x y : constant * option constant) =>
    const_eqb (fst x) (fst y) && opt_eqb const_eqb (snd x) (snd y) in
  match a, b with
  | CNull p, CNull q => opt_eqb (list_eqb text_eqb) p q
  | CNew t x, CNew u y => opt_eqb pop_eqb t u && opt_eqb (list_eqb arg_eqb) x y
  | CList x, CList y => list_eqb arg_eqb x y
  | CCall f x, CCall g y => fn_eqb f g && list_eqb arg_eqb x y
  | CPrefab p, CPrefab q => pop_eqb p q
  | CString s, CString t => text_eqb s t
  | CResource s, CResource t => text_eqb s t
  | CFloat f, CFloat g => f_eq fl f g
  | _, _ => false
  end
with pop_eqb (p q : pop) {struct p} : bool :=
  match p, q with
  | Pop path vars, Pop path' vars' =>
      list_eqb text_eqb path path' && (List.length vars =? List.length vars')
      && forallb (fun e => match map_get (fst e) vars' with Some v => const_eqb (snd e) v | None => false end) vars
  end.

(** 770-787 unary; [None]: an error *)
Definition unary (op : unop) (c : constant) : option constant :=
  match op, c with
  | Neg, CFloat f => Some (CFloat (f_neg fl f))
  | BitNot, CFloat f => Some (from_bit_op (N.lxor (f_to_u32 fl f) 0xffffffff))
  | Not, c => Some (of_bool (negb (to_bool c)))
  | _, _ => None
  end.
(** u32::checked_shl, checked_shr *)
Definition checked_shl (x n : N) : option N := if (n <? 32)%N then Some (N.land (N.shiftl x n) 0xffffffff) else None.
Definition checked_shr (x n : N) : option N := if (n <? 32)%N then Some (N.shiftr x n) else None.
(** 791-841 binary *)
Definition binary (op : binop) (a b : constant) : option constant :=
  match op, a, b with
  | (BAdd | BSub | BMul | BDiv | BMod | BFloatMod | BPow), CFloat x, CFloat y => Some (CFloat (f_arith fl op x y))
  | (BLess | BLessEq | BGreater | BGreaterEq), CFloat x, CFloat y => Some (of_bool (f_less fl op x y))
  | BBitOr, CFloat x, CFloat y => Some (from_bit_op (N.lor (f_to_u32 fl x) (f_to_u32 fl y)))
  | BBitAnd, CFloat x, CFloat y => Some (from_bit_op (N.land (f_to_u32 fl x) (f_to_u32 fl y)))
  | BBitXor, CFloat x, CFloat y => Some (from_bit_op (N.lxor (f_to_u32 fl x) (f_to_u32 fl y)))
  | BLShift, CFloat x, CFloat y => option_map from_bit_op (checked_shl (f_to_u32 fl x) (f_to_u32 fl y))
  | BRShift, CFloat x, CFloat y => option_map from_bit_op (checked_shr (f_to_u32 fl x) (f_to_u32 fl y))
  | BAdd, CString x, CString y => Some (CString (x ++ y))
  | BEq, _, _ => Some (of_bool (const_eqb a b))
  | BNotEq, _, _ => Some (of_bool (negb (const_eqb a b)))
  | BAnd, _, _ => Some (if to_bool a then b else a)
  | BOr, _, _ => Some (if to_bool a then a else b)
  | _, _, _ => None
  end.

(** IndexMap::insert: an existing key keeps its place *)
Fixpoint map_insert (k : text) (v : constant) (m : list (text * constant)) : list (text * constant) :=
  match m with
  | [] => [(k, v)]
  | e :: m' => if text_eqb (fst e) k then (fst e, v) :: m' else e :: map_insert k v m'
  end.

(** ast.rs:1092-1103, 1273-1281, 1340-1347 nameof *)
Definition nameof_follow (f : follow F) : option text :=
  match f with FField _ i | FStaticField i | FProcRef i => Some i | _ => None end.
Fixpoint nameof (e : expr F) : option text :=
  match e with
  | Base t fs => match rev fs with f :: _ => nameof_follow f | [] => nameof_term t end
  | _ => None
  end
with nameof_term (t : term F) : option text :=
  match t with
  | MExpr e => nameof e
  | MIdent i | MGlobalIdent i => Some i
  | MPrefab path [] => match rev path with x :: _ => Some (snd x) | [] => None end
  | _ => None
  end.
(** ast.rs:1292-1307 From<Expression> for Term *)
Fixpoint term_from (e : expr F) : term F :=
  match e with
  | Base t [] => match t with MExpr e' => term_from e' | _ => t end
  | _ => MExpr e
  end.
(** the identifier it is, if it is one *)
Definition key_ident (e : expr F) : option text := match term_from e with MIdent i => Some i | _ => None end.

(** The errors that matter below, by their message; the others alike. *)
Inductive cerr : Type := ERecursive (i : text) | ENotEvaluable (i : text) | ENotConst (i : text) | EOther.
(** The object tree in which an evaluation takes place changes on the way: values are filled in (type [S]). *)
Inductive eres (St A : Type) : Type := EOk (a : A) (s : St) | EErr (e : cerr) (s : St) | EStuck.
Arguments EOk {St A}. Arguments EErr {St A}. Arguments EStuck {St A}.
Definition ebind {St A B : Type} (x : eres St A) (k : A -> St -> eres St B) : eres St B :=
  match x with EOk a s => k a s | EErr e s => EErr e s | EStuck => EStuck end.
Notation "'ev' a s <- x ; k" := (ebind x (fun a s => k)) (at level 200, a name, s name, x at level 100, k at level 200).
Definition lift {St A : Type} (x : option A) (s : St) : eres St A :=
  match x with Some a => EOk a s | None => EErr EOther s end.

(** 627-633 ConstantFolder: what surrounds the expression.  [e_tree]: the object tree, if there is one: looking up a
    variable (1036-1060 recursive_lookup), the type of a path (ObjectTree::find), the absolute path that a relative one
    leads to (TypeRef::navigate_path), a procedure (1062-1084 proc_ref_lookup) and the paths of the type and its parent. *)
Record tree_env (St : Type) : Type := {
  t_lookup : nat -> text -> bool -> St -> eres St constant;
  t_find : text -> option nat;
  t_navigate : list (pathop * text) -> option (list text);
  t_proc : nat -> text -> option (list text);
  t_type : list text; t_parent : option (list text); t_self : nat }.
Record env (St : Type) : Type := {
  e_tree : option (tree_env St);
  e_defined : option (text -> bool); e_fexists : option (text -> option bool);
  e_rgb : arguments_t -> option text }.
Arguments e_tree {St}. Arguments e_defined {St}. Arguments e_fexists {St}. Arguments e_rgb {St}.
Arguments t_lookup {St}. Arguments t_find {St}. Arguments t_navigate {St}. Arguments t_proc {St}.
Arguments t_type {St}. Arguments t_parent {St}. Arguments t_self {St}.

Section EVAL.
Context {St : Type}.
Variable E : env St.
Notation eres := (eres St).

(** 705-768 follow *)
Definition static_type (c : constant) : option (list text) :=
  match c with CPrefab (Pop path []) => Some path | _ => None end.
Definition ev_follow (c : constant) (f : follow F) (s : St) : eres constant :=
  match c, f with
  | CNull (Some hint), FField _ name =>
      match e_tree E with
      | Some T => match t_find T (show_path hint) with
                  | Some ty => t_lookup T ty name true s
                  | None => EErr EOther s
                  end
      | None => EErr EOther s
      end
  | _, FUnary op => lift (unary op c) s
  | _, FStaticField name =>
      match static_type c, e_tree E with
      | Some path, Some T => match t_find T (show_path path) with
                             | Some ty => t_lookup T ty name false s
                             | None => EErr EOther s
                             end
      | _, _ => EErr EOther s
      end
  | _, FProcRef name =>
      match static_type c, e_tree E with
      | Some path, Some T => match t_find T (show_path path) with
                             | Some ty => lift (option_map (fun p => CPrefab (Pop p [])) (t_proc T ty name)) s
                             | None => EErr EOther s
                             end
      | _, _ => EErr EOther s
      end
  | _, _ => EErr EOther s
  end.
Fixpoint ev_follows (c : constant) (fs : list (follow F)) (s : St) : eres constant :=
  match fs with
  | [] => EOk c s
  | f :: fs' => ev c1 s1 <- ev_follow c f s; ev_follows c1 fs' s1
  end.

(** 681-703 arguments; [f]: expr without hint.  The key of [k = v] is a name, or [term] of [Term::from] of it, which is the
    same as [expr] of it (lemma ev_key). *)
Definition ev_args (f : expr F -> St -> eres constant) : list (expr F) -> St -> eres arguments_t :=
  fix go es s :=
    match es with
    | [] => EOk [] s
    | e :: es' =>
        ev a s1 <- match e with
                   | Assign AAssign l r =>
                       ev k s1 <- match key_ident l with Some i => EOk (CString i) s | None => f l s end;
                       ev v s2 <- f r s1;
                       EOk (k, Some v) s2
                   | _ => ev k s1 <- f e s; EOk (k, None) s1
                   end;
        ev l s2 <- go es' s1;
        EOk (a :: l) s2
    end.
(** 1014-1026 vars *)
Definition ev_vars (f : expr F -> St -> eres constant) : list (text * expr F) -> list (text * constant) -> St -> eres (list (text * constant)) :=
  fix go vs m s :=
    match vs with
    | [] => EOk m s
    | (k, e) :: vs' => ev v s1 <- f e s; go vs' (map_insert k v m) s1
    end.
(** 963-1012 prefab, after vars *)
Definition absolute (p : list (pathop * text)) : bool :=
  forallb (fun x => match fst x with PathSlash => true | _ => false end) p.
Definition ev_prefab (path : list (pathop * text)) (m : list (text * constant)) (s : St) : eres pop :=
  if absolute path then EOk (Pop (map snd path) m) s
  else match e_tree E with
       | Some T => lift (option_map (fun p => Pop p m) (t_navigate T path)) s
       | None => EErr EOther s
       end.
Definition ev_opt {A B : Type} (f : A -> St -> eres B) (x : option A) (s : St) : eres (option B) :=
  match x with Some a => ev b s1 <- f a s; EOk (Some b) s1 | None => EOk None s end.
(** ast.rs:998-1003 as_term *)
Definition as_term (e : expr F) : option (term F) := match e with Base t [] => Some t | _ => None end.

(** 648-670 expr; 843-959 term *)
Fixpoint ev_expr (e : expr F) (hint : option (list text)) (s : St) {struct e} : eres constant :=
  match e with
  | Base t fs =>
      ev c s1 <- ev_term t (match fs with [] => hint | _ => None end) s;
      ev_follows c fs s1
  | Bin op l r =>
      ev a s1 <- ev_expr l None s;
      ev b s2 <- ev_expr r None s1;
      lift (binary op a b) s2
  | Tern c a b =>
      ev v s1 <- ev_expr c None s;
      if to_bool v then ev_expr a hint s1 else ev_expr b hint s1
  | Assign _ _ _ => EErr EOther s
  end
with ev_term (t : term F) (hint : option (list text)) (s : St) {struct t} : eres constant :=
  let sub := fun e s => ev_expr e None s in
  match t with
  | MNull => EOk (CNull hint) s
  | MNewPrefab path vars args =>
      ev m s1 <- ev_vars sub vars [] s;
      ev p s2 <- ev_prefab path m s1;
      ev a s3 <- ev_opt (ev_args sub) args s2;
      EOk (CNew (Some p) a) s3
  | MNewImplicit args => ev a s1 <- ev_opt (ev_args sub) args s; EOk (CNew None a) s1
  | MList args => ev a s1 <- ev_args sub args s; EOk (CList a) s1
  | MCall i args =>
      match fn_of i with
      | Some f => ev a s1 <- ev_args sub args s; EOk (CCall f a) s1
      | None =>
          if existsb (text_eqb i) [lit "sin"; lit "cos"; lit "arcsin"; lit "arccos"] then
            match args with
            | [e] => ev c s1 <- ev_expr e None s;
                     match c with CFloat f => EOk (CFloat (f_trig fl i f)) s1 | _ => EErr EOther s1 end
            | _ => EErr EOther s
            end
          else if text_eqb i (lit "rgb") then
            if (3 <=? List.length args) && (List.length args <=? 5) then
              ev a s1 <- ev_args sub args s;
              lift (option_map CString (e_rgb E a)) s1
            else EErr EOther s
          else if text_eqb i (lit "defined") then
            match e_defined E, args with
            | Some d, [e] => match as_term e with Some (MIdent x) => EOk (of_bool (d x)) s | _ => EErr EOther s end
            | _, _ => EErr EOther s
            end
          else if text_eqb i (lit "nameof") then
            match args with
            | [e] => lift (option_map CString (nameof e)) s
            | _ => EErr EOther s
            end
          else if text_eqb i (lit "fexists") then
            match e_fexists E, args with
            | Some d, [e] => match as_term e with
                             | Some (MString x) => lift (option_map of_bool (d x)) s
                             | _ => EErr EOther s
                             end
            | _, _ => EErr EOther s
            end
          else EErr EOther s
      end
  | MPrefab path vars =>
      ev m s1 <- ev_vars sub vars [] s;
      ev p s2 <- ev_prefab path m s1;
      EOk (CPrefab p) s2
  | MIdent i =>
      match e_tree E with
      | Some T =>
          if text_eqb i (lit "type") then EOk (CPrefab (Pop (t_type T) [])) s
          else if text_eqb i (lit "parent_type") then lift (option_map (fun p => CPrefab (Pop p [])) (t_parent T)) s
          else t_lookup T (t_self T) i false s
      | None => EErr EOther s
      end
  | MString v => EOk (CString v) s
  | MResource v => EOk (CResource v) s
  | MInt v => EOk (CFloat (f_of_int fl v)) s
  | MFloat v => EOk (CFloat v) s
  | MExpr e => ev_expr e hint s
  | MType => match e_tree E with Some T => EOk (CPrefab (Pop (t_type T) [])) s | None => EErr EOther s end
  | MImplied => match hint with Some p => EOk (CPrefab (Pop p [])) s | None => EErr EOther s end
  | _ => EErr EOther s
  end.
End EVAL.

(** 469-479 simple_evaluate *)
Definition no_env (rgb : arguments_t -> option text) : env unit :=
  {| e_tree := None; e_defined := None; e_fexists := None; e_rgb := rgb |}.
Definition simple_evaluate (rgb : arguments_t -> option text) (e : expr F) : option constant :=
  match ev_expr (no_env rgb) e None tt with EOk c _ => Some c | _ => None end.

(** ** evaluate_str *)
(** The tokens of the lexer, each with what [remaining()] is after it was read. *)
Fixpoint trace (fuel : nat) (L : lexer) : list (token F * list N) :=
  match fuel with
  | O => []
  | S fuel' =>
      match token_next F (f_parse fl) (f_show fl) (f_zero fl) L with
      | Lexer.Model.Ok (Some (_, t), L1) => (t, rest (inp L1)) :: trace fuel' L1
      | _ => []
      end
  end.
(** When [n] tokens (not counting documentation) have not been taken by the parser: it has seen the first of these, and
    these bytes are left *)
Fixpoint left_over (n : nat) (tr : list (token F * list N)) : list N :=
  match tr with
  | [] => []
  | (t, b) :: tr' =>
      if negb (is_doc F t) && (List.length (filter (fun x => negb (is_doc F (fst x))) tr) =? n) then b
      else left_over n tr'
  end.
(** 447-467 evaluate_str.  [None]: an error (or a panic for a location without predecessor).  Diagnostics of the lexer and
    the parser go to a context of their own, which is dropped. *)
Definition evaluate_str (rgb : arguments_t -> option text) (l : loc) (input : list N) : option constant :=
  match from_location l input with
  | None => None
  | Some t =>
      let tr := trace (S (S (List.length input))) (from_input t) in
      match parse_expression F (map fst tr) with
      | Some (Some e, _, rest) =>
          match left_over (List.length rest) tr with
          | [] => simple_evaluate rgb e
          | _ => None
          end
      | _ => None
      end
  end.
End CONST.
Arguments CNull {F}. Arguments CNew {F}. Arguments CList {F}. Arguments CCall {F}. Arguments CPrefab {F}.
Arguments CString {F}. Arguments CResource {F}. Arguments CFloat {F}. Arguments Pop {F}.
Arguments EOk {St A}. Arguments EErr {St A}. Arguments EStuck {St A}.
