(** What an expression means to the checker, said rule by rule: which parts of it are looked at and with which type expected there, what
    is known about the value of each of them, what each of them calls, and what is said about each of them. *)
From Coq Require Import List Arith NArith ZArith Bool String Relations.
From Verif Require Import Common.Text Objtree.Ispath Objtree.Model Parse.Ast Checker.CallTree Checker.Kwargs Checker.Directives Checker.TypeExpr Checker.Filters Checker.FiltersProps Checker.Exprs.
Import ListNotations.
Open Scope nat_scope.

Section SPEC.
Variables F V D L : Type.
Variable t : objtree V D.
Variable rules : env L.
Variable returns : procref -> option texpr.
Variable vars : nat -> list (text * option vdecl).
Variable builtin : procref -> bool.
Variable kind : D -> text.
Variable self : procref.
Variable new_context : bool.
Variable locals : text -> option ana.
Notation size := (List.length (graph t)).
Notation self_type := (pr_ty self).
Notation list_type := (expect t "/list").
Notation var_decl := (var_decl t vars).
Notation proc_at := (proc_at t).
Notation type_at := (type_at t self).
Notation static_type := (static_type t list_type).
Notation event := (event F L).

(** The declaration of a variable: that of the nearest ancestor that has one *)
Inductive declares : nat -> text -> vdecl -> Prop :=
  | dc_here i x d : get x (vars i) = Some (Some d) -> declares i x d
  | dc_parent i p x d : (forall d', get x (vars i) <> Some (Some d')) -> parent_type t i = Some p -> declares p x d -> declares i x d.

(** The parts of an expression, with the type that is expected there, or what is known about what stands before it *)
Inductive part : Type := E (hint : option nat) (e : expr F) | T (hint : option nat) (x : term F) | W (before : ana) (f : follow F).

Inductive arg_of : expr F -> option text -> expr F -> Prop :=
  | ag_name k r : arg_of (Assign AAssign (Base (MIdent k) []) r) (Some k) r
  | ag_string k r : arg_of (Assign AAssign (Base (MString k) []) r) (Some k) r
  | ag_plain e : (forall k r, e <> Assign AAssign (Base (MIdent k) []) r) -> (forall k r, e <> Assign AAssign (Base (MString k) []) r) -> arg_of e None e.
Definition args_of (o : option (list (expr F))) : list (expr F) := match o with Some l => l | None => [] end.
Inductive overloads : unop -> text -> Prop :=
  | ov_pre_incr : overloads PreIncr (lit "operator++") | ov_post_incr : overloads PostIncr (lit "operator++")
  | ov_pre_decr : overloads PreDecr (lit "operator--") | ov_post_decr : overloads PostDecr (lit "operator--").
Definition with_colon (k : propkind) : Prop := k = KColon \/ k = KSafeColon.
(** [a.p()] where [p] is private to another type than that of [a] *)
Definition closed (ty : nat) (p : procref) (q : procref) (l : L) : Prop := get_self_or_parent t (e_private rules) p = Some (q, true, l) /\ pr_ty q <> ty.

(** ** Calls *)
Inductive invokes : part -> procref -> nat -> bool -> bool -> list (expr F) -> Prop :=
  | iv_plain h x args p : proc_at self_type x = Some p -> invokes (T h (MCall x args)) p self_type false true args
  | iv_proc h args : proc_at self_type (lit "__PROC__") = None -> invokes (T h (MCall (lit "__PROC__") args)) self self_type false true args
  | iv_self h args : invokes (T h (MSelfCall args)) self self_type true true args
  | iv_parent h args p : parent_proc t size self = Some (Some p) -> invokes (T h (MParentCall args)) p self_type true true args
  | iv_global h x args p : proc_at 0 x = Some p -> invokes (T h (MGlobalCall x args)) p 0 true false args
  | iv_implicit i args p : proc_at i (lit "New") = Some p -> invokes (T (Some i) (MNewImplicit args)) p i true false (args_of args)
  | iv_new h path vs args i p : type_at path = Some i -> proc_at i (lit "New") = Some p -> invokes (T h (MNewPrefab path vs args)) p i true false (args_of args)
  | iv_method a k x args ty p : ~ with_colon k -> basic_type (x_type a) = Some ty -> proc_at ty x = Some p -> (forall q l, ~ closed ty p q l) -> invokes (W a (FCall k x args)) p ty false false args
  | iv_operator a op name i p : overloads op name -> x_type a = SType i -> proc_at i name = Some p -> invokes (W a (FUnary op)) p i true false [].
Definition creates (n : part) : Prop := match n with T _ (MNewImplicit _) | T _ (MNewPrefab _ _ _) => True | _ => False end.

(** What a call results in; [gs]: its arguments *)
Definition is_global (p : procref) (name : String.string) : Prop := path_of t (pr_ty p) = [] /\ pr_name p = lit name.
(** the arguments that are given without a name, by their number *)
Inductive plain : list (garg F) -> nat -> ana -> Prop :=
  | pl_here g gs : ga_name g = None -> plain (g :: gs) 0 (ga_ana g)
  | pl_next g gs n a : ga_name g = None -> plain gs n a -> plain (g :: gs) (S n) a
  | pl_named g gs n a x : ga_name g = Some x -> plain gs n a -> plain (g :: gs) n a.
Definition ordinary (p : procref) (gs : list (garg F)) : Prop := ~ (is_global p "astype" /\ exists a, plain gs 0 a).
Definition filter_known (p : procref) (gs : list (garg F)) : Prop := is_global p "filter" -> exists ty allowed, typed (map (to_filter) gs) ty allowed.
(** the types of what the builtin procedures give *)
Inductive builtin_result : text -> sty -> Prop :=
  | br_list x : In x (map lit ["argslist"; "flist"; "icon_states"; "splittext"; "typesof"]%string) -> builtin_result x (SList list_type SNone)
  | br_turfs : builtin_result (lit "block") (SList list_type (SType (expect t "/turf")))
  | br_atoms x : In x (map lit ["bounds"; "obounds"; "range"; "orange"; "view"; "oview"]%string) -> builtin_result x (SList list_type (SType (expect t "/atom")))
  | br_mobs x : In x (map lit ["hearers"; "ohearers"; "viewers"; "oviewers"]%string) -> builtin_result x (SList list_type (SType (expect t "/mob")))
  | br_turf : builtin_result (lit "get_step") (SType (expect t "/turf"))
  | br_icon : builtin_result (lit "icon") (SType (expect t "/icon"))
  | br_matrix : builtin_result (lit "matrix") (SType (expect t "/matrix"))
  | br_regex : builtin_result (lit "regex") (SType (expect t "/regex"))
  | br_other x : ~ In x (map lit ["argslist"; "flist"; "icon_states"; "splittext"; "typesof"; "block"; "bounds"; "obounds"; "range"; "orange"; "view"; "oview"; "hearers"; "ohearers"; "viewers"; "oviewers";
      "get_step"; "icon"; "matrix"; "regex"]%string) -> builtin_result x SNone.
Inductive result (p : procref) (gs : list (garg F)) : ana -> Prop :=
  | rs_astype a q i : is_global p "astype" -> plain gs 1 a -> x_val a = Some (VPath q) -> find t (render q) = Some i -> result p gs (of_type (SType i))
  | rs_astype_first a : is_global p "astype" -> plain gs 0 a ->
      (forall b q i, plain gs 1 b -> x_val b = Some (VPath q) -> find t (render q) <> Some i) -> result p gs (of_type (x_type a))
  | rs_filter : ordinary p gs -> ~ filter_known p gs -> result p gs empty
  | rs_builtin s : ordinary p gs -> filter_known p gs -> path_of t (pr_ty p) = [] -> builtin p = true -> builtin_result (pr_name p) s -> result p gs (of_type s)
  | rs_none : ordinary p gs -> filter_known p gs -> (path_of t (pr_ty p) <> [] \/ builtin p = false) -> returns p = None -> result p gs empty
  | rs_return e s : ordinary p gs -> filter_known p gs -> (path_of t (pr_ty p) <> [] \/ builtin p = false) -> returns p = Some e ->
      evaluate t list_type (context_of (map (to_types) gs)) e = Good s -> result p gs (of_type s)
  | rs_problem e x : ordinary p gs -> filter_known p gs -> (path_of t (pr_ty p) <> [] \/ builtin p = false) -> returns p = Some e ->
      evaluate t list_type (context_of (map (to_types) gs)) e = Bad x -> result p gs empty.

(** ** What is known about a value *)
(** the type of a variable, where a type that there is not counts as none *)
Inductive var_type (of : list text) : sty -> Prop :=
  | vt_good s : static_type of = Good s -> var_type of s
  | vt_bad x : static_type of = Bad x -> var_type of SNone.
Definition path_to (i : nat) : ana := {| x_type := SNone; x_val := Some (VPath (words (path_of t i))); x_impure := false |}.
(** the type that [a::...] is about *)
Inductive target (a : ana) : nat -> Prop :=
  | tg_type i : basic_type (x_type a) = Some i -> target a i
  | tg_path p i : basic_type (x_type a) = None -> x_val a = Some (VPath p) -> find t (render p) = Some i -> target a i.
Inductive listlike : sty -> Prop :=
  | ll_list l k : listlike (SList l k)
  | ll_type i : path_of t i = lit "/list" -> listlike (SType i).
Definition list_op (op : binop) : Prop := In op [BAdd; BSub; BBitOr; BBitAnd; BBitXor].
Definition kind_of (p : procref) (x : text) (k : list text) : Prop :=
  match get_proc_declaration t size (pr_ty p) x with Some (Some d) => k = [kind d] | _ => k = [] end.
Definition var_fields : list text := map lit ["type"; "name"; "desc"; "category"; "invisibility"]%string.

Inductive gives : part -> ana -> Prop :=
  (* expressions *)
  | gv_base h x a : gives (T h x) a -> gives (E h (Base x [])) a
  | gv_follow h x fs f a b : gives (E None (Base x fs)) a -> gives (W a f) b -> gives (E h (Base x (fs ++ [f]))) b
  | gv_list_op h op l r a : list_op op -> gives (E None l) a -> listlike (x_type a) -> gives (E h (Bin op l r)) (of_type (x_type a))
  | gv_not_list h op l r a : list_op op -> gives (E None l) a -> ~ listlike (x_type a) -> gives (E h (Bin op l r)) empty
  | gv_other_op h op l r : ~ list_op op -> gives (E h (Bin op l r)) empty
  | gv_assign h op l r a b : gives (E None l) a -> gives (E (basic_type (x_type a)) r) b -> gives (E h (Assign op l r)) b
  | gv_ternary h c a b r : gives (E h a) r -> gives (E h (Tern c a b)) r
  (* constants *)
  | gv_null h : gives (T h MNull) constant
  | gv_int h z : gives (T h (MInt z)) constant
  | gv_float h f : gives (T h (MFloat f)) constant
  | gv_resource h s : gives (T h (MResource s)) constant
  | gv_string h s : gives (T h (MString s)) {| x_type := SNone; x_val := Some (VText s); x_impure := false |}
  (* names *)
  | gv_local h x a : locals x = Some a -> gives (T h (MIdent x)) a
  | gv_type h : locals (lit "type") = None -> gives (T h (MIdent (lit "type"))) (path_to self_type)
  | gv_var h x d s : locals x = None -> x <> lit "type" -> var_decl self_type x = Some d -> var_type (vd_type d) s -> gives (T h (MIdent x)) {| x_type := s; x_val := None; x_impure := true |}
  | gv_unknown h x : locals x = None -> x <> lit "type" -> var_decl self_type x = None -> gives (T h (MIdent x)) empty
  | gv_global h x d s : var_decl 0 x = Some d -> var_type (vd_type d) s -> gives (T h (MGlobalIdent x)) {| x_type := s; x_val := None; x_impure := true |}
  | gv_global_unknown h x : var_decl 0 x = None -> gives (T h (MGlobalIdent x)) empty
  | gv_path h path vs i : type_at path = Some i -> gives (T h (MPrefab path vs)) (path_to i)
  | gv_bad_path h path vs : type_at path = None -> gives (T h (MPrefab path vs)) empty
  | gv_own_type h : gives (T h MType) (path_to self_type)
  | gv_implied i : gives (T (Some i) MImplied) (path_to self_type)
  | gv_not_implied : gives (T None MImplied) empty
  | gv_paren h e a : gives (E h e) a -> gives (T h (MExpr e)) a
  | gv_list h args : gives (T h (MList args)) (of_type (SType list_type))
  (* calls *)
  | gv_call n p src exact inherit args gs a : invokes n p src exact inherit args -> ~ creates n -> Forall2 (fun e g => arg_of e (ga_name g) (ga_expr g)) args gs ->
      (forall g, In g gs -> gives (E None (ga_expr g)) (ga_ana g)) -> result p gs a -> gives n a
  | gv_create n : creates n -> gives n empty
  | gv_not_called h x args : proc_at self_type x = None -> x <> lit "__PROC__" -> gives (T h (MCall x args)) empty
  | gv_no_parent h args : (forall p, parent_proc t size self <> Some (Some p)) -> gives (T h (MParentCall args)) empty
  | gv_no_global h x args : proc_at 0 x = None -> gives (T h (MGlobalCall x args)) empty
  (* terms of which nothing is known *)
  | gv_as h n : gives (T h (MAs n)) empty
  | gv_proc h : gives (T h MProc) empty
  | gv_interp h s ps : gives (T h (MInterp s ps)) empty
  | gv_new_mini h i fs args : gives (T h (MNewMini i fs args)) empty
  | gv_input h args it l : gives (T h (MInput args it l)) empty
  | gv_locate h args l : gives (T h (MLocate args l)) empty
  | gv_pick h cs : gives (T h (MPick cs)) empty
  | gv_dynamic h a b : gives (T h (MDynCall a b)) empty
  | gv_external h l f args : gives (T h (MExtCall l f args)) empty
  (* follows *)
  | gv_colon a k x : with_colon k -> gives (W a (FField k x)) empty
  | gv_colon_call a k x args : with_colon k -> gives (W a (FCall k x args)) empty
  | gv_field a k x ty d s : ~ with_colon k -> basic_type (x_type a) = Some ty -> ~ (path_of t ty = lit "/callee" /\ x = lit "proc") -> var_decl ty x = Some d -> var_type (vd_type d) s -> gives (W a (FField k x)) (of_type s)
  | gv_callee a k ty : ~ with_colon k -> basic_type (x_type a) = Some ty -> path_of t ty = lit "/callee" -> gives (W a (FField k (lit "proc"))) (of_type SProc)
  | gv_no_field a k x ty : ~ with_colon k -> basic_type (x_type a) = Some ty -> ~ (path_of t ty = lit "/callee" /\ x = lit "proc") -> var_decl ty x = None -> gives (W a (FField k x)) empty
  | gv_untyped_field a k x : ~ with_colon k -> basic_type (x_type a) = None -> gives (W a (FField k x)) empty
  | gv_no_method a k x args ty : ~ with_colon k -> basic_type (x_type a) = Some ty -> proc_at ty x = None -> gives (W a (FCall k x args)) empty
  | gv_closed a k x args ty p q l : ~ with_colon k -> basic_type (x_type a) = Some ty -> proc_at ty x = Some p -> closed ty p q l -> gives (W a (FCall k x args)) empty
  | gv_untyped_call a k x args : ~ with_colon k -> basic_type (x_type a) = None -> gives (W a (FCall k x args)) empty
  | gv_index_list a k e l keys : x_type a = SList l keys -> gives (W a (FIndex k e)) (of_type keys)
  | gv_index a k e : (forall l keys, x_type a <> SList l keys) -> gives (W a (FIndex k e)) a
  | gv_unary a op : (forall name, ~ overloads op name) -> gives (W a (FUnary op)) empty
  | gv_no_operator a op name : overloads op name -> (forall i, x_type a = SType i -> proc_at i name = None) -> gives (W a (FUnary op)) empty
  | gv_static a x i d s : target a i -> var_decl i x = Some d -> var_type (vd_type d) s -> gives (W a (FStaticField x)) (of_type s)
  | gv_no_static a x : (forall i, target a i -> var_decl i x = None) -> gives (W a (FStaticField x)) empty
  | gv_ref a x i p k : target a i -> proc_at i x = Some p -> kind_of p x k -> gives (W a (FProcRef x)) {| x_type := SNone; x_val := Some (VPath (words (path_of t i) ++ k ++ [x])); x_impure := false |}
  | gv_no_ref a x : (forall i, target a i -> proc_at i x = None) -> gives (W a (FProcRef x)) empty.

(** ** What is looked at *)
Inductive looks : part -> part -> Prop :=
  | lk_term h x : looks (E h (Base x [])) (T h x)
  | lk_first h x f fs : looks (E h (Base x (f :: fs))) (T None x)
  | lk_follow h x fs f fs' a : gives (E None (Base x fs)) a -> looks (E h (Base x (fs ++ f :: fs'))) (W a f)
  | lk_or_left h l r : looks (E h (Bin BOr l r)) (E h l)
  | lk_or_right h l r : looks (E h (Bin BOr l r)) (E h r)
  | lk_left h op l r : op <> BOr -> looks (E h (Bin op l r)) (E None l)
  | lk_right h op l r : op <> BOr -> looks (E h (Bin op l r)) (E None r)
  | lk_assign_left h op l r : looks (E h (Assign op l r)) (E None l)
  | lk_assign_right h op l r a : gives (E None l) a -> looks (E h (Assign op l r)) (E (basic_type (x_type a)) r)
  | lk_cond h c a b : looks (E h (Tern c a b)) (E None c)
  | lk_then h c a b : looks (E h (Tern c a b)) (E h a)
  | lk_else h c a b : looks (E h (Tern c a b)) (E h b)
  | lk_paren h e : looks (T h (MExpr e)) (E h e)
  | lk_interp h s ps e s' : In (Some e, s') ps -> looks (T h (MInterp s ps)) (E None e)
  | lk_call n p src exact inherit args e k v : invokes n p src exact inherit args -> In e args -> arg_of e k v -> looks n (E None v)
  | lk_debug h args e : proc_at self_type (lit "SpacemanDMM_debug") = None -> In e args -> looks (T h (MCall (lit "SpacemanDMM_debug") args)) (E None e)
  | lk_list h args e k v : In e args -> arg_of e k v -> looks (T h (MList args)) (E None v)
  | lk_input h args it l e k v : In e args -> arg_of e k v -> looks (T h (MInput args it l)) (E None v)
  | lk_input_in h args it e : looks (T h (MInput args it (Some e))) (E None e)
  | lk_locate h args l e k v : In e args -> arg_of e k v -> looks (T h (MLocate args l)) (E None v)
  | lk_locate_in h args e : looks (T h (MLocate args (Some e))) (E None e)
  | lk_weight h cs w e : In (Some w, e) cs -> looks (T h (MPick cs)) (E None w)
  | lk_choice h cs w e : In (w, e) cs -> looks (T h (MPick cs)) (E None e)
  | lk_dynamic_left h a b e k v : In e a -> arg_of e k v -> looks (T h (MDynCall a b)) (E None v)
  | lk_dynamic_right h a b e k v : In e b -> arg_of e k v -> looks (T h (MDynCall a b)) (E None v)
  | lk_library h l f args : looks (T h (MExtCall (Some l) f args)) (E None l)
  | lk_function h l f args : looks (T h (MExtCall l f args)) (E None f)
  | lk_external h l f args e k v : In e args -> arg_of e k v -> looks (T h (MExtCall l f args)) (E None v)
  | lk_colon a k x args e k' v : with_colon k -> In e args -> arg_of e k' v -> looks (W a (FCall k x args)) (E None v)
  | lk_index a k e : looks (W a (FIndex k e)) (E None e).
Definition looked_at : part -> part -> Prop := clos_refl_trans_1n part looks.

(** ** What is said *)
(** the names for which the two builtin types sleep *)
Inductive waits (ty : nat) : text -> text -> Prop :=
  | wt_client x : path_of t ty = lit "/client" -> (x = lit "SoundQuery" \/ x = lit "MeasureText") -> waits ty x (lit "client." ++ x)
  | wt_world x : path_of t ty = lit "/world" -> (x = lit "Import" \/ x = lit "Export") -> waits ty x (lit "world." ++ x).
Inductive says : part -> event -> Prop :=
  (* names *)
  | sy_var h x : locals x = None -> x <> lit "type" -> var_decl self_type x = None -> says (T h (MIdent x)) (UndefinedVar x)
  | sy_var_type h x d p : locals x = None -> x <> lit "type" -> var_decl self_type x = Some d -> static_type (vd_type d) = Bad p -> says (T h (MIdent x)) (TypeProblem p)
  | sy_global h x : var_decl 0 x = None -> says (T h (MGlobalIdent x)) (UndefinedGlobal x)
  | sy_global_type h x d p : var_decl 0 x = Some d -> static_type (vd_type d) = Bad p -> says (T h (MGlobalIdent x)) (TypeProblem p)
  | sy_path h path vs : type_at path = None -> says (T h (MPrefab path vs)) (BadPath path)
  | sy_new_path h path vs args : type_at path = None -> says (T h (MNewPrefab path vs args)) (BadPath path)
  (* procedures *)
  | sy_proc h x args : proc_at self_type x = None -> x <> lit "__PROC__" -> x <> lit "SpacemanDMM_unlint" -> x <> lit "SpacemanDMM_debug" -> says (T h (MCall x args)) (UndefinedProc x self_type)
  | sy_method a k x args ty : ~ with_colon k -> basic_type (x_type a) = Some ty -> proc_at ty x = None -> says (W a (FCall k x args)) (UndefinedProc x ty)
  | sy_ref a x i : target a i -> proc_at i x = None -> says (W a (FProcRef x)) (UndefinedProc x i)
  | sy_global_proc h x args : proc_at 0 x = None -> says (T h (MGlobalCall x args)) (UndefinedGlobalProc x)
  | sy_no_parent h args : (forall p, parent_proc t size self <> Some (Some p)) -> says (T h (MParentCall args)) NoParent
  | sy_parent h args : says (T h (MParentCall args)) CallsParentProc
  | sy_no_hint args : says (T None (MNewImplicit args)) NoHint
  | sy_no_new_hint i args : proc_at i (lit "New") = None -> ~ In (path_of t i) (map lit ["/list"; "/alist"; "/vector"; "/pixloc"]%string) -> says (T (Some i) (MNewImplicit args)) (NoNew i)
  | sy_no_new h path vs args i : type_at path = Some i -> proc_at i (lit "New") = None -> ~ In (path_of t i) (map lit ["/list"; "/alist"; "/vector"; "/pixloc"]%string) -> says (T h (MNewPrefab path vs args)) (NoNew i)
  | sy_needs_type a k x args : ~ with_colon k -> basic_type (x_type a) = None -> says (W a (FCall k x args)) (CallNeedsType x)
  | sy_operator a op name : overloads op name -> (forall i, x_type a = SType i -> proc_at i name = None) -> x_type a <> SNone -> x_type a <> SProc -> says (W a (FUnary op)) (NoOperator name (x_type a))
  (* fields *)
  | sy_field a k x ty : ~ with_colon k -> basic_type (x_type a) = Some ty -> ~ (path_of t ty = lit "/callee" /\ x = lit "proc") -> var_decl ty x = None -> says (W a (FField k x)) (UndefinedField x (Some ty))
  | sy_proc_field a k x : ~ with_colon k -> x_type a = SProc -> ~ In x var_fields -> says (W a (FField k x)) (UndefinedField x None)
  | sy_field_needs_type a k x : ~ with_colon k -> x_type a = SNone -> says (W a (FField k x)) (FieldNeedsType x)
  | sy_field_type a k x ty d p : ~ with_colon k -> basic_type (x_type a) = Some ty -> ~ (path_of t ty = lit "/callee" /\ x = lit "proc") -> var_decl ty x = Some d -> static_type (vd_type d) = Bad p -> says (W a (FField k x)) (TypeProblem p)
  | sy_private_var a k x ty d : ~ with_colon k -> basic_type (x_type a) = Some ty -> ~ (path_of t ty = lit "/callee" /\ x = lit "proc") -> var_decl ty x = Some d ->
      vd_private d = true -> ty <> self_type -> says (W a (FField k x)) (PrivateVar x ty)
  | sy_protected_var a k x ty d : ~ with_colon k -> basic_type (x_type a) = Some ty -> ~ (path_of t ty = lit "/callee" /\ x = lit "proc") -> var_decl ty x = Some d ->
      ~ (vd_private d = true /\ ty <> self_type) -> vd_protected d = true -> tree_sub t self_type ty = false -> says (W a (FField k x)) (ProtectedVar x ty)
  | sy_index a k e i : x_type a = SType i -> proc_at i (lit "operator[]") = None -> says (W a (FIndex k e)) (BadIndex i)
  | sy_static_field a x i : target a i -> var_decl i x = None -> says (W a (FStaticField x)) (UndefinedField x (Some i))
  | sy_static_type a x i d p : target a i -> var_decl i x = Some d -> static_type (vd_type d) = Bad p -> says (W a (FStaticField x)) (TypeProblem p)
  | sy_no_typepath a f x : (f = FStaticField x \/ f = FProcRef x) -> basic_type (x_type a) = None -> x_val a = None -> says (W a f) (NoTypepath x)
  | sy_not_typepath a f x v : (f = FStaticField x \/ f = FProcRef x) -> basic_type (x_type a) = None -> x_val a = Some v -> (forall p, v <> VPath p) -> says (W a f) (NotTypepath x)
  | sy_no_such_typepath a f x p : (f = FStaticField x \/ f = FProcRef x) -> basic_type (x_type a) = None -> x_val a = Some (VPath p) -> find t (render p) = None -> says (W a f) (NoSuchTypepath p)
  (* calls *)
  | sy_call n p src exact inherit args ks : invokes n p src exact inherit args -> Forall2 (fun e k => exists v, arg_of e k v) args ks -> says n (Calls p src exact inherit new_context ks)
  | sy_private n p src exact inherit args q l : invokes n p src exact inherit args -> closed self_type p q l -> says n (Trespass (CallsPrivate L q l))
  | sy_closed a k x args ty p q l : ~ with_colon k -> basic_type (x_type a) = Some ty -> proc_at ty x = Some p -> closed ty p q l -> says (W a (FCall k x args)) (Trespass (CallsPrivate L q l))
  | sy_protected a k x args p src q l : invokes (W a (FCall k x args)) p src false false args -> get_self_or_parent t (e_protected rules) p = Some (q, true, l) -> tree_sub t self_type (pr_ty q) = false ->
      says (W a (FCall k x args)) (Trespass (CallsProtected L q l))
  | sy_find n p src exact inherit : invokes n p src exact inherit [] -> builtin p = true -> pr_name p = lit "Find" -> (path_of t (pr_ty p) = lit "/list" \/ path_of t (pr_ty p) = lit "/alist") -> says n EmptyFind
  | sy_filter n p src exact inherit args gs e : invokes n p src exact inherit args -> Forall2 (fun e g => arg_of e (ga_name g) (ga_expr g)) args gs ->
      (forall g, In g gs -> gives (E None (ga_expr g)) (ga_ana g)) -> is_global p "filter" -> fault (map (to_filter) gs) e -> says n (FilterError e)
  | sy_return n p src exact inherit args gs e x : invokes n p src exact inherit args -> Forall2 (fun e g => arg_of e (ga_name g) (ga_expr g)) args gs ->
      (forall g, In g gs -> gives (E None (ga_expr g)) (ga_ana g)) -> ordinary p gs -> filter_known p gs -> (path_of t (pr_ty p) <> [] \/ builtin p = false) -> returns p = Some e ->
      evaluate t list_type (context_of (map (to_types) gs)) e = Bad x -> says n (TypeProblem x)
  (* sleeping *)
  | sy_sleep h x args : new_context = false -> In x (map lit ["sleep"; "alert"; "shell"; "winexists"; "winget"]%string) -> says (T h (MCall x args)) (Sleeps x)
  | sy_input h args it l : new_context = false -> says (T h (MInput args it l)) (Sleeps (lit "input"))
  | sy_waits h x args w : new_context = false -> waits self_type x w -> says (T h (MCall x args)) (Sleeps w)
  | sy_waits_on a k x args ty w : new_context = false -> ~ with_colon k -> basic_type (x_type a) = Some ty -> waits ty x w -> says (W a (FCall k x args)) (Sleeps w)
  (* purity *)
  | sy_assign h op l r a : gives (E None l) a -> x_impure a = true -> says (E h (Assign op l r)) (Impure (lit "Assignment on purity breaking expression"))
  | sy_increment a op name : overloads op name -> x_impure a = true -> says (W a (FUnary op)) (Impure (name ++ lit " done on non-local var"))
  | sy_shift_mob h l r a : gives (E None l) a -> x_type a = SType (expect t "/mob") -> says (E h (Bin BLShift l r)) (Impure (lit "LShift onto mob"))
  | sy_shift_savefile h l r a : gives (E None l) a -> x_type a = SType (expect t "/savefile") -> expect t "/savefile" <> expect t "/mob" -> says (E h (Bin BLShift l r)) (Impure (lit "LShift onto savefile"))
  | sy_shift_list h l r a : gives (E None l) a -> x_type a = SType list_type -> list_type <> expect t "/mob" -> list_type <> expect t "/savefile" -> says (E h (Bin BLShift l r)) (Impure (lit "LShift onto list"))
  (* operators that may not mean what they look like *)
  | sy_in_unary h x fs1 op fs2 r : (forall op', ~ In (FUnary op') fs1) -> says (E h (Bin BIn (Base x (fs1 ++ FUnary op :: fs2)) r)) (AmbiguousIn (Some op))
  | sy_in h l r : (forall x fs, l <> Base x fs) -> says (E h (Bin BIn l r)) (AmbiguousIn None)
  | sy_not h op x fs r : In op [BBitAnd; BBitOr; BBitXor] -> In (FUnary Not) fs -> says (E h (Bin op (Base x fs) r)) (AmbiguousNot op).
End SPEC.
Arguments declares {V D}. Arguments E {F}. Arguments T {F}. Arguments W {F}. Arguments arg_of {F}. Arguments args_of {F}. Arguments closed {V D L}. Arguments invokes {F V D L}. Arguments creates {F}. Arguments is_global {V D}.
Arguments plain {F}. Arguments ordinary {F V D}. Arguments filter_known {F V D}. Arguments builtin_result {V D}. Arguments result {F V D}. Arguments var_type {V D}. Arguments path_to {V D}. Arguments target {V D}. Arguments listlike {V D}. Arguments kind_of {V D}.
Arguments gives {F V D L}. Arguments looks {F V D L}. Arguments looked_at {F V D L}. Arguments waits {V D}. Arguments says {F V D L}.
