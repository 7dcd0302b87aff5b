(** What the references of a symbol are (C73), said rule by rule: what a name stands for, which parts of an expression and of a procedure are
    looked at and with which variables, and which symbol each of them uses. *)
From Coq Require Import List Arith NArith ZArith Bool String Relations.
From Verif Require Import Common.Text Objtree.Model Objtree.Spec Parse.Ast Stmt.Ast Checker.CallTree Checker.Kwargs Checker.TypeExpr Checker.Exprs Checker.ExprsSpec Checker.Stmts Checker.StmtsSpec Lsp.References.
Import ListNotations.
Open Scope nat_scope.

Section SPEC.
Variables F V D : Type.
Notation stmt := (stmt F). Notation expr := (expr F). Notation term := (term F). Notation follow := (follow F).
Variable t : objtree V D.
Variable vars : nat -> list (text * rvar F).
Notation size := (List.length (graph t)).
Notation list_type := (expect t "/list").

(** ** Names *)
(** The variable [x] of type [i] is declared in type [j], with this type. *)
Definition declares (i : nat) (x : text) (j : nat) (path : list text) : Prop :=
  nearest t (fun k => match get x (vars k) with Some v => match rv_decl v with Some p => Some (k, p) | None => None end | None => None end) i (Some (j, path)).
(** The procedure [x] of type [i] is declared in type [j]; there is one *)
Definition declares_proc (i : nat) (x : text) (j : nat) : Prop :=
  nearest t (fun k => match procs_of t k x with Some p => match p_decl p with Some _ => Some k | None => None end | None => None end) i (Some j).
Definition has_proc (i : nat) (x : text) : Prop := exists j p, subtype t i j /\ procs_of t j x = Some p.
(** The type that is written like this *)
Definition flag (w : text) : Prop := In w (map lit ["static"; "global"; "const"; "tmp"; "final"; "SpacemanDMM_final"; "SpacemanDMM_private"; "SpacemanDMM_protected"]%string).
Inductive written : list text -> sty -> Prop :=
  | wr_none : written [] SNone
  | wr_flag w rest s : flag w -> written rest s -> written (w :: rest) s
  | wr_list rest s : written rest s -> written (lit "list" :: rest) (SList list_type s)
  | wr_type w rest i : ~ flag w -> w <> lit "list" -> at_ t i (w :: rest) -> written (w :: rest) (SType i)
  | wr_unknown w rest : ~ flag w -> w <> lit "list" -> (forall i, ~ at_ t i (w :: rest)) -> written (w :: rest) SNone.
(** the types in it *)
Inductive mentions : sty -> nat -> Prop :=
  | mn_type i : mentions (SType i) i
  | mn_list l k : mentions (SList l k) l
  | mn_keys l k i : mentions k i -> mentions (SList l k) i.

(** ** Expressions *)
Inductive part : Type := E (hint : option nat) (e : expr) | T (hint : option nat) (x : term) | W (before : sty) (f : follow).
Definition spot_of (n : part) : option (spot F) := match n with E _ _ => None | T _ x => Some (AtTerm x) | W _ f => Some (AtFollow f) end.
Section EXPR.
Variable ty : nat.
Variable proc : option procref.
Variable locals : scope.

(** What a name stands for: a variable of the procedure, or one of the type *)
Inductive refers (x : text) : sty -> symbol -> Prop :=
  | rf_local s sym : get x locals = Some (s, sym) -> refers x s sym
  | rf_var j path s : get x locals = None -> declares ty x j path -> written path s -> refers x s (SVar j x).
Inductive member (s : sty) (x : text) : sty -> symbol -> Prop :=
  | mb_var i j path s' : basic_type s = Some i -> declares i x j path -> written path s' -> member s x s' (SVar j x).
(** [x.a.b], as it is written after [new] *)
Inductive fields (x : text) : list (propkind * text) -> sty -> Prop :=
  | fl_nil s sym : refers x s sym -> fields x [] s
  | fl_snoc fs s k y s' sym : fields x fs s -> member s y s' sym -> fields x (fs ++ [(k, y)]) s'.
(** Where a path leads *)
Definition leads_to_type (path : list (pathop * text)) (i : nat) : Prop := navigate_path t size ty path = Some (Some (NType i)) \/ exists b, navigate_path t size ty path = Some (Some (NGroup i b)).
Definition leads_to_proc (path : list (pathop * text)) (p : procref) : Prop := exists b, navigate_path t size ty path = Some (Some (NProc p b)).
Definition leads (path : list (pathop * text)) (i : nat) : Prop := leads_to_type path i \/ exists p, leads_to_proc path p /\ pr_ty p = i.
Inductive has_path : term -> list (pathop * text) -> list (text * expr) -> Prop :=
  | hp_prefab path vs : has_path (MPrefab path vs) path vs
  | hp_new path vs args : has_path (MNewPrefab path vs args) path vs.

(** The type of a part *)
Inductive untyped : term -> Prop :=
  | un_null : untyped MNull | un_int z : untyped (MInt z) | un_float f : untyped (MFloat f) | un_string s : untyped (MString s) | un_resource s : untyped (MResource s) | un_as n : untyped (MAs n)
  | un_prefab p vs : untyped (MPrefab p vs) | un_interp s ps : untyped (MInterp s ps) | un_call x l : untyped (MCall x l) | un_self l : untyped (MSelfCall l) | un_parent l : untyped (MParentCall l)
  | un_mini x fs l : untyped (MNewMini x fs l) | un_locate l o : untyped (MLocate l o) | un_input l n o : untyped (MInput l n o) | un_pick cs : untyped (MPick cs) | un_dynamic a b : untyped (MDynCall a b)
  | un_external l f a : untyped (MExtCall l f a) | un_global_call x l : untyped (MGlobalCall x l) | un_type : untyped MType | un_proc : untyped MProc.
Inductive gives : part -> sty -> Prop :=
  | gv_base h x s : gives (T h x) s -> gives (E h (Base x [])) s
  | gv_follow h x fs f s s' : gives (E None (Base x fs)) s -> gives (W s f) s' -> gives (E h (Base x (fs ++ [f]))) s'
  | gv_binary h op l r : gives (E h (Bin op l r)) SNone
  | gv_assign h op l r s s' : gives (E None l) s -> gives (E (basic_type s) r) s' -> gives (E h (Assign op l r)) s'
  | gv_ternary h c a b s : gives (E h a) s -> gives (E h (Tern c a b)) s
  | gv_name h x s sym : refers x s sym -> gives (T h (MIdent x)) s
  | gv_unknown h x : (forall s sym, ~ refers x s sym) -> gives (T h (MIdent x)) SNone
  | gv_global h x j path s : declares 0 x j path -> written path s -> gives (T h (MGlobalIdent x)) s
  | gv_no_global h x : (forall j path, ~ declares 0 x j path) -> gives (T h (MGlobalIdent x)) SNone
  | gv_paren h e s : gives (E h e) s -> gives (T h (MExpr e)) s
  | gv_list h l : gives (T h (MList l)) (SList list_type SNone)
  | gv_new i l : gives (T (Some i) (MNewImplicit l)) (SType i)
  | gv_new_unknown l : gives (T None (MNewImplicit l)) SNone
  | gv_new_path h path vs l i : leads path i -> gives (T h (MNewPrefab path vs l)) (SType i)
  | gv_new_nowhere h path vs l : (forall i, ~ leads path i) -> gives (T h (MNewPrefab path vs l)) SNone
  | gv_implied i : gives (T (Some i) MImplied) (SType i)
  | gv_not_implied : gives (T None MImplied) SNone
  | gv_untyped h x : untyped x -> gives (T h x) SNone
  | gv_field s f x s' sym : (exists k, f = FField k x) \/ f = FStaticField x -> member s x s' sym -> gives (W s f) s'
  | gv_no_field s f x : (exists k, f = FField k x) \/ f = FStaticField x -> (forall s' sym, ~ member s x s' sym) -> gives (W s f) SNone
  | gv_index k l keys e : gives (W (SList l keys) (FIndex k e)) keys
  | gv_no_index s k e : (forall l keys, s <> SList l keys) -> gives (W s (FIndex k e)) SNone
  | gv_unary s op : gives (W s (FUnary op)) SNone
  | gv_call s k x l : gives (W s (FCall k x l)) SNone
  | gv_ref s x : gives (W s (FProcRef x)) SNone.

(** Calls whose arguments are looked at *)
Inductive called : part -> list expr -> Prop :=
  | cl_plain h x l : has_proc ty x -> called (T h (MCall x l)) l
  | cl_self h l p : proc = Some p -> called (T h (MSelfCall l)) l
  | cl_parent h l p q : proc = Some p -> parent_proc t size p = Some (Some q) -> called (T h (MParentCall l)) l
  | cl_global h x l : called (T h (MGlobalCall x l)) l
  | cl_new i l : has_proc i (lit "New") -> called (T (Some i) (MNewImplicit (Some l))) l
  | cl_new_path h path vs l i : leads path i -> has_proc i (lit "New") -> called (T h (MNewPrefab path vs (Some l))) l
  | cl_list h l : called (T h (MList l)) l
  | cl_locate h l o : called (T h (MLocate l o)) l
  | cl_input h l n o : called (T h (MInput l n o)) l
  | cl_dynamic h a b : called (T h (MDynCall a b)) a
  | cl_dynamic_args h a b : called (T h (MDynCall a b)) b
  | cl_external h o f l : called (T h (MExtCall o f l)) l
  | cl_method s k x l : called (W s (FCall k x l)) l.
Inductive looks : part -> part -> Prop :=
  | lk_term h x : looks (E h (Base x [])) (T h x)
  | lk_first h x f fs : looks (E h (Base x (f :: fs))) (T None x)
  | lk_follow h x fs f fs' s : gives (E None (Base x fs)) s -> looks (E h (Base x (fs ++ f :: fs'))) (W s f)
  | lk_or h l r e : e = l \/ e = r -> looks (E h (Bin BOr l r)) (E h e)
  | lk_binary h op l r e : op <> BOr -> e = l \/ e = r -> looks (E h (Bin op l r)) (E None e)
  | lk_assign_left h op l r : looks (E h (Assign op l r)) (E None l)
  | lk_assign_right h op l r s : gives (E None l) s -> looks (E h (Assign op l r)) (E (basic_type s) r)
  | lk_cond h c a b : looks (E h (Tern c a b)) (E None c)
  | lk_branch h c a b e : e = a \/ e = b -> looks (E h (Tern c a b)) (E h e)
  | lk_paren h e : looks (T h (MExpr e)) (E h e)
  | lk_interp h s ps e s' : In (Some e, s') ps -> looks (T h (MInterp s ps)) (E None e)
  | lk_arg n l e k v : called n l -> In e l -> arg_of e k v -> looks n (E None v)
  | lk_set h x path vs i y e j p s : has_path x path vs -> leads_to_type path i -> In (y, e) vs -> declares i y j p -> written p s -> looks (T h x) (E (basic_type s) e)
  | lk_set_unknown h x path vs i y e : has_path x path vs -> leads_to_type path i -> In (y, e) vs -> (forall j p, ~ declares i y j p) -> looks (T h x) (E None e)
  | lk_locate_in h l e : looks (T h (MLocate l (Some e))) (E None e)
  | lk_input_in h l n e : looks (T h (MInput l n (Some e))) (E None e)
  | lk_weight h cs w e : In (Some w, e) cs -> looks (T h (MPick cs)) (E None w)
  | lk_choice h cs w e : In (w, e) cs -> looks (T h (MPick cs)) (E None e)
  | lk_library h e f l : looks (T h (MExtCall (Some e) f l)) (E None e)
  | lk_function h o f l : looks (T h (MExtCall o f l)) (E None f)
  | lk_index s k e : looks (W s (FIndex k e)) (E None e).
Definition looked_at : part -> part -> Prop := clos_refl_trans_1n part looks.

(** The symbol that a part uses *)
Inductive uses : part -> symbol -> Prop :=
  | us_name h x s sym : refers x s sym -> uses (T h (MIdent x)) sym
  | us_mini h x fs l s sym : refers x s sym -> uses (T h (MNewMini x fs l)) sym
  | us_mini_field h x fs k y fs' l s s' sym : fields x fs s -> member s y s' sym -> uses (T h (MNewMini x (fs ++ (k, y) :: fs') l)) sym
  | us_field s f x s' sym : (exists k, f = FField k x) \/ f = FStaticField x -> member s x s' sym -> uses (W s f) sym
  | us_global h x j path : declares 0 x j path -> uses (T h (MGlobalIdent x)) (SVar j x)
  | us_call h x l j : declares_proc ty x j -> uses (T h (MCall x l)) (SProcDecl j x)
  | us_global_call h x l j : declares_proc 0 x j -> uses (T h (MGlobalCall x l)) (SProcDecl j x)
  | us_method s k x l i j : basic_type s = Some i -> declares_proc i x j -> uses (W s (FCall k x l)) (SProcDecl j x)
  | us_ref s x i j : basic_type s = Some i -> declares_proc i x j -> uses (W s (FProcRef x)) (SProcDecl j x)
  | us_path h x path vs i : has_path x path vs -> leads_to_type path i -> uses (T h x) (STyp i)
  | us_set h x path vs i y e j p : has_path x path vs -> leads_to_type path i -> In (y, e) vs -> declares i y j p -> uses (T h x) (SVar j y)
  | us_proc_path h x path vs p j : has_path x path vs -> leads_to_proc path p -> declares_proc (pr_ty p) (pr_name p) j -> uses (T h x) (SProcDecl j (pr_name p))
  | us_type h : uses (T h MType) (STyp ty)
  | us_proc h p j : proc = Some p -> declares_proc ty (pr_name p) j -> uses (T h MProc) (SProcDecl j (pr_name p))
  | us_implied i : uses (T (Some i) MImplied) (STyp i).
(** All that an expression uses, and where *)
Definition expr_uses (hint : option nat) (e : expr) (sym : symbol) (sp : spot F) : Prop := exists n, looked_at (E hint e) n /\ spot_of n = Some sp /\ uses n sym.
End EXPR.

(** ** Statements *)
Section PROC.
Variable self : procref.
Notation self_type := (pr_ty self).
(** A declaration is a name and how its type is written.  The [n]-th variable of a procedure has the symbol [SLocal self n]. *)
Definition decl : Type := (text * list text)%type.
Inductive declared (l : scope) : decl -> scope -> Prop :=
  | dl_here x path s : written path s -> declared l (x, path) ((x, (s, SLocal self (List.length l))) :: l).
Inductive all_declared : scope -> list decl -> scope -> Prop :=
  | ad_nil l : all_declared l [] l
  | ad_cons l d l1 ds l2 : declared l d l1 -> all_declared l1 ds l2 -> all_declared l (d :: ds) l2.
Definition maybe (ty : option vartype) (x : text) : list decl := match ty with Some ty => [(x, v_path ty)] | None => [] end.
Definition of_var (d : vardecl F) : decl := (v_name d, v_path (v_type d)).
Definition block_of (o : option (list stmt)) : list stmt := match o with Some b => b | None => [] end.
Definition catch_decls (ps : list (list text)) : list decl := flat_map (fun p => match caught p with Some d => [d] | None => [] end) ps.
(** All that a statement declares, with what is in it, in the order in which it counts: nothing goes out of scope before the end of the
    procedure.  (What [caught] says of the parameters of catch: C73_catch.) *)
Fixpoint decls (s : stmt) : list decl :=
  match s with
  | Var d => [of_var d]
  | Vars ds => map of_var ds
  | While _ b | DoWhile b _ | ForInfinite b | Spawn _ b | Label _ b => flat_map decls b
  | If arms els => flat_map (fun a => flat_map decls (snd a)) arms ++ match els with Some b => flat_map decls b | None => [] end
  | Switch _ cases els => flat_map (fun a => flat_map decls (snd a)) cases ++ match els with Some b => flat_map decls b | None => [] end
  | ForLoop init _ inc b => match init with Some s' => decls s' | None => [] end ++ match inc with Some s' => decls s' | None => [] end ++ flat_map decls b
  | ForList ty x _ _ b | ForRange ty x _ _ _ b => maybe ty x ++ flat_map decls b
  | ForKeyValue ty k _ v _ b => maybe ty k ++ (v, []) :: flat_map decls b
  | TryCatch b ps h => flat_map decls b ++ catch_decls ps ++ flat_map decls h
  | _ => []
  end.
Definition block_decls (b : list stmt) : list decl := flat_map decls b.
Definition part_decls (o : option stmt) : list decl := match o with Some s => decls s | None => [] end.
Definition arms_decls {A : Type} (arms : list (A * list stmt)) : list decl := flat_map (fun a => block_decls (snd a)) arms.

(** blocks, statements, and expressions with the type that is expected there; the variables that there are *)
Inductive item : Type := IB (l : scope) (b : list stmt) | IS (l : scope) (s : stmt) | IE (l : scope) (h : option nat) (e : expr).
(** The statement, before which there are the variables [l], declares [x] itself, when there are [l']; perhaps with a value. *)
Inductive introduces (l : scope) : stmt -> scope -> decl -> option expr -> Prop :=
  | it_var d : introduces l (Var d) l (of_var d) (v_value d)
  | it_vars ds1 d ds2 l' : all_declared l (map of_var ds1) l' -> introduces l (Vars (ds1 ++ d :: ds2)) l' (of_var d) (v_value d)
  | it_list ty x it o b : introduces l (ForList (Some ty) x it o b) l (x, v_path ty) None
  | it_range ty x a e o b : introduces l (ForRange (Some ty) x a e o b) l (x, v_path ty) (Some a)
  | it_key ty k it v o b : introduces l (ForKeyValue (Some ty) k it v o b) l (k, v_path ty) None
  | it_value ty k it v o b l' : all_declared l (maybe ty k) l' -> introduces l (ForKeyValue ty k it v o b) l' (v, []) None
  | it_catch b ps1 p ps2 h path x l' : all_declared l (block_decls b ++ catch_decls ps1) l' -> catches p path x -> introduces l (TryCatch b (ps1 ++ p :: ps2) h) l' (x, path) None.
Inductive inside : item -> item -> Prop :=
  | in_block l b1 s b2 l' : all_declared l (block_decls b1) l' -> inside (IB l (b1 ++ s :: b2)) (IS l' s)
  | in_value l s l' x path e sy : introduces l s l' (x, path) (Some e) -> written path sy -> inside (IS l s) (IE l' (basic_type sy) e)
  | in_expr l e s : s = Expr e \/ s = Throw e \/ s = Del e \/ s = Return (Some e) -> inside (IS l s) (IE l None e)
  | in_while l c b : inside (IS l (While c b)) (IE l None c)
  | in_while_body l c b : inside (IS l (While c b)) (IB l b)
  | in_do l b c : inside (IS l (DoWhile b c)) (IB l b)
  | in_do_cond l b c l' : all_declared l (block_decls b) l' -> inside (IS l (DoWhile b c)) (IE l' None c)
  | in_if l a1 c b a2 els l' : all_declared l (arms_decls a1) l' -> inside (IS l (If (a1 ++ (c, b) :: a2) els)) (IE l' None c)
  | in_then l a1 c b a2 els l' : all_declared l (arms_decls a1) l' -> inside (IS l (If (a1 ++ (c, b) :: a2) els)) (IB l' b)
  | in_else l arms b l' : all_declared l (arms_decls arms) l' -> inside (IS l (If arms (Some b))) (IB l' b)
  | in_forever l b : inside (IS l (ForInfinite b)) (IB l b)
  | in_init l s test inc b : inside (IS l (ForLoop (Some s) test inc b)) (IS l s)
  | in_test l init e inc b l' : all_declared l (part_decls init) l' -> inside (IS l (ForLoop init (Some e) inc b)) (IE l' None e)
  | in_inc l init test s b l' : all_declared l (part_decls init) l' -> inside (IS l (ForLoop init test (Some s) b)) (IS l' s)
  | in_for_body l init test inc b l' : all_declared l (part_decls init ++ part_decls inc) l' -> inside (IS l (ForLoop init test inc b)) (IB l' b)
  | in_list l ty x it e b : inside (IS l (ForList ty x it (Some e) b)) (IE l None e)
  | in_list_body l ty x it o b l' : all_declared l (maybe ty x) l' -> inside (IS l (ForList ty x it o b)) (IB l' b)
  | in_range_end l ty x a e o b : inside (IS l (ForRange ty x a e o b)) (IE l None e)
  | in_range_step l ty x a e s b : inside (IS l (ForRange ty x a e (Some s) b)) (IE l None s)
  | in_range_body l ty x a e o b l' : all_declared l (maybe ty x) l' -> inside (IS l (ForRange ty x a e o b)) (IB l' b)
  | in_pairs l ty k it v e b : inside (IS l (ForKeyValue ty k it v (Some e) b)) (IE l None e)
  | in_pairs_body l ty k it v o b l' : all_declared l (maybe ty k ++ [(v, [])]) l' -> inside (IS l (ForKeyValue ty k it v o b)) (IB l' b)
  | in_delay l e b : inside (IS l (Spawn (Some e) b)) (IE l None e)
  | in_spawn l o b : inside (IS l (Spawn o b)) (IB l b)
  | in_switch l e cases d : inside (IS l (Switch e cases d)) (IE l None e)
  | in_case l e c1 cs b c2 d l' c v : all_declared l (arms_decls c1) l' -> In c cs -> value_in c v -> inside (IS l (Switch e (c1 ++ (cs, b) :: c2) d)) (IE l' None v)
  | in_case_body l e c1 cs b c2 d l' : all_declared l (arms_decls c1) l' -> inside (IS l (Switch e (c1 ++ (cs, b) :: c2) d)) (IB l' b)
  | in_default l e cases b l' : all_declared l (arms_decls cases) l' -> inside (IS l (Switch e cases (Some b))) (IB l' b)
  | in_try l b ps h : inside (IS l (TryCatch b ps h)) (IB l b)
  | in_catch l b ps h l' : all_declared l (block_decls b ++ catch_decls ps) l' -> inside (IS l (TryCatch b ps h)) (IB l' h)
  | in_label l x b : inside (IS l (Label x b)) (IB l b).
Definition within : item -> item -> Prop := clos_refl_trans_1n item inside.
(** What a statement uses itself, and an expression *)
Inductive item_uses : item -> symbol -> spot F -> Prop :=
  | iu_return l o s sym : get (lit ".") l = Some (s, sym) -> item_uses (IS l (Return o)) sym (AtStmt (Return o))
  | iu_new l s l' d o : introduces l s l' d o -> item_uses (IS l s) (SLocal self (List.length l')) (AtStmt s)
  | iu_type l s l' x path o sy i : introduces l s l' (x, path) o -> written path sy -> mentions sy i -> item_uses (IS l s) (STyp i) (AtStmt s)
  | iu_expr l h e sym sp : expr_uses self_type (Some self) l h e sym sp -> item_uses (IE l h e) sym sp.
Definition block_uses (l : scope) (b : list stmt) (sym : symbol) (sp : spot F) : Prop := exists i, within (IB l b) i /\ item_uses i sym sp.

(** ** Procedures *)
(** The variables that there are from the start, and the types they have *)
Definition params_decls (ps : list (rparam F)) : list decl := map (fun q => (rp_name q, rp_path q)) ps.
Inductive starts : scope -> Prop :=
  | st_root : path_of t self_type = [] ->
      starts [(lit "usr", (SType (expect t "/mob"), SLocal self 3)); (lit "args", (SType list_type, SLocal self 2)); (lit ".", (SNone, SLocal self 1)); (lit "global", (SType 0, STyp 0))]
  | st_type : path_of t self_type <> [] ->
      starts [(lit "src", (SType self_type, SLocal self 4)); (lit "usr", (SType (expect t "/mob"), SLocal self 3)); (lit "args", (SType list_type, SLocal self 2)); (lit ".", (SNone, SLocal self 1)); (lit "global", (SType 0, STyp 0))].
Inductive proc_uses (ps : list (rparam F)) (b : list stmt) : symbol -> spot F -> Prop :=
  | pu_start l x s n : starts l -> In (x, (s, SLocal self n)) l -> proc_uses ps b (SLocal self n) AtProc
  | pu_param l ps1 q ps2 l' : starts l -> ps = ps1 ++ q :: ps2 -> all_declared l (params_decls ps1) l' -> proc_uses ps b (SLocal self (List.length l')) (AtParam q)
  | pu_type q s i : In q ps -> written (rp_path q) s -> mentions s i -> proc_uses ps b (STyp i) (AtParam q)
  | pu_default l ps1 q ps2 l' e sym sp : starts l -> ps = ps1 ++ q :: ps2 -> all_declared l (params_decls ps1) l' -> rp_default q = Some e -> expr_uses self_type (Some self) l' None e sym sp -> proc_uses ps b sym sp
  | pu_body l l' sym sp : starts l -> all_declared l (params_decls ps) l' -> block_uses l' b sym sp -> proc_uses ps b sym sp.
End PROC.

(** ** The whole tree *)
Variable proc_code : V -> list (rparam F) * option (list stmt).
Definition valid (i : nat) : Prop := exists n, nth_error (graph t) i = Some n.
(** The [k]-th value of the procedure [x] of type [i] *)
Definition value_of (p : procref) (v : V) : Prop := exists n q, nth_error (graph t) (pr_ty p) = Some n /\ In (pr_name p, q) (n_procs n) /\ nth_error (p_values q) (snd p) = Some v.
(** the type of the variable [x] of type [i] *)
Definition var_hint (i : nat) (x : text) (h : option nat) : Prop :=
  (exists j path s, declares i x j path /\ written path s /\ h = basic_type s) \/ ((forall j path, ~ declares i x j path) /\ h = None).
Inductive reference (sym : symbol) : owner * spot F -> Prop :=
  | rf_value i x v e h sp : valid i -> In (x, v) (vars i) -> rv_value v = Some e -> var_hint i x h ->
      expr_uses i None [(lit "global", (SType 0, STyp 0))] h e sym sp -> reference sym (InVar i x, sp)
  | rf_proc p v ps b sp : value_of p v -> proc_code v = (ps, Some b) -> proc_uses p ps b sym sp -> reference sym (InProc p, sp).
Inductive implementation : symbol -> impl -> Prop :=
  | im_type i : valid i -> implementation (STyp i) (OfType i)
  | im_var i x v j path : valid i -> In (x, v) (vars i) -> declares i x j path -> implementation (SVar j x) (OfVar i x)
  | im_proc i n x q j : nth_error (graph t) i = Some n -> In (x, q) (n_procs n) -> declares_proc i x j -> implementation (SProcDecl j x) (OfProc i x).

(** ** What is missed *)
(** what is in the body of a procedure (Checker/StmtsSpec.v, [part]) and not looked at *)
Definition code_in (i : item) : code F := match i with IB _ b => CB b | IS _ s => CS s | IE _ _ e => CE e end.
Inductive missed : code F -> code F -> Prop :=
  | ms_crash e : missed (CS (Crash (Some e))) (CE e)
  | ms_start x a e o b : missed (CS (ForRange None x a e o b)) (CE a)
  | ms_setting x m v : missed (CS (Setting x m v)) (CE v).
End SPEC.
Arguments E {F}. Arguments T {F}. Arguments W {F}. Arguments IB {F}. Arguments IS {F}. Arguments IE {F}.
