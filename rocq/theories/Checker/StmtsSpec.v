(** What the body of a procedure means to the checker, said rule by rule: which statements and expressions are looked at, which variables
    there are at each of them, whether they run in a context of their own, and what is said about each of them.  The control flow is that
    of Flow/Model.v (C54), what is said about an expression is in Checker/ExprsSpec.v (C69). *)
From Coq Require Import List Arith NArith ZArith Bool String Relations.
From Verif Require Import Common.Text Objtree.Model Parse.Ast Stmt.Ast Checker.CallTree Checker.Kwargs Checker.Directives Checker.TypeExpr Checker.Filters Checker.Exprs Checker.ExprsSpec Checker.Stmts.
From Verif Require Flow.Model.
Import ListNotations.
Open Scope nat_scope.

(** ** The statements as Flow/Model.v has them *)
Section ERASE.
Variable F : Type.
Notation stmt := (stmt F).
Notation fstmt := (Flow.Model.stmt F unit).
Section WITH.
Variable f : stmt -> fstmt.
Fixpoint erase_list (b : list stmt) : Flow.Model.block F unit :=
  match b with [] => Flow.Model.End | s :: b' => Flow.Model.Then tt (f s) (erase_list b') end.
Fixpoint erase_arms (a : list (expr F * list stmt)) : Flow.Model.arms F unit :=
  match a with [] => Flow.Model.NoArm | (c, b) :: a' => Flow.Model.Arm tt c (erase_list b) (erase_arms a') end.
Fixpoint erase_cases (a : list (list (case F) * list stmt)) : Flow.Model.cases F unit :=
  match a with [] => Flow.Model.NoCase | (_, b) :: a' => Flow.Model.Case (erase_list b) (erase_cases a') end.
Definition erase_option (o : option (list stmt)) : Flow.Model.option_block F unit :=
  match o with Some b => Flow.Model.SomeBlock (erase_list b) | None => Flow.Model.NoBlock end.
End WITH.
Definition erase_part (s : stmt) : Flow.Model.simple :=
  match s with Return _ => Flow.Model.Returning | Throw _ => Flow.Model.Throwing | Goto x => Flow.Model.Going x | _ => Flow.Model.Simply end.
Fixpoint erase (s : stmt) : fstmt :=
  match s with
  | Expr _ | Var _ | Vars _ | Setting _ _ _ | Del _ => Flow.Model.Plain
  | Return _ => Flow.Model.Return
  | Crash _ => Flow.Model.Crash
  | Throw _ => Flow.Model.Throw
  | While c b => Flow.Model.While c (erase_list erase b)
  | DoWhile b c => Flow.Model.DoWhile (erase_list erase b) c
  | If arms els => Flow.Model.If (erase_arms erase arms) (erase_option erase els)
  | ForInfinite b => Flow.Model.ForInfinite (erase_list erase b)
  | ForLoop init test inc b => Flow.Model.ForLoop (option_map erase_part init) test (option_map erase_part inc) (erase_list erase b)
  | ForList _ _ _ _ b | ForKeyValue _ _ _ _ _ b => Flow.Model.ForEach (erase_list erase b)
  | ForRange _ _ a e step b => Flow.Model.ForRange a e step (erase_list erase b)
  | Spawn _ b => Flow.Model.Spawn (erase_list erase b)
  | Switch _ cases default => Flow.Model.Switch (erase_cases erase cases) (erase_option erase default)
  | TryCatch b _ h => Flow.Model.TryCatch (erase_list erase b) (erase_list erase h)
  | Continue x => Flow.Model.Continue x
  | Break x => Flow.Model.Break x
  | Goto x => Flow.Model.Goto x
  | Label x b => Flow.Model.Label x (erase_list erase b)
  end.
Definition erase_block : list stmt -> Flow.Model.block F unit := erase_list erase.
End ERASE.
Arguments erase {F}. Arguments erase_block {F}. Arguments erase_list {F}. Arguments erase_arms {F}. Arguments erase_cases {F}. Arguments erase_option {F}. Arguments erase_part {F}.

Section SPEC.
Variables F V D L : Type.
Variable f_zero : F -> bool.
Variable t : objtree V D.
Variable rules : env L.
Variable pure_rules : entries L.
Variable rets : procref -> option texpr.
Variable vars : nat -> list (text * option vdecl).
Variable builtin : procref -> bool.
Variable kind : D -> text.
Variable self : procref.
Notation self_type := (pr_ty self).
Notation stmt := (stmt F). Notation expr := (expr F).
Notation list_type := (expect t "/list").
Notation sevent := (sevent F L).

Definition flow_of (b : list stmt) : flow := fst (Flow.Model.visit_block f_zero Flow.Model.allfalse (erase_block b)).
(** nothing comes after these statements *)
Definition stops (b : list stmt) : Prop := Flow.Model.terminates (flow_of b) = true.
(** the loop ends with its first round *)
Definition once (b : list stmt) : Prop := Flow.Model.terminates_loop (flow_of b) = true.
Definition sure (e : expr) (b : bool) : Prop := Flow.Model.is_truthy f_zero e = Some b.

(** ** The variables *)
Definition value_of_expr (l : scope) (h : option nat) (e : expr) (a : ana) : Prop := gives t rules rets vars builtin kind self (fun x => get x l) (E h e) a.
(** [var/path/x = value] *)
Inductive declared (l : scope) (path : list text) (x : text) : option expr -> scope -> Prop :=
  | dl_value e s a : var_type t path s -> value_of_expr l (basic_type s) e a -> declared l path x (Some e) ((x, {| x_type := s; x_val := x_val a; x_impure := x_impure a |}) :: l)
  | dl_null s : var_type t path s -> declared l path x None ((x, {| x_type := s; x_val := Some VOther; x_impure := false |}) :: l).
Inductive all_declared : scope -> list (vardecl F) -> scope -> Prop :=
  | ad_nil l : all_declared l [] l
  | ad_cons l d l1 ds l2 : declared l (v_path (v_type d)) (v_name d) (v_value d) l1 -> all_declared l1 ds l2 -> all_declared l (d :: ds) l2.
(** the variable of a for loop, if it is declared there *)
Inductive loop_var (l : scope) (x : text) (value : option expr) : option vartype -> scope -> Prop :=
  | lv_old : loop_var l x value None l
  | lv_new ty l' : declared l (v_path ty) x value l' -> loop_var l x value (Some ty) l'.
(** [catch(var/flags/path/x)], with var and the flags or without *)
Definition flag (w : text) : Prop := In w (map lit ["static"; "global"; "const"; "tmp"; "final"; "SpacemanDMM_final"; "SpacemanDMM_private"; "SpacemanDMM_protected"]%string).
Inductive catches : list text -> list text -> text -> Prop :=
  | ct v fs path x : (v = [lit "var"] \/ v = [] /\ hd_error (fs ++ path) <> Some (lit "var")) -> (forall w, In w fs -> flag w) -> (forall w p, path = w :: p -> ~ flag w) -> catches (v ++ fs ++ path ++ [x]) path x.
Inductive all_caught : scope -> list (list text) -> scope -> Prop :=
  | ac_nil l : all_caught l [] l
  | ac_empty l ps l2 : all_caught l ps l2 -> all_caught l ([] :: ps) l2
  | ac_cons l p path x l1 ps l2 : catches p path x -> declared l path x None l1 -> all_caught l1 ps l2 -> all_caught l (p :: ps) l2.
(** What the variables are after a statement: only these three change them; what is declared in a block is gone after it. *)
Inductive after (l : scope) : stmt -> scope -> Prop :=
  | af_var d l' : declared l (v_path (v_type d)) (v_name d) (v_value d) l' -> after l (Var d) l'
  | af_vars ds l' : all_declared l ds l' -> after l (Vars ds) l'
  | af_return e a : value_of_expr l None e a -> after l (Return (Some e)) ((lit ".", a) :: l)
  | af_other s : (forall d, s <> Var d) -> (forall ds, s <> Vars ds) -> (forall e, s <> Return (Some e)) -> after l s l.
Inductive through : scope -> list stmt -> scope -> Prop :=
  | tr_nil l : through l [] l
  | tr_cons l s l1 b l2 : after l s l1 -> through l1 b l2 -> through l (s :: b) l2.
(** What they are at the end of a block: nothing after the point where it stops counts. *)
Definition left_with (l : scope) (b : list stmt) (l' : scope) : Prop :=
  exists b1 b2, b = b1 ++ b2 /\ through l b1 l' /\ (b2 = [] \/ stops b1) /\ forall c1 c2, b1 = c1 ++ c2 -> c2 <> [] -> ~ stops c1.
Inductive maybe_after (l : scope) : option stmt -> scope -> Prop :=
  | ma_none : maybe_after l None l
  | ma_some s l' : after l s l' -> maybe_after l (Some s) l'.

(** ** What is looked at *)
(** blocks ([top]: at the top of the procedure), statements, and expressions with the type that is expected there; [spawned]: inside of spawn() *)
Inductive item : Type :=
  | IB (spawned top : bool) (l : scope) (b : list stmt)
  | IS (spawned : bool) (l : scope) (s : stmt)
  | IE (spawned : bool) (l : scope) (h : option nat) (e : expr).
Definition value_in (c : case F) (e : expr) : Prop := c = Exactly e \/ (exists b, c = Between e b) \/ (exists a, c = Between a e).
Inductive inside : item -> item -> Prop :=
  | in_block p top l b1 s b2 l' : through l b1 l' -> ~ stops b1 -> inside (IB p top l (b1 ++ s :: b2)) (IS p l' s)
  | in_expr p l e : inside (IS p l (Expr e)) (IE p l None e)
  | in_return p l e : inside (IS p l (Return (Some e))) (IE p l None e)
  | in_throw p l e : inside (IS p l (Throw e)) (IE p l None e)
  | in_del p l e : inside (IS p l (Del e)) (IE p l None e)
  | in_crash p l e : inside (IS p l (Crash (Some e))) (IE p l None e)
  | in_while p l c b : inside (IS p l (While c b)) (IE p l None c)
  | in_while_body p l c b : inside (IS p l (While c b)) (IB p false l b)
  | in_do p l b c : inside (IS p l (DoWhile b c)) (IB p false l b)
  | in_do_cond p l b c l' : ~ once b -> left_with l b l' -> inside (IS p l (DoWhile b c)) (IE p l' None c)
  | in_if p l arms els c b : In (c, b) arms -> inside (IS p l (If arms els)) (IE p l None c)
  | in_then p l arms els c b : In (c, b) arms -> inside (IS p l (If arms els)) (IB p false l b)
  | in_else p l arms b : inside (IS p l (If arms (Some b))) (IB p false l b)
  | in_forever p l b : inside (IS p l (ForInfinite b)) (IB p false l b)
  | in_for_init p l s test inc b : inside (IS p l (ForLoop (Some s) test inc b)) (IS p l s)
  | in_for_test p l init e inc b l1 : maybe_after l init l1 -> inside (IS p l (ForLoop init (Some e) inc b)) (IE p l1 None e)
  | in_for_inc p l init test s b l1 : maybe_after l init l1 -> inside (IS p l (ForLoop init test (Some s) b)) (IS p l1 s)
  | in_for_body p l init test inc b l1 l2 : maybe_after l init l1 -> maybe_after l1 inc l2 -> inside (IS p l (ForLoop init test inc b)) (IB p false l2 b)
  | in_list p l ty x it e b : inside (IS p l (ForList ty x it (Some e) b)) (IE p l None e)
  | in_list_body p l ty x it o b l1 : loop_var l x None ty l1 -> inside (IS p l (ForList ty x it o b)) (IB p false l1 b)
  | in_pairs p l ty k it v e b : inside (IS p l (ForKeyValue ty k it v (Some e) b)) (IE p l None e)
  | in_pairs_body p l ty k it v o b l1 l2 : loop_var l k None ty l1 -> declared l1 [] v None l2 -> inside (IS p l (ForKeyValue ty k it v o b)) (IB p false l2 b)
  | in_range_end p l ty x a e step b : inside (IS p l (ForRange ty x a e step b)) (IE p l None e)
  | in_range_step p l ty x a e s b : inside (IS p l (ForRange ty x a e (Some s) b)) (IE p l None s)
  | in_range_start p l ty x a e step b s : var_type t (v_path ty) s -> inside (IS p l (ForRange (Some ty) x a e step b)) (IE p l (basic_type s) a)
  | in_range_body p l ty x a e step b l1 : loop_var l x (Some a) ty l1 -> inside (IS p l (ForRange ty x a e step b)) (IB p false l1 b)
  | in_var p l d e s : v_value d = Some e -> var_type t (v_path (v_type d)) s -> inside (IS p l (Var d)) (IE p l (basic_type s) e)
  | in_vars p l ds1 d ds2 l1 e s : all_declared l ds1 l1 -> v_value d = Some e -> var_type t (v_path (v_type d)) s -> inside (IS p l (Vars (ds1 ++ d :: ds2))) (IE p l1 (basic_type s) e)
  | in_spawn_delay p l e b : inside (IS p l (Spawn (Some e) b)) (IE true l None e)
  | in_spawn p l d b : inside (IS p l (Spawn d b)) (IB true false l b)
  | in_switch p l e cases d : inside (IS p l (Switch e cases d)) (IE p l None e)
  | in_case p l e cases d cs b c v : In (cs, b) cases -> In c cs -> value_in c v -> inside (IS p l (Switch e cases d)) (IE p l None v)
  | in_case_body p l e cases d cs b : In (cs, b) cases -> inside (IS p l (Switch e cases d)) (IB p false l b)
  | in_default p l e cases b : inside (IS p l (Switch e cases (Some b))) (IB p false l b)
  | in_try p l b ps h : inside (IS p l (TryCatch b ps h)) (IB p false l b)
  | in_catch p l b ps h l1 : all_caught l ps l1 -> inside (IS p l (TryCatch b ps h)) (IB p false l1 h)
  | in_label p l x b : inside (IS p l (Label x b)) (IB p false l b).
Definition within : item -> item -> Prop := clos_refl_trans_1n item inside.

(** ** What is said *)
Definition constant_term (x : term F) : Prop :=
  x = MNull \/ (exists z, x = MInt z) \/ (exists f, x = MFloat f) \/ (exists s, x = MString s) \/ exists p vs, x = MPrefab p vs.
Definition compares (op : binop) : Prop := In op [BEq; BNotEq; BLess; BGreater; BLessEq; BGreaterEq; BAnd; BOr].
(** a condition that is a constant, or two of them and an operator *)
Inductive dull : expr -> sevent -> Prop :=
  | du_const op a b : constant_term a -> constant_term b -> compares op -> dull (Bin op (Base a []) (Base b [])) ConstantCondition
  | du_static x : constant_term x -> dull (Base x []) StaticCondition.
(** what cannot be iterated over *)
Inductive not_a_list : sty -> sevent -> Prop :=
  | nl_maybe i : ~ In i [expect t "/world"; expect t "/list"; expect t "/alist"] -> tree_sub t i (expect t "/atom") = false -> tree_sub t (expect t "/atom") i = true -> not_a_list (SType i) MaybeIterates
  | nl_not i : ~ In i [expect t "/world"; expect t "/list"; expect t "/alist"] -> tree_sub t i (expect t "/atom") = false -> tree_sub t (expect t "/atom") i = false -> not_a_list (SType i) (Iterates i)
  | nl_proc : not_a_list SProc IteratesProc.
(** a type that there is not, in the declaration of a variable *)
Definition bad_type (path : list text) (ev : sevent) : Prop := exists x, static_type t list_type path = Bad x /\ ev = Said (TypeProblem x).
Definition iterates (s : stmt) (e : expr) : Prop := (exists ty x it b, s = ForList ty x it (Some e) b) \/ exists ty k it v b, s = ForKeyValue ty k it v (Some e) b.
(** the types of the variables that a statement declares *)
Inductive declares_type : stmt -> list text -> Prop :=
  | dt_var d : declares_type (Var d) (v_path (v_type d))
  | dt_vars ds d : In d ds -> declares_type (Vars ds) (v_path (v_type d))
  | dt_list ty x it o b : declares_type (ForList (Some ty) x it o b) (v_path ty)
  | dt_pairs ty k it v o b : declares_type (ForKeyValue (Some ty) k it v o b) (v_path ty)
  | dt_range ty x a e step b : declares_type (ForRange (Some ty) x a e step b) (v_path ty)
  | dt_catch b ps h p path x : In p ps -> catches p path x -> declares_type (TryCatch b ps h) path.
Definition false_value (e : expr) : Prop := e = Base (MInt 0) [] \/ e = Base (MIdent (lit "FALSE")) [].

Inductive tells : item -> sevent -> Prop :=
  (* blocks *)
  | tl_unreachable p top l b1 s b2 : stops b1 -> tells (IB p top l (b1 ++ s :: b2)) (Flows (Flow.Model.Unreachable tt))
  | tl_set p top l b1 x m v b2 : ~ stops b1 -> (top = false \/ exists s, In s b1 /\ forall x' m' v', s <> Setting x' m' v') -> (exists r, x = lit "SpacemanDMM_" ++ r) ->
      tells (IB p top l (b1 ++ Setting x m v :: b2)) SetNotTop
  (* statements *)
  | tl_discards p l x args fs q r b at_ : (forall k y a, ~ In (FCall k y a) fs) -> proc_at t self_type x = Some q -> get_self_or_parent t pure_rules q = Some (r, b, at_) ->
      tells (IS p l (Expr (Base (MCall x args) fs))) (Discards x at_)
  | tl_output p l x y a : value_of_expr l None x a -> x_impure a = true -> tells (IS p l (Expr (Bin BLShift x y))) (Said (Impure (lit "purity breaking << on expression")))
  | tl_return l e : tells (IS true l (Return (Some e))) ReturnsInSpawn
  | tl_once p l b c : once b -> tells (IS p l (DoWhile b c)) (Flows (Flow.Model.NeverTested tt))
  | tl_if p l arms els c b ev : In (c, b) arms -> dull c ev -> tells (IS p l (If arms els)) ev
  | tl_always p l arms els c b : In (c, b) arms -> sure c true -> tells (IS p l (If arms els)) (Flows (Flow.Model.AlwaysTrue tt))
  | tl_never p l arms els c b : In (c, b) arms -> sure c false -> tells (IS p l (If arms els)) (Flows (Flow.Model.AlwaysFalse tt))
  | tl_after_always p l a1 c b a2 els c' b' : sure c true -> In (c', b') a2 -> tells (IS p l (If (a1 ++ (c, b) :: a2) els)) (Flows (Flow.Model.UnreachableIf tt))
  | tl_else p l arms c b s b' : In (c, b) arms -> sure c true -> tells (IS p l (If arms (Some (s :: b')))) (Flows (Flow.Model.UnreachableElse tt))
  | tl_for p l init e inc b ev : dull e ev -> tells (IS p l (ForLoop init (Some e) inc b)) ev
  | tl_for_true p l init e inc b : sure e true -> tells (IS p l (ForLoop init (Some e) inc b)) (Flows (Flow.Model.LoopTrue tt))
  | tl_for_false p l init e inc b : sure e false -> tells (IS p l (ForLoop init (Some e) inc b)) (Flows (Flow.Model.LoopFalse tt))
  | tl_iterates p l s e a ev : iterates s e -> value_of_expr l None e a -> not_a_list (x_type a) ev -> tells (IS p l s) ev
  | tl_range p l ty x a e step b : Flow.Model.valid_for_range a e step = Some false -> tells (IS p l (ForRange ty x (Base a []) (Base e []) step b)) (Flows (Flow.Model.NeverEntered tt))
  | tl_type p l s path ev : declares_type s path -> bad_type path ev -> tells (IS p l s) ev
  | tl_waitfor p l e : false_value e -> tells (IS p l (Setting (lit "waitfor") SetAssign e)) NoWaitfor
  | tl_switch p l e cases d ev : dull e ev -> tells (IS p l (Switch e cases d)) ev
  | tl_case_or p l e cases d a b body : In ([Exactly (Bin BOr a b)], body) cases -> tells (IS p l (Switch e cases d)) CaseOr
  | tl_catch p l b ps h : 1 < List.length ps -> tells (IS p l (TryCatch b ps h)) (CatchParams (List.length ps))
  (* expressions *)
  | tl_expr p l h e m ev : looked_at t rules rets vars builtin kind self (fun x => get x l) (E h e) m -> says t rules rets vars builtin kind self p (fun x => get x l) m ev -> tells (IE p l h e) (Said ev).

(** ** A procedure *)
(** what the variables are at its start *)
Inductive starts (params : list (text * list text)) : text -> ana -> Prop :=
  | st_param ps1 x path ps2 s : params = ps1 ++ (x, path) :: ps2 -> ~ In x (map fst ps2) -> var_type t path s -> starts params x {| x_type := s; x_val := None; x_impure := true |}
  | st_result : ~ In (lit ".") (map fst params) -> starts params (lit ".") empty
  | st_args : ~ In (lit "args") (map fst params) -> starts params (lit "args") {| x_type := SType list_type; x_val := None; x_impure := true |}
  | st_usr : ~ In (lit "usr") (map fst params) -> starts params (lit "usr") (of_type (SType (expect t "/mob")))
  | st_callee x : (x = lit "callee" \/ x = lit "caller") -> ~ In x (map fst params) -> starts params x (of_type (SType (expect t "/callee")))
  | st_src : ~ In (lit "src") (map fst params) -> path_of t self_type <> [] -> starts params (lit "src") (of_type (SType self_type))
  | st_global : ~ In (lit "global") (map fst params) -> starts params (lit "global") {| x_type := SType 0; x_val := None; x_impure := true |}.

(** ** Everything is looked at *)
(** what is written in a body *)
Inductive code : Type := CB (b : list stmt) | CS (s : stmt) | CE (e : expr).
Definition code_of (i : item) : code := match i with IB _ _ _ b => CB b | IS _ _ s => CS s | IE _ _ _ e => CE e end.
Inductive part : code -> code -> Prop :=
  | pt_block b s : In s b -> part (CB b) (CS s)
  | pt_expr e : part (CS (Expr e)) (CE e)
  | pt_return e : part (CS (Return (Some e))) (CE e)
  | pt_throw e : part (CS (Throw e)) (CE e)
  | pt_del e : part (CS (Del e)) (CE e)
  | pt_crash e : part (CS (Crash (Some e))) (CE e)
  | pt_while c b x : x = CE c \/ x = CB b -> part (CS (While c b)) x
  | pt_do b c x : x = CE c \/ x = CB b -> part (CS (DoWhile b c)) x
  | pt_if arms els c b x : In (c, b) arms -> x = CE c \/ x = CB b -> part (CS (If arms els)) x
  | pt_else arms b : part (CS (If arms (Some b))) (CB b)
  | pt_forever b : part (CS (ForInfinite b)) (CB b)
  | pt_for init test inc b x : (exists s, init = Some s /\ x = CS s) \/ (exists e, test = Some e /\ x = CE e) \/ (exists s, inc = Some s /\ x = CS s) \/ x = CB b -> part (CS (ForLoop init test inc b)) x
  | pt_list ty n it o b x : (exists e, o = Some e /\ x = CE e) \/ x = CB b -> part (CS (ForList ty n it o b)) x
  | pt_pairs ty k it v o b x : (exists e, o = Some e /\ x = CE e) \/ x = CB b -> part (CS (ForKeyValue ty k it v o b)) x
  | pt_range ty n a e step b x : x = CE a \/ x = CE e \/ (exists s, step = Some s /\ x = CE s) \/ x = CB b -> part (CS (ForRange ty n a e step b)) x
  | pt_var d e : v_value d = Some e -> part (CS (Var d)) (CE e)
  | pt_vars ds d e : In d ds -> v_value d = Some e -> part (CS (Vars ds)) (CE e)
  | pt_setting x m v : part (CS (Setting x m v)) (CE v)
  | pt_spawn d b x : (exists e, d = Some e /\ x = CE e) \/ x = CB b -> part (CS (Spawn d b)) x
  | pt_switch e cases d : part (CS (Switch e cases d)) (CE e)
  | pt_case e cases d cs b x : In (cs, b) cases -> (exists c v, In c cs /\ value_in c v /\ x = CE v) \/ x = CB b -> part (CS (Switch e cases d)) x
  | pt_default e cases b : part (CS (Switch e cases (Some b))) (CB b)
  | pt_try b ps h x : x = CB b \/ x = CB h -> part (CS (TryCatch b ps h)) x
  | pt_label x b : part (CS (Label x b)) (CB b).
(** what is not *)
Inductive skipped : code -> code -> Prop :=
  | sk_unreachable b1 s b2 : stops b1 -> skipped (CB (b1 ++ s :: b2)) (CS s)
  | sk_untested b c : once b -> skipped (CS (DoWhile b c)) (CE c)
  | sk_start x a e step b : skipped (CS (ForRange None x a e step b)) (CE a)
  | sk_setting x m v : skipped (CS (Setting x m v)) (CE v).
End SPEC.
Arguments flow_of {F}. Arguments stops {F}. Arguments once {F}. Arguments sure {F}. Arguments value_of_expr {F V D L}. Arguments declared {F V D L}. Arguments all_declared {F V D L}. Arguments loop_var {F V D L}. Arguments all_caught {F V D L}.
Arguments after {F V D L}. Arguments through {F V D L}. Arguments left_with {F V D L}. Arguments maybe_after {F V D L}. Arguments IB {F}. Arguments IS {F}. Arguments IE {F}. Arguments value_in {F}. Arguments inside {F V D L}. Arguments within {F V D L}.
Arguments constant_term {F}. Arguments dull {F L}. Arguments not_a_list {F V D L}. Arguments bad_type {F V D L}. Arguments iterates {F}. Arguments declares_type {F}. Arguments false_value {F}. Arguments tells {F V D L}. Arguments starts {V D}.
Arguments CB {F}. Arguments CS {F}. Arguments CE {F}. Arguments code_of {F}. Arguments part {F}. Arguments skipped {F}.
