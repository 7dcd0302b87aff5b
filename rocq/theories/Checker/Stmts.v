(** What the checker makes of the body of a procedure.  Models crates/dreamchecker/src/lib.rs (cited without file name): run 1437-1563,
    visit_block 1565-1597, loop_condition_check 1599-1613, visit_control_condition 1615-1627, visit_statement 1629-2146, visit_var_stmt
    and visit_var 2148-2184; and crates/dreammaker/src/ast.rs (cited as ast.rs): is_const_eval 1019-1048, is_static 1211-1216,
    VarTypeBuilder 1442-1464.

    Simplifications: locations are left out, and so is the check of switch(rand()), which is C21.  The depth of spawn
    statements is a u32 that wraps around; here it is whether there is one.  What the control flow is comes from Flow/Model.v. *)
From Coq Require Import List Arith NArith ZArith Bool String.
From Verif Require Import Common.Text Objtree.Ispath Objtree.Model Parse.Ast Stmt.Ast Checker.CallTree Checker.Kwargs Checker.Directives Checker.TypeExpr Checker.Filters Checker.Exprs.
From Verif Require Flow.Model.
Import ListNotations.
Open Scope nat_scope.

Notation flow := Flow.Model.flow.

Section STMTS.
Variables F V D L : Type.
Variable f_zero : F -> bool.
Variable t : objtree V D.
Variable rules : env L.
(** 391-415 must_be_pure *)
Variable pure_rules : entries L.
Variable returns : procref -> option texpr.
Variable vars : nat -> list (text * option vdecl).
Variable builtin : procref -> bool.
Variable kind : D -> text.
Variable self : procref.
Notation self_type := (pr_ty self).
Notation stmt := (stmt F). Notation expr := (expr F).

(** the variables of the procedure, HashMap<Ident, LocalVar>: the first entry for a name counts *)
Definition scope : Type := list (text * ana).
Definition bind (l : scope) (x : text) (a : ana) : scope := (x, a) :: l.
Definition visit_expr (spawned : bool) (l : scope) (hint : option nat) (e : expr) : out F L :=
  visit t rules returns vars builtin kind self spawned (fun x => get x l) hint e.

Inductive sevent : Type :=
  | Said (ev : event F L)
  | Flows (r : Flow.Model.report unit)
  | Discards (proc : text) (at_ : L)
  | ReturnsInSpawn
  | ConstantCondition | StaticCondition
  | MaybeIterates | Iterates (ty : nat) | IteratesProc
  | CatchParams (n : nat)
  | CaseOr
  | SetNotTop
  | NoWaitfor.
Notation said := (map Said).
Notation flows := (map Flows).
Definition result : Type := (scope * flow * list sevent)%type.

(** 1615-1627; ast.rs 1019-1048, 1211-1216 *)
Definition is_static (x : term F) : bool := match x with MNull | MInt _ | MFloat _ | MString _ | MPrefab _ _ => true | _ => false end.
Definition is_const_eval (e : expr) : bool :=
  match e with
  | Bin op l r =>
      match Flow.Model.as_term l, Flow.Model.as_term r with
      | Some a, Some b => is_static a && is_static b && match op with BEq | BNotEq | BLess | BGreater | BLessEq | BGreaterEq | BAnd | BOr => true | _ => false end
      | _, _ => false
      end
  | _ => false
  end.
Definition condition (e : expr) : list sevent :=
  if is_const_eval e then [ConstantCondition]
  else match Flow.Model.as_term e with Some x => if is_static x then [StaticCondition] else [] | None => [] end.

(** 2163-2184 visit_var *)
Definition visit_var (spawned : bool) (l : scope) (path : list text) (name : text) (value : option expr) : scope * list sevent :=
  let '(s, ev1) := var_typed (F := F) (L := L) t path false in
  match value with
  | Some e =>
      let '(a, ev2) := visit_expr spawned l (basic_type (x_type s)) e in
      (bind l name {| x_type := x_type s; x_val := x_val a; x_impure := x_impure a |}, said ev1 ++ said ev2)
  | None => (bind l name {| x_type := x_type s; x_val := Some VOther; x_impure := false |}, said ev1)
  end.
(** 2148-2161, 1932-1936 *)
Definition visit_decl (spawned : bool) (l : scope) (d : vardecl F) : scope * list sevent := visit_var spawned l (v_path (v_type d)) (v_name d) (v_value d).
Fixpoint visit_decls (spawned : bool) (l : scope) (ds : list (vardecl F)) : scope * list sevent :=
  match ds with
  | [] => (l, [])
  | d :: ds' => let '(l1, ev1) := visit_decl spawned l d in let '(l2, ev2) := visit_decls spawned l1 ds' in (l2, ev1 ++ ev2)
  end.
(** 1845-1885, 2086-2126: what is iterated over *)
Definition iterated (s : sty) : list sevent :=
  match s with
  | SNone | SList _ _ => []
  | SType i =>
      if (i =? expect t "/world") || (i =? expect t "/list") || (i =? expect t "/alist") then []
      else if tree_sub t i (expect t "/atom") then []
      else if tree_sub t (expect t "/atom") i then [MaybeIterates] else [Iterates i]
  | SProc => [IteratesProc]
  end.
Definition visit_in (spawned : bool) (l : scope) (in_list : option expr) : list sevent :=
  match in_list with
  | Some e => let '(a, evs) := visit_expr spawned l None e in said evs ++ iterated (x_type a)
  | None => []
  end.
(** 1886-1888, 2129-2131 *)
Definition visit_typed (spawned : bool) (l : scope) (ty : option vartype) (name : text) (value : option expr) : scope * list sevent :=
  match ty with Some ty => visit_var spawned l (v_path ty) name value | None => (l, []) end.
(** ast.rs 604-618 from_name, 1442-1464: the flags before the path of a type *)
Definition flag_names : list text := map lit ["global"; "static"; "const"; "tmp"; "final"; "SpacemanDMM_final"; "SpacemanDMM_private"; "SpacemanDMM_protected"]%string.
Fixpoint drop_flags (p : list text) : list text :=
  match p with w :: p' => if existsb (text_eqb w) flag_names then drop_flags p' else p | [] => [] end.
(** 2022-2046: the parameters of catch *)
Definition caught (p : list text) : option (text * list text) :=
  match rev p with
  | [] => None
  | name :: front =>
      let path := rev front in
      Some (name, drop_flags match path with w :: rest => if text_eqb w (lit "var") then rest else path | [] => path end)
  end.
Fixpoint visit_caught (spawned : bool) (l : scope) (ps : list (list text)) : scope * list sevent :=
  match ps with
  | [] => (l, [])
  | p :: ps' =>
      match caught p with
      | None => visit_caught spawned l ps'
      | Some (name, path) => let '(l1, ev1) := visit_var spawned l path name None in let '(l2, ev2) := visit_caught spawned l1 ps' in (l2, ev1 ++ ev2)
      end
  end.
(** 1635-1678: an expression as a statement *)
Definition expr_faults (spawned : bool) (l : scope) (e : expr) : list sevent :=
  match e with
  | Base (MCall name _) fs =>
      if existsb (fun f => match f with FCall _ _ _ => true | _ => false end) fs then []
      else match proc_at t self_type name with
           | Some p => match get_self_or_parent t pure_rules p with Some (_, _, at_) => [Discards name at_] | None => [] end
           | None => []
           end
  | Bin BLShift lhs _ =>
      let '(a, evs) := visit_expr spawned l None lhs in
      said evs ++ (if x_impure a then [Said (Impure (lit "purity breaking << on expression"))] else [])
  | _ => []
  end.
(** 1935-1949: set waitfor = 0 *)
Definition visit_setting (name : text) (m : setmode) (value : expr) : list sevent :=
  match m with
  | SetAssign =>
      if text_eqb name (lit "waitfor") then
        match Flow.Model.as_term value with
        | Some (MInt 0%Z) => [NoWaitfor]
        | Some (MIdent x) => if text_eqb x (lit "FALSE") then [NoWaitfor] else []
        | _ => []
        end
      else []
  | SetIn => []
  end.
Definition is_setting (s : stmt) : bool := match s with Setting _ _ _ => true | _ => false end.
Definition setting_fault (top : bool) (s : stmt) : list sevent :=
  match s with Setting name _ _ => if negb top && starts_with (lit "SpacemanDMM_") name then [SetNotTop] else [] | _ => [] end.
Definition some_events (o : option expr) (f : expr -> list sevent) : list sevent := match o with Some e => f e | None => [] end.
(** 1966-1996: the values of a case *)
Definition case_values (c : case F) : list expr := match c with Exactly e => [e] | Between a b => [a; b] end.
Definition case_fault (cs : list (case F)) : list sevent := match cs with [Exactly (Bin BOr _ _)] => [CaseOr] | _ => [] end.

Section BLOCKS.
Variable statement : scope -> stmt -> result.
(** 1565-1597 visit_block; [before]: the control flow of what came before *)
Fixpoint run_block (top : bool) (before : flow) (l : scope) (b : list stmt) : result :=
  match b with
  | [] => (l, before, [])
  | s :: b' =>
      if Flow.Model.terminates before then (l, before, [Flows (Flow.Model.Unreachable tt)])
      else
        let '(l1, st, ev1) := statement l s in
        let '(l2, st2, ev2) := run_block (top && is_setting s) (Flow.Model.merge before st) l1 b' in
        (l2, st2, setting_fault top s ++ ev1 ++ ev2)
  end.
Definition inner (l : scope) (b : list stmt) : result := run_block false Flow.Model.allfalse l b.
Definition truthy (e : expr) : option bool := Flow.Model.is_truthy f_zero e.
(** 1750-1780 *)
Fixpoint run_arms (visit_cond : expr -> list sevent) (before : flow) (always : bool) (l : scope) (arms : list (expr * list stmt)) : flow * bool * list sevent :=
  match arms with
  | [] => (before, always, [])
  | (c, b) :: arms' =>
      let '(_, st, evs) := inner l b in
      let '(now, always', r) := match truthy c with
                                | Some true => (Flow.Model.merge_false before st, true, [Flow.Model.AlwaysTrue tt])
                                | Some false => (before, always, [Flow.Model.AlwaysFalse tt])
                                | None => (Flow.Model.merge_false before st, always, [])
                                end in
      let '(f, always'', evs') := run_arms visit_cond now always' l arms' in
      (f, always'', condition c ++ (if always then flows [Flow.Model.UnreachableIf tt] else []) ++ visit_cond c ++ evs ++ flows r ++ evs')
  end.
(** 1966-2004 *)
Fixpoint run_cases (visit_cond : expr -> list sevent) (before : flow) (l : scope) (cases : list (list (case F) * list stmt)) : flow * list sevent :=
  match cases with
  | [] => (before, [])
  | (cs, b) :: cases' =>
      let '(_, st, evs) := inner l b in
      let '(f, evs') := run_cases visit_cond (Flow.Model.merge_false before st) l cases' in
      (f, case_fault cs ++ flat_map visit_cond (flat_map case_values cs) ++ evs ++ evs')
  end.
End BLOCKS.

Definition leaves : flow := {| Flow.Model.returns := true; Flow.Model.continues := false; Flow.Model.breaks := false; Flow.Model.fuzzy := false |}.
(** 1629-2146 visit_statement *)
Fixpoint visit_stmt (spawned : bool) (l : scope) (s : stmt) {struct s} : result :=
  let look (l : scope) (e : expr) : list sevent := said (snd (visit_expr spawned l None e)) in
  let go_on (evs : list sevent) : result := (l, Flow.Model.allfalse, evs) in
  let loop (l1 : scope) (b : list stmt) (evs : list sevent) : result := let '(_, st, evs') := inner (visit_stmt spawned) l1 b in (l, Flow.Model.end_loop st, evs ++ evs') in
  match s with
  | Expr e => go_on (expr_faults spawned l e ++ look l e)
  | Return (Some e) =>
      let '(a, evs) := visit_expr spawned l None e in
      (bind l (lit ".") a, leaves, (if spawned then [ReturnsInSpawn] else []) ++ said evs)
  | Return None => (l, leaves, [])
  | Crash e => (l, leaves, some_events e (look l))
  | Throw e | Del e => go_on (look l e)
  | While c b => loop l b (look l c)
  | DoWhile b c =>
      let '(l1, st, evs) := inner (visit_stmt spawned) l b in
      if Flow.Model.terminates_loop st then (l, st, evs ++ flows [Flow.Model.NeverTested tt])
      else (l, Flow.Model.end_loop st, evs ++ look l1 c)
  | If arms else_ =>
      let '(st, always, evs) := run_arms (visit_stmt spawned) (look l) Flow.Model.alltrue false l arms in
      match else_ with
      | Some b =>
          let r := match b with _ :: _ => if always then flows [Flow.Model.UnreachableElse tt] else [] | [] => [] end in
          let '(_, st2, evs2) := inner (visit_stmt spawned) l b in
          (l, Flow.Model.finalize (Flow.Model.merge_false st st2), evs ++ r ++ evs2)
      | None => (l, Flow.Model.no_else st, evs)
      end
  | ForInfinite b => loop l b []
  | ForLoop init test inc b =>
      let '(l1, ev1) := match init with Some s' => let '(l1, _, evs) := visit_stmt spawned l s' in (l1, evs) | None => (l, []) end in
      let ev2 := some_events test (fun e => flows (Flow.Model.loop_check f_zero tt (Some e)) ++ condition e ++ look l1 e) in
      let '(l2, ev3) := match inc with Some s' => let '(l2, _, evs) := visit_stmt spawned l1 s' in (l2, evs) | None => (l1, []) end in
      loop l2 b (ev1 ++ ev2 ++ ev3)
  | ForList ty name _ in_list b =>
      let '(l1, evs) := visit_typed spawned l ty name None in
      loop l1 b (visit_in spawned l in_list ++ evs)
  | ForKeyValue ty key _ value in_list b =>
      let '(l1, ev1) := visit_typed spawned l ty key None in
      let '(l2, ev2) := visit_var spawned l1 [] value None in
      loop l2 b (visit_in spawned l in_list ++ ev1 ++ ev2)
  | ForRange ty name start end_ step b =>
      let ev1 := look l end_ ++ some_events step (look l) in
      let '(l1, ev2) := visit_typed spawned l ty name (Some start) in
      let '(_, st, ev3) := inner (visit_stmt spawned) l1 b in
      let '(st', r) := match Flow.Model.as_term start, Flow.Model.as_term end_ with
                       | Some x, Some y =>
                           match Flow.Model.valid_for_range x y step with
                           | Some false => (Flow.Model.end_loop st, [Flow.Model.NeverEntered tt])
                           | Some true => (st, [])
                           | None => (Flow.Model.end_loop st, [])
                           end
                       | _, _ => (Flow.Model.end_loop st, [])
                       end in
      (l, st', ev1 ++ ev2 ++ ev3 ++ flows r)
  | Var d => let '(l1, evs) := visit_decl spawned l d in (l1, Flow.Model.allfalse, evs)
  | Vars ds => let '(l1, evs) := visit_decls spawned l ds in (l1, Flow.Model.allfalse, evs)
  | Setting name m value => go_on (visit_setting name m value)
  | Spawn delay b =>
      let '(_, _, evs) := inner (visit_stmt true) l b in
      go_on (some_events delay (fun e => said (snd (visit_expr true l None e))) ++ evs)
  | Switch input cases default =>
      let ev1 := condition input ++ look l input in
      let '(st, ev2) := run_cases (visit_stmt spawned) (look l) Flow.Model.alltrue l cases in
      match default with
      | Some b => let '(_, st2, ev3) := inner (visit_stmt spawned) l b in (l, Flow.Model.finalize (Flow.Model.merge_false st st2), ev1 ++ ev2 ++ ev3)
      | None => (l, Flow.Model.no_else st, ev1 ++ ev2)
      end
  | TryCatch b params handler =>
      let '(_, _, ev1) := inner (visit_stmt spawned) l b in
      let ev2 := if 1 <? List.length params then [CatchParams (List.length params)] else [] in
      let '(l1, ev3) := visit_caught spawned l params in
      let '(_, _, ev4) := inner (visit_stmt spawned) l1 handler in
      go_on (ev1 ++ ev2 ++ ev3 ++ ev4)
  | Continue _ => (l, {| Flow.Model.returns := false; Flow.Model.continues := true; Flow.Model.breaks := false; Flow.Model.fuzzy := true |}, [])
  | Break _ => (l, {| Flow.Model.returns := false; Flow.Model.continues := false; Flow.Model.breaks := true; Flow.Model.fuzzy := true |}, [])
  | Goto _ => go_on []
  | Label _ b => let '(_, _, evs) := inner (visit_stmt spawned) l b in go_on evs
  end.
Definition visit_block (spawned top : bool) (l : scope) (b : list stmt) : result := run_block (visit_stmt spawned) top Flow.Model.allfalse l b.

(** 1437-1484: what a procedure starts with; [params]: the names and types of its parameters *)
Definition typed_as (s : sty) (impure : bool) : ana := {| x_type := s; x_val := None; x_impure := impure |}.
Definition first_scope : scope :=
  let l := bind [] (lit ".") empty in
  let l := bind l (lit "args") (typed_as (SType (expect t "/list")) true) in
  let l := bind l (lit "usr") (typed_as (SType (expect t "/mob")) false) in
  let l := bind l (lit "callee") (typed_as (SType (expect t "/callee")) false) in
  let l := bind l (lit "caller") (typed_as (SType (expect t "/callee")) false) in
  let l := if is_root t self_type then l else bind l (lit "src") (typed_as (SType self_type) false) in
  bind l (lit "global") (typed_as (SType 0) true).
Fixpoint with_params (l : scope) (params : list (text * list text)) : scope * list sevent :=
  match params with
  | [] => (l, [])
  | (name, path) :: ps =>
      let '(s, ev1) := var_typed (F := F) (L := L) t path true in
      let '(l', ev2) := with_params (bind l name s) ps in
      (l', said ev1 ++ ev2)
  end.
(** 1437-1563 run *)
Definition run (params : list (text * list text)) (b : list stmt) : list sevent * list (complaint L) :=
  let '(l, ev1) := with_params first_scope params in
  let '(_, _, ev2) := visit_block false true l b in
  (ev1 ++ ev2, check_override t rules builtin self (existsb (fun ev => match ev with Said CallsParentProc => true | _ => false end) ev2)).
End STMTS.
Arguments Said {F L}. Arguments Flows {F L}. Arguments Discards {F L}. Arguments ReturnsInSpawn {F L}. Arguments ConstantCondition {F L}. Arguments StaticCondition {F L}.
Arguments MaybeIterates {F L}. Arguments Iterates {F L}. Arguments IteratesProc {F L}. Arguments CatchParams {F L}. Arguments CaseOr {F L}. Arguments SetNotTop {F L}. Arguments NoWaitfor {F L}.
Arguments visit_expr {F V D L}. Arguments is_static {F}. Arguments is_const_eval {F}. Arguments condition {F L}. Arguments visit_var {F V D L}. Arguments visit_decl {F V D L}. Arguments visit_decls {F V D L}.
Arguments iterated {F V D L}. Arguments visit_in {F V D L}. Arguments visit_typed {F V D L}. Arguments visit_caught {F V D L}. Arguments expr_faults {F V D L}. Arguments visit_setting {F L}. Arguments is_setting {F}.
Arguments setting_fault {F L}. Arguments some_events {F L}. Arguments case_values {F}. Arguments case_fault {F L}. Arguments run_block {F L}. Arguments inner {F L}. Arguments truthy {F}. Arguments run_arms {F L}. Arguments run_cases {F L}.
Arguments visit_stmt {F V D L}. Arguments visit_block {F V D L}. Arguments first_scope {V D}. Arguments with_params {F V D L}. Arguments run {F V D L}.
