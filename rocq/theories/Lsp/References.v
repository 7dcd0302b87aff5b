(** "Find all references" of the language server.  Models crates/dm-langserver/src/find_references.rs (cited without file name):
    ReferencesTable 9-90, new_symbol, use_symbol, impl_symbol 92-118, StaticType 121-139, Local, WalkProc 141-152, from_proc, from_ty 155-223,
    run 225-241, visit_block, visit_statement 243-426, visit_var_stmt, visit_var 428-451, use_type 453-463, visit_expression 465-509,
    visit_ident 511-522, visit_term 524-689, visit_new 691-715, visit_prefab 717-743, visit_field 745-761, visit_follow 763-804, visit_unary,
    visit_binary 806-819, visit_call 821-862, visit_arguments 864-883, static_type 885-916.

    Simplifications: a location is given by the declaration that it is in and the term, follow or statement that stands there.  The lists
    are in the order of the walk (the program sorts them, 61-64).  Symbols of types and declarations are the types and declarations
    themselves; the symbols of the variables of a procedure are numbered for each procedure (in the program they go on from one to the
    next, so that no two procedures share one).  The types are gone through by their numbers, not from the root down. *)
From Coq Require Import List Arith NArith ZArith Bool String.
From Verif Require Import Common.Text Objtree.Ispath Objtree.Model Parse.Ast Stmt.Ast Checker.CallTree Checker.Kwargs Checker.TypeExpr Checker.Exprs Checker.Stmts.
Import ListNotations.
Open Scope nat_scope.

Section REFERENCES.
Variables F V D : Type.
Notation stmt := (stmt F). Notation expr := (expr F). Notation term := (term F). Notation follow := (follow F).

(** objtree.rs 62-84 TypeVar: the type if it is declared here, the value if there is an expression *)
Record rvar : Type := { rv_decl : option (list text); rv_value : option expr }.
(** ast.rs 1365-1372 Parameter; [rp_in] is not looked at *)
Record rparam : Type := { rp_name : text; rp_path : list text; rp_default : option expr; rp_in : option expr }.
Variable t : objtree V D.
Variable vars : nat -> list (text * rvar).
(** objtree.rs 101-108 ProcValue: the parameters and the code, if it was kept *)
Variable code : V -> list rparam * option (list stmt).
Notation size := (List.length (graph t)).
Notation list_type := (expect t "/list").

(** objtree.rs 28-55 SymbolId *)
Inductive symbol : Type := STyp (i : nat) | SVar (i : nat) (x : text) | SProcDecl (i : nat) (x : text) | SLocal (p : procref) (n : nat).
(** what stands at a location *)
Inductive spot : Type := AtTerm (x : term) | AtFollow (f : follow) | AtStmt (s : stmt) | AtParam (q : rparam) | AtProc.
Definition use : Type := (symbol * spot)%type.

(** objtree.rs 204-219; 474-485: the type that declares a variable, a procedure *)
Definition var_decl_at (i : nat) (x : text) : option (nat * list text) :=
  match search size (parent_type t) (fun j => match get x (vars j) with Some v => match rv_decl v with Some p => Some (j, p) | None => None end | None => None end) i with Some d => d | None => None end.
Definition proc_decl_at (i : nat) (x : text) : option nat :=
  match search size (parent_type t) (fun j => match procs_of t j x with Some p => match p_decl p with Some _ => Some j | None => None end | None => None end) i with Some d => d | None => None end.

(** 885-916 *)
Fixpoint stype (of : list text) : sty :=
  match of with
  | [] => SNone
  | w :: rest =>
      if existsb (text_eqb w) modifiers then stype rest
      else if text_eqb w (lit "list") then SList list_type (stype rest)
      else match type_by_path t of with Some i => SType i | None => SNone end
  end.
(** 453-463 *)
Fixpoint use_type (at_ : spot) (s : sty) : list use :=
  match s with SType i => [(STyp i, at_)] | SList l keys => (STyp l, at_) :: use_type at_ keys | _ => [] end.

(** 141-152: the variables of a procedure *)
Definition scope : Type := list (text * (sty * symbol)).
Section WALK.
Variable ty : nat.
Variable proc : option procref.
Variable locals : scope.
Definition out : Type := (sty * list use)%type.

Definition var_use (at_ : spot) (d : option (nat * list text)) (x : text) : out :=
  match d with Some (j, path) => (stype path, [(SVar j x, at_)]) | None => (SNone, []) end.
Definition proc_use (at_ : spot) (i : nat) (x : text) : list use := match proc_decl_at i x with Some j => [(SProcDecl j x, at_)] | None => [] end.
(** 511-522 *)
Definition visit_ident (at_ : spot) (x : text) : out :=
  match get x locals with Some (s, sym) => (s, [(sym, at_)]) | None => var_use at_ (var_decl_at ty x) x end.
(** 745-761 *)
Definition visit_field (at_ : spot) (s : sty) (x : text) : out := match basic_type s with Some i => var_use at_ (var_decl_at i x) x | None => (SNone, []) end.
(** 586-593 *)
Fixpoint visit_fields (at_ : spot) (s : sty) (xs : list (propkind * text)) : list use :=
  match xs with [] => [] | (_, x) :: xs' => let r := visit_field at_ s x in snd r ++ visit_fields at_ (fst r) xs' end.
(** 821-862: [us]: what the arguments use *)
Definition visit_call (at_ : spot) (src : nat) (p : procref) (exact : bool) (us : list use) : list use := (if exact then [] else proc_use at_ src (pr_name p)) ++ us.
(** 691-715 *)
Definition visit_new (at_ : spot) (o : option nat) (us : list use) : out :=
  match o with
  | Some i => (SType i, match proc_at t i (lit "New") with Some p => visit_call at_ i p true us | None => [] end)
  | None => (SNone, [])
  end.

(** 465-509 visit_expression, 524-689 visit_term, 763-804 visit_follow *)
Fixpoint visit (hint : option nat) (e : expr) {struct e} : out :=
  match e with
  | Base x fs =>
      let '(s, us) := visit_term (match fs with [] => hint | _ => None end) x in
      (fun r : out => (fst r, us ++ snd r)) ((fix follows (s : sty) (fs : list follow) {struct fs} : out :=
         match fs with
         | [] => (s, [])
         | f :: fs' => let '(s1, u1) := visit_follow s f in let '(s2, u2) := follows s1 fs' in (s2, u1 ++ u2)
         end) s fs)
  | Bin op l r => let h := match op with BOr => hint | _ => None end in (SNone, snd (visit h l) ++ snd (visit h r))
  | Assign _ l r => let '(s1, u1) := visit None l in let '(s2, u2) := visit (basic_type s1) r in (s2, u1 ++ u2)
  | Tern c a b => let '(s, u2) := visit hint a in (s, snd (visit None c) ++ u2 ++ snd (visit hint b))
  end
with visit_term (hint : option nat) (x : term) {struct x} : out :=
  let arg (e : expr) : list use := match keyword e with Some _ => match e with Assign _ _ r => snd (visit None r) | _ => [] end | None => snd (visit None e) end in
  let args (l : list expr) : list use := flat_map arg l in
  let maybe (o : option expr) : list use := match o with Some e => snd (visit None e) | None => [] end in
  let at_ := AtTerm x in
  let prefab (path : list (pathop * text)) (vs : list (text * expr)) : option nat * list use :=
    let with_vars (i : nat) : list use :=
      flat_map (fun v => let d := var_use at_ (var_decl_at i (fst v)) (fst v) in snd d ++ snd (visit (basic_type (fst d)) (snd v))) vs in
    match navigate_path t size ty path with
    | Some (Some (NProc p _)) => (Some (pr_ty p), proc_use at_ (pr_ty p) (pr_name p))
    | Some (Some (NType i)) | Some (Some (NGroup i _)) => (Some i, (STyp i, at_) :: with_vars i)
    | _ => (None, [])
    end in
  match x with
  | MNull | MInt _ | MFloat _ | MString _ | MResource _ | MAs _ => (SNone, [])
  | MExpr e => visit hint e
  | MPrefab path vs => (SNone, snd (prefab path vs))
  | MInterp _ parts => (SNone, flat_map (fun p => maybe (fst p)) parts)
  | MIdent name => visit_ident at_ name
  | MCall name l => (SNone, match proc_at t ty name with Some p => visit_call at_ ty p false (args l) | None => [] end)
  | MSelfCall l => (SNone, match proc with Some p => visit_call at_ ty p true (args l) | None => [] end)
  | MParentCall l =>
      (SNone, match proc with
              | Some p => match parent_proc t size p with Some (Some q) => visit_call at_ ty q true (args l) | _ => [] end
              | None => []
              end)
  | MNewImplicit l => visit_new at_ hint (match l with Some l => args l | None => [] end)
  | MNewPrefab path vs l =>
      let '(i, us) := prefab path vs in
      let r := visit_new at_ i (match l with Some l => args l | None => [] end) in (fst r, us ++ snd r)
  | MNewMini name fields _ => let r := visit_ident at_ name in (SNone, snd r ++ visit_fields at_ (fst r) fields)
  | MList l => (SList list_type SNone, args l)
  | MLocate l o => (SNone, args l ++ maybe o)
  | MInput l _ o => (SNone, args l ++ maybe o)
  | MPick cs => (SNone, flat_map (fun c => maybe (fst c) ++ snd (visit None (snd c))) cs)
  | MDynCall a b => (SNone, args a ++ args b)
  | MExtCall library function l => (SNone, maybe library ++ snd (visit None function) ++ args l)
  | MGlobalCall name l => (SNone, match proc_at t 0 name with Some p => visit_call at_ 0 p false (args l) | None => args l end)
  | MGlobalIdent name => var_use at_ (var_decl_at 0 name) name
  | MType => (SNone, [(STyp ty, at_)])
  | MProc => (SNone, match proc with Some p => proc_use at_ ty (pr_name p) | None => [] end)
  | MImplied => match hint with Some i => (SType i, [(STyp i, at_)]) | None => (SNone, []) end
  end
with visit_follow (s : sty) (f : follow) {struct f} : out :=
  let arg (e : expr) : list use := match keyword e with Some _ => match e with Assign _ _ r => snd (visit None r) | _ => [] end | None => snd (visit None e) end in
  let at_ := AtFollow f in
  match f with
  | FUnary _ => (SNone, [])
  | FIndex _ e => (match s with SList _ keys => keys | _ => SNone end, snd (visit None e))
  | FField _ x | FStaticField x => visit_field at_ s x
  | FCall _ x l =>
      (SNone, match basic_type s with
              | Some i => match proc_at t i x with Some p => visit_call at_ i p false (flat_map arg l) | None => flat_map arg l end
              | None => flat_map arg l
              end)
  | FProcRef x => (SNone, match basic_type s with Some i => proc_use at_ i x | None => [] end)
  end.
End WALK.

(** ** Statements *)
Section PROC.
Variable self : procref.
Notation self_type := (pr_ty self).
(** 92-102: a new variable: its symbol, the number of those before; the declaration is its first reference *)
Definition bind (l : scope) (x : text) (s : sty) : scope := (x, (s, SLocal self (List.length l))) :: l.
Definition fresh (l : scope) (at_ : spot) : use := (SLocal self (List.length l), at_).
Definition walk : Type := (scope * list use)%type.
Definition look (l : scope) (hint : option nat) (e : expr) : list use := snd (visit self_type (Some self) l hint e).
Definition look_option (l : scope) (o : option expr) : list use := match o with Some e => look l None e | None => [] end.

(** 428-451 *)
Definition visit_var (at_ : spot) (l : scope) (path : list text) (x : text) (value : option expr) : walk :=
  let s := stype path in
  (bind l x s, use_type at_ s ++ match value with Some e => look l (basic_type s) e | None => [] end ++ [fresh l at_]).
Definition visit_decl (at_ : spot) (l : scope) (d : vardecl F) : walk := visit_var at_ l (v_path (v_type d)) (v_name d) (v_value d).
Fixpoint visit_decls (at_ : spot) (l : scope) (ds : list (vardecl F)) : walk :=
  match ds with
  | [] => (l, [])
  | d :: ds' => let '(l1, u1) := visit_decl at_ l d in let '(l2, u2) := visit_decls at_ l1 ds' in (l2, u1 ++ u2)
  end.
Definition visit_typed (at_ : spot) (l : scope) (ty : option vartype) (x : text) (value : option expr) : walk :=
  match ty with Some ty => visit_var at_ l (v_path ty) x value | None => (l, []) end.
(** 377-393: the parameters of catch *)
Fixpoint visit_caught (at_ : spot) (l : scope) (ps : list (list text)) : walk :=
  match ps with
  | [] => (l, [])
  | p :: ps' =>
      match caught p with
      | None => visit_caught at_ l ps'
      | Some (x, path) => let '(l1, u1) := visit_var at_ l path x None in let '(l2, u2) := visit_caught at_ l1 ps' in (l2, u1 ++ u2)
      end
  end.
Definition values_of (c : case F) : list expr := match c with Exactly e => [e] | Between a b => [a; b] end.
Section BLOCKS.
Variable statement : scope -> stmt -> walk.
(** 243-247 *)
Fixpoint run_block (l : scope) (b : list stmt) : walk :=
  match b with [] => (l, []) | s :: b' => let '(l1, u1) := statement l s in let '(l2, u2) := run_block l1 b' in (l2, u1 ++ u2) end.
Definition run_option (l : scope) (o : option (list stmt)) : walk := match o with Some b => run_block l b | None => (l, []) end.
(** 272-280 *)
Fixpoint run_arms (l : scope) (arms : list (expr * list stmt)) : walk :=
  match arms with
  | [] => (l, [])
  | (c, b) :: arms' => let '(l1, u1) := run_block l b in let '(l2, u2) := run_arms l1 arms' in (l2, look l None c ++ u1 ++ u2)
  end.
(** 348-371 *)
Fixpoint run_cases (l : scope) (cases : list (list (case F) * list stmt)) : walk :=
  match cases with
  | [] => (l, [])
  | (cs, b) :: cases' =>
      let '(l1, u1) := run_block l b in let '(l2, u2) := run_cases l1 cases' in (l2, flat_map (look l None) (flat_map values_of cs) ++ u1 ++ u2)
  end.
End BLOCKS.
(** 249-426 visit_statement *)
Fixpoint visit_stmt (l : scope) (s : stmt) {struct s} : walk :=
  let at_ := AtStmt s in
  match s with
  | Expr e | Throw e | Del e => (l, look l None e)
  | Return o => (l, match get (lit ".") l with Some (_, dot) => [(dot, at_)] | None => [] end ++ look_option l o)
  | While c b => let '(l1, us) := run_block visit_stmt l b in (l1, look l None c ++ us)
  | DoWhile b c => let '(l1, us) := run_block visit_stmt l b in (l1, us ++ look l1 None c)
  | If arms els => let '(l1, u1) := run_arms visit_stmt l arms in let '(l2, u2) := run_option visit_stmt l1 els in (l2, u1 ++ u2)
  | ForInfinite b => run_block visit_stmt l b
  | ForLoop init test inc b =>
      let '(l1, u1) := match init with Some s' => visit_stmt l s' | None => (l, []) end in
      let u2 := look_option l1 test in
      let '(l3, u3) := match inc with Some s' => visit_stmt l1 s' | None => (l1, []) end in
      let '(l4, u4) := run_block visit_stmt l3 b in (l4, u1 ++ u2 ++ u3 ++ u4)
  | ForList ty x _ in_list b =>
      let '(l1, u1) := visit_typed at_ l ty x None in let '(l2, u2) := run_block visit_stmt l1 b in (l2, look_option l in_list ++ u1 ++ u2)
  | ForRange ty x start end_ step b =>
      let '(l1, u1) := visit_typed at_ l ty x (Some start) in let '(l2, u2) := run_block visit_stmt l1 b in
      (l2, look l None end_ ++ look_option l step ++ u1 ++ u2)
  | ForKeyValue ty key _ value in_list b =>
      let '(l1, u1) := visit_typed at_ l ty key None in let '(l2, u2) := visit_var at_ l1 [] value None in
      let '(l3, u3) := run_block visit_stmt l2 b in (l3, look_option l in_list ++ u1 ++ u2 ++ u3)
  | Var d => visit_decl at_ l d
  | Vars ds => visit_decls at_ l ds
  | Spawn delay b => let '(l1, us) := run_block visit_stmt l b in (l1, look_option l delay ++ us)
  | Switch input cases default =>
      let '(l1, u1) := run_cases visit_stmt l cases in let '(l2, u2) := run_option visit_stmt l1 default in (l2, look l None input ++ u1 ++ u2)
  | TryCatch b params handler =>
      let '(l1, u1) := run_block visit_stmt l b in let '(l2, u2) := visit_caught at_ l1 params in
      let '(l3, u3) := run_block visit_stmt l2 handler in (l3, u1 ++ u2 ++ u3)
  | Label _ b => run_block visit_stmt l b
  | Setting _ _ _ | Continue _ | Break _ | Goto _ | Crash _ => (l, [])
  end.
Definition visit_block : scope -> list stmt -> walk := run_block visit_stmt.

(** 155-204 from_proc *)
Definition global_scope : scope := [(lit "global", (SType 0, STyp 0))].
Definition first_vars : list (text * sty) :=
  [(lit ".", SNone); (lit "args", SType list_type); (lit "usr", SType (expect t "/mob"))] ++ (if is_root t self_type then [] else [(lit "src", SType self_type)]).
Fixpoint start_vars (l : scope) (xs : list (text * sty)) : walk :=
  match xs with [] => (l, []) | (x, s) :: xs' => let '(l', us) := start_vars (bind l x s) xs' in (l', fresh l AtProc :: us) end.
(** 226-239 *)
Fixpoint with_params (l : scope) (ps : list rparam) : walk :=
  match ps with
  | [] => (l, [])
  | q :: ps' =>
      let s := stype (rp_path q) in
      let '(l', us) := with_params (bind l (rp_name q) s) ps' in
      (l', use_type (AtParam q) s ++ look_option l (rp_default q) ++ fresh l (AtParam q) :: us)
  end.
(** 155-204, 225-241 *)
Definition run (ps : list rparam) (b : list stmt) : list use :=
  let '(l1, u1) := start_vars global_scope first_vars in
  let '(l2, u2) := with_params l1 ps in
  u1 ++ u2 ++ snd (visit_block l2 b).
End PROC.

(** ** The table *)
(** the declaration that a location is in: the value of a variable, a value of a procedure; or its name: a type *)
Inductive owner : Type := InVar (i : nat) (x : text) | InProc (p : procref).
Definition here (o : owner) (us : list use) : list (symbol * (owner * spot)) := map (fun u => (fst u, (o, snd u))) us.
Definition every : list nat := seq 0 size.
(** 42-59: the values of the variables of a type, the code of its procedures; 206-223 from_ty *)
Definition var_uses (i : nat) (v : text * rvar) : list (symbol * (owner * spot)) :=
  match rv_value (snd v) with
  | Some e =>
      let hint := match var_decl_at i (fst v) with Some (_, path) => basic_type (stype path) | None => None end in
      here (InVar i (fst v)) (snd (visit i None global_scope hint e))
  | None => []
  end.
(** objtree.rs 487-497 iter_self_procs *)
Definition self_procs (i : nat) : list (procref * V) :=
  match node_at t i with
  | Some n => flat_map (fun p => map (fun k => ((i, fst p, fst k), snd k)) (combine (seq 0 (List.length (p_values (snd p)))) (p_values (snd p)))) (n_procs n)
  | None => []
  end.
Definition proc_uses (p : procref * V) : list (symbol * (owner * spot)) :=
  let '(ps, b) := code (snd p) in match b with Some b => here (InProc (fst p)) (run (fst p) ps b) | None => [] end.
Definition all_uses : list (symbol * (owner * spot)) := flat_map (fun i => flat_map (var_uses i) (vars i) ++ flat_map proc_uses (self_procs i)) every.
(** 23-40: the places where a symbol is given a value *)
Inductive impl : Type := OfType (i : nat) | OfVar (i : nat) (x : text) | OfProc (i : nat) (x : text).
Definition all_impls : list (symbol * impl) :=
  flat_map (fun i =>
    (STyp i, OfType i) ::
    flat_map (fun v => match var_decl_at i (fst v) with Some (j, _) => [(SVar j (fst v), OfVar i (fst v))] | None => [] end) (vars i) ++
    flat_map (fun p => match proc_decl_at i (fst p) with Some j => [(SProcDecl j (fst p), OfProc i (fst p))] | None => [] end)
      match node_at t i with Some n => n_procs n | None => [] end) every.
Definition symbol_eqb (a b : symbol) : bool :=
  match a, b with
  | STyp i, STyp j => i =? j
  | SVar i x, SVar j y | SProcDecl i x, SProcDecl j y => (i =? j) && text_eqb x y
  | SLocal (i, x, k) n, SLocal (j, y, m) o => (i =? j) && text_eqb x y && (k =? m) && (n =? o)
  | _, _ => false
  end.
Definition of_symbol {A : Type} (s : symbol) (l : list (symbol * A)) : list A := map snd (filter (fun e => symbol_eqb s (fst e)) l).
(** 68-86 *)
Definition find_references (s : symbol) : list (owner * spot) := of_symbol s all_uses.
Definition find_implementations (s : symbol) : list impl := of_symbol s all_impls.
End REFERENCES.
Arguments rv_decl {F}. Arguments rv_value {F}. Arguments rp_name {F}. Arguments rp_path {F}. Arguments rp_default {F}. Arguments rp_in {F}.
Arguments AtTerm {F}. Arguments AtFollow {F}. Arguments AtStmt {F}. Arguments AtParam {F}. Arguments AtProc {F}.
Arguments var_decl_at {F V D}. Arguments proc_decl_at {V D}. Arguments stype {V D}. Arguments use_type {F}. Arguments var_use {F V D}. Arguments proc_use {F V D}. Arguments visit_ident {F V D}. Arguments visit_field {F V D}.
Arguments visit_fields {F V D}. Arguments visit_call {F V D}. Arguments visit_new {F V D}. Arguments visit {F V D}. Arguments visit_term {F V D}. Arguments visit_follow {F V D}.
Arguments fresh {F}. Arguments look {F V D}. Arguments look_option {F V D}. Arguments visit_var {F V D}. Arguments visit_decl {F V D}. Arguments visit_decls {F V D}. Arguments visit_typed {F V D}. Arguments visit_caught {F V D}.
Arguments values_of {F}. Arguments run_block {F}. Arguments run_option {F}. Arguments run_arms {F V D}. Arguments run_cases {F V D}. Arguments visit_stmt {F V D}. Arguments visit_block {F V D}. Arguments first_vars {V D}. Arguments start_vars {F}.
Arguments with_params {F V D}. Arguments run {F V D}. Arguments here {F}. Arguments var_uses {F V D}. Arguments self_procs {V D}. Arguments proc_uses {F V D}. Arguments all_uses {F V D}. Arguments all_impls {F V D}. Arguments find_references {F V D}. Arguments find_implementations {F V D}.
