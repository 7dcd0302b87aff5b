(** What the checker makes of an expression.  Models crates/dreamchecker/src/lib.rs (cited without file name): StaticType 27-92, Analysis
    209-330, visit_expression 2186-2368, visit_term 2370-2695, visit_new 2697-2728, check_type_sleepers 2730-2754, visit_follow
    2756-3030, check_operator_overload 3032-3066, visit_unary 3068-3091, check_negated_bitwise 3093-3118, visit_binary 3120-3135,
    visit_call 3214-3477, visit_arguments 3479-3503, static_type 3505-3507, global_builtin_returntype 3509-3533.

    Simplifications: locations, hints for fixes and the sets of assumptions (which nothing looks at) are left out.  Everything that the
    analysis does besides is an event: an error, an edge of the call tree, a reason for sleeping or for not being pure.  The events come
    in a list whose order is not that of the program.  The checks of named arguments are in Kwargs.v, they need what [Calls] says. *)
From Coq Require Import List Arith NArith ZArith Bool String.
From Verif Require Import Common.Text Objtree.Ispath Objtree.Model Parse.Ast Checker.CallTree Checker.Kwargs Checker.Directives Checker.TypeExpr Checker.Filters.
Import ListNotations.
Open Scope nat_scope.

(** 209-232 Analysis *)
Record ana : Type := { x_type : sty; x_val : option val; x_impure : bool }.
Definition empty : ana := {| x_type := SNone; x_val := None; x_impure := false |}.
Definition constant : ana := {| x_type := SNone; x_val := Some VOther; x_impure := false |}.
Definition of_type (s : sty) : ana := {| x_type := s; x_val := None; x_impure := false |}.
(** 42-49 basic_type *)
Definition basic_type (s : sty) : option nat := match s with SNone => None | SType i => Some i | SList l _ => Some l | SProc => None end.

(** objtree.rs 62-83 VarDeclaration *)
Record vdecl : Type := { vd_type : list text; vd_private : bool; vd_protected : bool }.

Section EXPRS.
Variables F V D L : Type.
Variable t : objtree V D.
(** AnalyzeObjectTree, 391-415: the directives, the return types; the variables of each type, with their declarations if they have one *)
Variable rules : env L.
Variable returns : procref -> option texpr.
Variable vars : nat -> list (text * option vdecl).
Variable builtin : procref -> bool.
(** ast.rs 1420-1440 ProcDeclKind: "proc" or "verb" *)
Variable kind : D -> text.
(** AnalyzeProc, 1405-1412: the procedure, and whether its code is in a context of its own at this place *)
Variable self : procref.
Variable new_context : bool.
Variable locals : text -> option ana.
Notation size := (List.length (graph t)).
Notation self_type := (pr_ty self).

Inductive event : Type :=
  | UndefinedVar (x : text) | UndefinedGlobal (x : text) | BadPath (p : list (pathop * text)) | UndefinedProc (x : text) (on : nat)
  | UndefinedGlobalProc (x : text) | NoParent | NoHint | NoNew (ty : nat) | BadIndex (ty : nat) | UndefinedField (x : text) (on : option nat)
  | PrivateVar (x : text) (on : nat) | ProtectedVar (x : text) (on : nat) | FieldNeedsType (x : text) | CallNeedsType (x : text)
  | NoTypepath (x : text) | NotTypepath (x : text) | NoSuchTypepath (p : list text) | NoOperator (op : text) (s : sty)
  | Trespass (tr : trespass L) | TypeProblem (p : problem) | AmbiguousIn (op : option unop) | AmbiguousNot (op : binop) | EmptyFind | FilterError (e : filter_error F)
  | Calls (p : procref) (src : nat) (exact inherit fresh : bool) (args : list (option text)) | Sleeps (why : text) | Impure (why : text) | CallsParentProc.
Definition out : Type := (ana * list event)%type.

(** objtree.rs 745-757 find, expect; expect panics for a type that is not there, which the builtin types always are *)
Definition expect (path : String.string) : nat := match find t (lit path) with Some i => i | None => 0 end.
Notation list_type := (expect "/list").
(** objtree.rs 204-219 get_var_declaration *)
Definition var_decl (i : nat) (x : text) : option vdecl :=
  match search size (parent_type t) (fun j => match get x (vars j) with Some d => d | None => None end) i with Some d => d | None => None end.
Definition proc_at (i : nat) (x : text) : option procref := match get_proc t size i x with Some p => p | None => None end.
(** objtree.rs 402-434; 541-546 NavigatePathResult::ty *)
Definition type_at (p : list (pathop * text)) : option nat :=
  match navigate_path t size self_type p with
  | Some (Some (NType i)) | Some (Some (NGroup i _)) => Some i
  | Some (Some (NProc r _)) => Some (pr_ty r)
  | _ => None
  end.
(** ast.rs 883-888 treepath_from_str *)
Definition words (s : text) : list text := filter (fun w => match w with [] => false | _ => true end) (split_char SLASH s).
Definition type_value (i : nat) : ana := {| x_type := SNone; x_val := Some (VPath (words (path_of t i))); x_impure := false |}.
(** 1172-1182, 3504-3507: the type of a variable *)
Definition var_typed (of : list text) (impure : bool) : out :=
  match static_type t list_type of with
  | Good s => ({| x_type := s; x_val := None; x_impure := impure |}, [])
  | Bad p => ({| x_type := SNone; x_val := None; x_impure := impure |}, [TypeProblem p])
  end.
(** 80-92 is_list *)
Definition is_list (s : sty) : bool := match s with SType i => text_eqb (path_of t i) (lit "/list") | SList _ _ => true | _ => false end.
(** 3120-3135 visit_binary *)
Definition visit_binary (l : ana) (op : binop) : ana :=
  if is_list (x_type l) then match op with BAdd | BSub | BBitOr | BBitAnd | BBitXor => of_type (x_type l) | _ => empty end else empty.
(** 2234-2325: the left side of [in] *)
Definition in_faults (l : expr F) : list event :=
  match l with
  | Base _ fs => match List.find (fun f => match f with FUnary _ => true | _ => false end) fs with Some (FUnary op) => [AmbiguousIn (Some op)] | _ => [] end
  | _ => [AmbiguousIn None]
  end.
(** 3093-3118 check_negated_bitwise *)
Definition not_faults (op : binop) (l : expr F) : list event :=
  match l with
  | Base _ fs => if existsb (fun f => match f with FUnary Not => true | _ => false end) fs then [AmbiguousNot op] else []
  | _ => []
  end.
(** 2209-2228: [<<] *)
Definition shift_faults (l : ana) : list event :=
  match x_type l with
  | SType i => if i =? expect "/mob" then [Impure (lit "LShift onto mob")] else if i =? expect "/savefile" then [Impure (lit "LShift onto savefile")]
               else if i =? list_type then [Impure (lit "LShift onto list")] else []
  | _ => []
  end.
Definition operator_faults (op : binop) (l : expr F) (a : ana) : list event :=
  match op with
  | BLShift => shift_faults a
  | BIn => in_faults l
  | BBitAnd | BBitOr | BBitXor => not_faults op l
  | _ => []
  end.

(** 3260-3276, 3484-3498; ast.rs 1283-1289: the name of an argument *)
Definition keyword (e : expr F) : option text :=
  match e with
  | Assign AAssign (Base (MIdent k) []) _ => Some k
  | Assign AAssign (Base (MString k) []) _ => Some k
  | _ => None
  end.
Definition arg_value (e : expr F) : expr F := match keyword e, e with Some _, Assign _ _ r => r | _, _ => e end.

(** 3509-3533 global_builtin_returntype *)
Definition plain_list : sty := SList list_type SNone.
Definition list_of (of : String.string) : sty := SList list_type (SType (expect of)).
Definition builtin_types : list (text * sty) :=
  map (fun e => (lit (fst e), snd e))
    [("argslist", plain_list); ("block", list_of "/turf"); ("bounds", list_of "/atom"); ("flist", plain_list); ("get_step", SType (expect "/turf"));
     ("hearers", list_of "/mob"); ("icon", SType (expect "/icon")); ("icon_states", plain_list); ("matrix", SType (expect "/matrix")); ("obounds", list_of "/atom");
     ("ohearers", list_of "/mob"); ("orange", list_of "/atom"); ("oview", list_of "/atom"); ("oviewers", list_of "/mob"); ("range", list_of "/atom");
     ("regex", SType (expect "/regex")); ("splittext", plain_list); ("typesof", plain_list); ("view", list_of "/atom"); ("viewers", list_of "/mob")]%string.
Definition builtin_type (name : text) : sty := match get name builtin_types with Some s => s | None => SNone end.

(** An argument after its analysis: its name, the analysis and the expression *)
Record garg : Type := { ga_name : option text; ga_ana : ana; ga_expr : expr F }.
Definition positional (args : list garg) : list ana := map ga_ana (filter (fun a => match ga_name a with None => true | Some _ => false end) args).
Definition to_filter (a : garg) : arg F := {| g_name := ga_name a; g_val := x_val (ga_ana a); g_expr := ga_expr a |}.
Definition to_types (a : garg) : option text * analysis :=
  (ga_name a, {| a_path := match x_val (ga_ana a) with Some (VPath p) => Some p | _ => None end; a_type := x_type (ga_ana a) |}).
Definition global (p : procref) (name : String.string) : bool := is_root t (pr_ty p) && text_eqb (pr_name p) (lit name).
(** 3358-3376: astype() *)
Definition astype (p : procref) (args : list garg) : option sty :=
  if global p "astype" then
    let first := match nth_error (positional args) 0 with Some a => Some (x_type a) | None => None end in
    match nth_error (positional args) 1 with
    | Some {| x_val := Some (VPath q) |} => match find t (render q) with Some i => Some (SType i) | None => first end
    | _ => first
    end
  else None.
(** 3379-3391: Find() *)
Definition find_faults (p : procref) (args : list garg) : list event :=
  if builtin p && match args with [] => true | _ => false end && text_eqb (pr_name p) (lit "Find") &&
     (text_eqb (path_of t (pr_ty p)) (lit "/list") || text_eqb (path_of t (pr_ty p)) (lit "/alist")) then [EmptyFind] else [].
(** 3452-3476 *)
Definition returned (p : procref) (args : list garg) : out :=
  if is_root t (pr_ty p) && builtin p then (of_type (builtin_type (pr_name p)), [])
  else let '(s, problems) := call_type t list_type (returns p) (map to_types args) in (of_type s, map TypeProblem problems).
(** 3355-3477: a call after the loop over the arguments *)
Definition after_args (p : procref) (args : list garg) : out :=
  match astype p args with
  | Some s => (of_type s, [])
  | None =>
      let filters := if global p "filter" then filter_check (map to_filter args) else ([], true) in
      let rest := if snd filters then returned p args else (empty, []) in
      (fst rest, find_faults p args ++ map FilterError (fst filters) ++ snd rest)
  end.
(** 3214-3477 visit_call; [rs]: what the arguments lead to *)
Definition visit_call (p : procref) (src : nat) (exact inherit : bool) (args : list (expr F)) (rs : list out) : out :=
  let gs := map (fun e => {| ga_name := keyword (fst e); ga_ana := fst (snd e); ga_expr := arg_value (fst e) |}) (combine args rs) in
  let '(a, evs) := after_args p gs in
  (a, Calls p src exact inherit new_context (map keyword args) :: map Trespass (check_private t rules self_type p) ++ flat_map snd rs ++ evs).

(** 2471-2481, 2730-2754 *)
Definition sleep_names : list text := map lit ["sleep"; "alert"; "shell"; "winexists"; "winget"]%string.
Definition sleeps (why : text) : list event := if new_context then [] else [Sleeps why].
Definition type_sleepers (ty : nat) (x : text) : list event :=
  if text_eqb (path_of t ty) (lit "/client") then if existsb (text_eqb x) (map lit ["SoundQuery"; "MeasureText"]%string) then sleeps (lit "client." ++ x) else []
  else if text_eqb (path_of t ty) (lit "/world") then if existsb (text_eqb x) (map lit ["Import"; "Export"]%string) then sleeps (lit "world." ++ x) else []
  else [].
(** 2697-2728 visit_new *)
Definition no_new : list text := map lit ["/list"; "/alist"; "/vector"; "/pixloc"]%string.
Definition visit_new (ty : nat) (args : list (expr F)) (rs : list out) : out :=
  (empty,
   match proc_at ty (lit "New") with
   | Some p => snd (visit_call p ty true false args rs)
   | None => if existsb (text_eqb (path_of t ty)) no_new then [] else [NoNew ty]
   end).
(** 2870-2897, 2972-3000: the type before [::] *)
Definition static_target (a : ana) (x : text) : nat + event :=
  match basic_type (x_type a) with
  | Some i => inl i
  | None =>
      match x_val a with
      | None => inr (NoTypepath x)
      | Some (VPath p) => match find t (render p) with Some i => inl i | None => inr (NoSuchTypepath p) end
      | Some _ => inr (NotTypepath x)
      end
  end.
(** 2911-2933: a call from outside of a private procedure, which is not followed *)
Definition blocked (ty : nat) (p : procref) : option (trespass L) :=
  match get_self_or_parent t (e_private rules) p with
  | Some (q, true, l) => if ty =? pr_ty q then None else Some (CallsPrivate L q l)
  | _ => None
  end.
(** 2934-2954 *)
Definition protected_faults (p : procref) : list (trespass L) :=
  match get_self_or_parent t (e_protected rules) p with
  | Some (q, true, l) => if tree_sub t self_type (pr_ty q) then [] else [CallsProtected L q l]
  | _ => []
  end.
Definition proc_fields : list text := map lit ["type"; "name"; "desc"; "category"; "invisibility"]%string.
(** 2814-2869: a field *)
Definition visit_field (a : ana) (x : text) : out :=
  match x_type a with
  | SProc => (empty, if existsb (text_eqb x) proc_fields then [] else [UndefinedField x None])
  | s =>
      match basic_type s with
      | None => (empty, [FieldNeedsType x])
      | Some ty =>
          if text_eqb (path_of t ty) (lit "/callee") && text_eqb x (lit "proc") then (of_type SProc, [])
          else match var_decl ty x with
               | None => (empty, [UndefinedField x (Some ty)])
               | Some d =>
                   let r := var_typed (vd_type d) false in
                   (fst r, (if negb (ty =? self_type) && vd_private d then [PrivateVar x ty]
                            else if negb (tree_sub t self_type ty) && vd_protected d then [ProtectedVar x ty] else []) ++ snd r)
               end
      end
  end.
(** 3032-3066 check_operator_overload *)
Definition visit_overload (a : ana) (op : String.string) : out :=
  let pre := if x_impure a then [Impure (lit op ++ lit " done on non-local var")] else [] in
  match x_type a with
  | SNone | SProc => (empty, pre)
  | SType i => match proc_at i (lit op) with
               | Some p => let r := visit_call p i true false [] [] in (fst r, pre ++ snd r)
               | None => (empty, pre ++ [NoOperator (lit op) (SType i)])
               end
  | SList l k => (empty, pre ++ [NoOperator (lit op) (SList l k)])
  end.
(** 3068-3091 visit_unary *)
Definition visit_unary (a : ana) (op : unop) : out :=
  match op with
  | PreIncr | PostIncr => visit_overload a "operator++"
  | PreDecr | PostDecr => visit_overload a "operator--"
  | _ => (empty, [])
  end.
(** 2397-2424: a name *)
Definition visit_ident (x : text) : out :=
  match locals x with
  | Some a => (a, [])
  | None =>
      if text_eqb x (lit "type") then (type_value self_type, [])
      else match var_decl self_type x with
           | Some d => var_typed (vd_type d) true
           | None => (empty, [UndefinedVar x])
           end
  end.

(** 2186-2368 visit_expression, 2370-2695 visit_term, 2756-3030 visit_follow *)
Fixpoint visit (hint : option nat) (e : expr F) {struct e} : out :=
  match e with
  | Base x fs =>
      let '(a, evs) := visit_term (match fs with [] => hint | _ => None end) x in
      (fun r : out => (fst r, evs ++ snd r)) ((fix follows (a : ana) (fs : list (follow F)) {struct fs} : out :=
         match fs with
         | [] => (a, [])
         | f :: fs' => let '(b, ev1) := visit_follow a f in let '(c, ev2) := follows b fs' in (c, ev1 ++ ev2)
         end) a fs)
  | Bin op l r =>
      let h := match op with BOr => hint | _ => None end in
      let '(a, ev1) := visit h l in
      let '(_, ev2) := visit h r in
      (visit_binary a op, ev1 ++ ev2 ++ operator_faults op l a)
  | Assign _ l r =>
      let '(a, ev1) := visit None l in
      let '(b, ev2) := visit (basic_type (x_type a)) r in
      (b, ev1 ++ (if x_impure a then [Impure (lit "Assignment on purity breaking expression")] else []) ++ ev2)
  | Tern c a b =>
      let '(_, ev1) := visit None c in
      let '(r, ev2) := visit hint a in
      let '(_, ev3) := visit hint b in
      (r, ev1 ++ ev2 ++ ev3)
  end
with visit_term (hint : option nat) (x : term F) {struct x} : out :=
  let arg (e : expr F) : out := match keyword e with Some _ => match e with Assign _ _ r => visit None r | _ => (empty, []) end | None => visit None e end in
  let option_args (o : option (list (expr F))) : list out := match o with Some l => map arg l | None => [] end in
  let maybe (o : option (expr F)) : list event := match o with Some e => snd (visit None e) | None => [] end in
  match x with
  | MNull | MInt _ | MFloat _ | MResource _ => (constant, [])
  | MString s => ({| x_type := SNone; x_val := Some (VText s); x_impure := false |}, [])
  | MAs _ => (empty, [])
  | MIdent name => visit_ident name
  | MGlobalIdent name => match var_decl 0 name with Some d => var_typed (vd_type d) true | None => (empty, [UndefinedGlobal name]) end
  | MExpr e => visit hint e
  | MPrefab path _ => match type_at path with Some i => (type_value i, []) | None => (empty, [BadPath path]) end
  | MInterp _ parts => (empty, flat_map (fun p => match fst p with Some e => snd (visit None e) | None => [] end) parts)
  | MCall name args =>
      let r := match proc_at self_type name with
               | Some p => visit_call p self_type false true args (map arg args)
               | None => if text_eqb name (lit "__PROC__") then visit_call self self_type false true args (map arg args)
                         else if text_eqb name (lit "SpacemanDMM_unlint") then (empty, [])
                         else if text_eqb name (lit "SpacemanDMM_debug") then (empty, flat_map (fun e => snd (visit None e)) args)
                         else (empty, [UndefinedProc name self_type])
               end in
      (fst r, (if existsb (text_eqb name) sleep_names then sleeps name else []) ++ type_sleepers self_type name ++ snd r)
  | MSelfCall args => visit_call self self_type true true args (map arg args)
  | MParentCall args =>
      let r := match parent_proc t size self with
               | Some (Some p) => visit_call p self_type true true args (map arg args)
               | _ => (empty, [NoParent])
               end in (fst r, CallsParentProc :: snd r)
  | MGlobalCall name args =>
      match proc_at 0 name with Some p => visit_call p 0 true false args (map arg args) | None => (empty, [UndefinedGlobalProc name]) end
  | MNewImplicit args => match hint with Some i => visit_new i (match args with Some l => l | None => [] end) (option_args args) | None => (empty, [NoHint]) end
  | MNewPrefab path _ args => match type_at path with Some i => visit_new i (match args with Some l => l | None => [] end) (option_args args) | None => (empty, [BadPath path]) end
  | MNewMini _ _ _ => (empty, [])
  | MList args => (of_type (SType list_type), flat_map (fun e => snd (arg e)) args)
  | MInput args _ in_list => (empty, sleeps (lit "input") ++ flat_map (fun e => snd (arg e)) args ++ maybe in_list)
  | MLocate args in_list => (empty, flat_map (fun e => snd (arg e)) args ++ maybe in_list)
  | MPick choices => (empty, flat_map (fun c => (match fst c with Some e => snd (visit None e) | None => [] end) ++ snd (visit None (snd c))) choices)
  | MDynCall a b => (empty, flat_map (fun e => snd (arg e)) a ++ flat_map (fun e => snd (arg e)) b)
  | MExtCall library function args => (empty, maybe library ++ snd (visit None function) ++ flat_map (fun e => snd (arg e)) args)
  | MType => (type_value self_type, [])
  | MProc => (empty, [])
  | MImplied => match hint with Some _ => (type_value self_type, []) | None => (empty, []) end
  end
with visit_follow (a : ana) (f : follow F) {struct f} : out :=
  let arg (e : expr F) : out := match keyword e with Some _ => match e with Assign _ _ r => visit None r | _ => (empty, []) end | None => visit None e end in
  match f with
  | FUnary op => visit_unary a op
  | FField KColon _ | FField KSafeColon _ => (empty, [])
  | FField _ x => visit_field a x
  | FCall KColon _ args | FCall KSafeColon _ args => (empty, flat_map (fun e => snd (arg e)) args)
  | FCall _ x args =>
      match basic_type (x_type a) with
      | None => (empty, [CallNeedsType x])
      | Some ty =>
          let r := match proc_at ty x with
                   | None => (empty, [UndefinedProc x ty])
                   | Some p =>
                       match blocked ty p with
                       | Some tr => (empty, [Trespass tr])
                       | None => let r := visit_call p ty false false args (map arg args) in (fst r, map Trespass (protected_faults p) ++ snd r)
                       end
                   end in
          (fst r, type_sleepers ty x ++ snd r)
      end
  | FIndex _ e =>
      let evs := snd (visit None e) in
      match x_type a with
      | SList _ keys => (of_type keys, evs)
      | SType i => (a, evs ++ match proc_at i (lit "operator[]") with None => [BadIndex i] | Some _ => [] end)
      | _ => (a, evs)
      end
  | FStaticField x =>
      match static_target a x with
      | inr ev => (empty, [ev])
      | inl i => match var_decl i x with Some d => var_typed (vd_type d) false | None => (empty, [UndefinedField x (Some i)]) end
      end
  | FProcRef x =>
      match static_target a x with
      | inr ev => (empty, [ev])
      | inl i =>
          match proc_at i x with
          | None => (empty, [UndefinedProc x i])
          | Some p =>
              let k := match get_proc_declaration t size (pr_ty p) x with Some (Some d) => [kind d] | _ => [] end in
              ({| x_type := SNone; x_val := Some (VPath (words (path_of t i) ++ k ++ [x])); x_impure := false |}, [])
          end
      end
  end.
End EXPRS.
Arguments UndefinedVar {F L}. Arguments UndefinedGlobal {F L}. Arguments BadPath {F L}. Arguments UndefinedProc {F L}. Arguments UndefinedGlobalProc {F L}. Arguments NoParent {F L}. Arguments NoHint {F L}.
Arguments NoNew {F L}. Arguments BadIndex {F L}. Arguments UndefinedField {F L}. Arguments PrivateVar {F L}. Arguments ProtectedVar {F L}. Arguments FieldNeedsType {F L}. Arguments CallNeedsType {F L}.
Arguments NoTypepath {F L}. Arguments NotTypepath {F L}. Arguments NoSuchTypepath {F L}. Arguments NoOperator {F L}. Arguments Trespass {F L}. Arguments TypeProblem {F L}. Arguments AmbiguousIn {F L}. Arguments AmbiguousNot {F L}.
Arguments EmptyFind {F L}. Arguments FilterError {F L}. Arguments Calls {F L}. Arguments Sleeps {F L}. Arguments Impure {F L}. Arguments CallsParentProc {F L}.
Arguments ga_name {F}. Arguments ga_ana {F}. Arguments ga_expr {F}. Arguments positional {F}. Arguments to_filter {F}. Arguments to_types {F}. Arguments keyword {F}. Arguments arg_value {F}.
Arguments expect {V D}. Arguments var_decl {V D}. Arguments proc_at {V D}. Arguments type_at {V D}. Arguments type_value {V D}. Arguments var_typed {F V D L}. Arguments is_list {V D}. Arguments visit_binary {V D}.
Arguments in_faults {F L}. Arguments not_faults {F L}. Arguments shift_faults {F V D L}. Arguments operator_faults {F V D L}. Arguments builtin_type {V D}. Arguments global {V D}. Arguments astype {F V D}. Arguments find_faults {F V D L}.
Arguments returned {F V D L}. Arguments after_args {F V D L}. Arguments visit_call {F V D L}. Arguments sleeps {F L}. Arguments type_sleepers {F V D L}. Arguments visit_new {F V D L}. Arguments static_target {F V D L}. Arguments blocked {V D L}.
Arguments protected_faults {V D L}. Arguments visit_field {F V D L}. Arguments visit_overload {F V D L}. Arguments visit_unary {F V D L}. Arguments visit_ident {F V D L}. Arguments visit {F V D L}. Arguments visit_term {F V D L}. Arguments visit_follow {F V D L}.
