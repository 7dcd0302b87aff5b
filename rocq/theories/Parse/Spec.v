(** What the expression syntax of DM is, as a grammar over tokens, written without reference to the parser.

    Every phrase comes with the set of tokens it would swallow if one of them came next (the last index of each
    judgement): a phrase is delimited when the token after it is not in that set.  This is how the language resolves
    what the bare grammar leaves open, e.g. [new /obj / 2] or [locate(x) in y]. *)
From Coq Require Import List NArith ZArith Bool String.
From Verif Require Import Common.Text Lexer.Punct Lexer.Model Parse.Ast.
Import ListNotations.
Open Scope nat_scope.

(** ** Operators *)
(** Binary operators with their level, 1 binding tightest; all of them group to the left.  The order is that of the DM
    reference; [<>] is another way to write [!=]. *)
Definition binary_op (p : punct) : option (nat * binop) :=
  match p with
  | PPow => Some (1, BPow)
  | PMul => Some (2, BMul) | PSlash => Some (2, BDiv) | PMod => Some (2, BMod) | PFloatMod => Some (2, BFloatMod)
  | PAdd => Some (3, BAdd) | PSub => Some (3, BSub)
  | PLess => Some (4, BLess) | PGreater => Some (4, BGreater) | PLessEq => Some (4, BLessEq)
  | PGreaterEq => Some (4, BGreaterEq) | PLessOrGreater => Some (4, BLessOrGreater)
  | PLShift => Some (5, BLShift) | PRShift => Some (5, BRShift)
  | PEq => Some (6, BEq) | PNotEq | PLessGreater => Some (6, BNotEq) | PEquiv => Some (6, BEquiv)
  | PNotEquiv => Some (6, BNotEquiv)
  | PBitAnd => Some (7, BBitAnd)
  | PBitXor => Some (8, BBitXor)
  | PBitOr => Some (9, BBitOr)
  | PAnd => Some (10, BAnd)
  | POr => Some (11, BOr)
  | _ => None
  end.
(** Level 12 is [c ? a : b].  Level 13, grouping to the right: assignments. *)
Definition assign_op (p : punct) : option assignop :=
  match p with
  | PAssign => Some AAssign | PAddAssign => Some AAdd | PSubAssign => Some ASub | PMulAssign => Some AMul
  | PDivAssign => Some ADiv | PModAssign => Some AMod | PFloatModAssign => Some AFloatMod | PAssignInto => Some AInto
  | PBitAndAssign => Some ABitAnd | PAndAssign => Some AAnd | PBitOrAssign => Some ABitOr | POrAssign => Some AOr
  | PBitXorAssign => Some ABitXor | PLShiftAssign => Some ALShift | PRShiftAssign => Some ARShift
  | _ => None
  end.
(** Level 14 is [a in b], grouping to the left. *)

Definition prefix_op (p : punct) : option unop :=
  match p with
  | PSub => Some Neg | PNot => Some Not | PBitNot => Some BitNot | PPlusPlus => Some PreIncr
  | PMinusMinus => Some PreDecr | PBitAnd => Some Reference | PMul => Some Dereference
  | _ => None
  end.

(** The words with a meaning of their own at the start of a term. *)
Definition reserved : list text :=
  [ lit "new"; lit "list"; lit "alist"; lit "call"; lit "call_ext"; lit "input"; lit "locate"; lit "pick"; lit "null";
    lit "as"; lit "__PROC__"; lit "__TYPE__"; lit "__IMPLIED_TYPE__" ].
(** Those that are plain identifiers when no argument list follows. *)
Definition soft : list text := [ lit "list"; lit "alist"; lit "input"; lit "locate"; lit "pick" ].

Section SPEC.
Variable F : Type.
Notation tok := (token F).
Notation expr := (expr F).
Notation term := (term F).
Notation follow := (follow F).
Notation P p := (TPunct F p).

Definition swallow : Type := tok -> bool.
Definition nothing : swallow := fun _ => false.
Definition punct_in (l : list punct) : swallow :=
  fun t => match t with TPunct _ p => existsb (fun q => if punct_eq_dec p q then true else false) l | _ => false end.
Definition an_ident : swallow := fun t => match t with TIdent _ _ _ => true | _ => false end.
Definition the_word (w : text) : swallow := fun t => match t with TIdent _ i _ => text_eqb i w | _ => false end.
Definition either (A B : swallow) : swallow := fun t => A t || B t.
(** All infix operators. *)
Definition operator : swallow :=
  fun t => match t with
           | TPunct _ p => match binary_op p, assign_op p, p with
                           | None, None, PQuestionMark | None, None, PIn => true
                           | None, None, _ => false
                           | _, _, _ => true
                           end
           | _ => false
           end.
(** The next token, if any, is not swallowed. *)
Definition delimited (A : swallow) (ts : list tok) : Prop := match ts with [] => True | t :: _ => A t = false end.

Definition path_op (p : punct) : option pathop :=
  match p with PSlash => Some PathSlash | PDot => Some PathDot | PCloseColon => Some PathColon | _ => None end.
Definition path_separators : swallow := punct_in [PSlash; PDot; PCloseColon].
(** Access to a member.  A colon directly after a name is such an access, but inside the arms of [?] only while the
    chain still consists of names ([chain]). *)
Definition access_op (chain tern : bool) (p : punct) : option propkind :=
  match p with
  | PDot => Some KDot | PSafeDot => Some KSafeDot | PSafeColon => Some KSafeColon
  | PCloseColon => if chain || negb tern then Some KColon else None
  | _ => None
  end.
Definition follow_start (chain tern : bool) : swallow :=
  fun t => punct_in [PPlusPlus; PMinusMinus; PLBracket; PSafeLBracket; PScope] t ||
           match t with TPunct _ p => match access_op chain tern p with Some _ => true | None => false end | _ => false end.
(** Whether a chain of names stays one. *)
Definition keeps_chain (f : follow) : bool :=
  match f with FIndex _ _ | FCall _ _ _ | FProcRef _ => false | _ => true end.

(** [as obj|turf]: the names, and what they add up to *)
Inductive sp_names : N -> list tok -> Prop :=
  | Names_one i ws n : input_type_of i = Some n -> sp_names n [TIdent F i ws]
  | Names_more i ws n m ts :
      input_type_of i = Some n -> sp_names m ts -> sp_names (N.lor n m) (TIdent F i ws :: P PBitOr :: ts).
Inductive sp_itype : N -> list tok -> swallow -> Prop :=
  | Itype_none : sp_itype 0%N [P PLParen; P PRParen] nothing
  | Itype_names n ts : sp_names n ts -> sp_itype n ts (punct_in [PBitOr]).

(** [/a.b:c], where a separator may also stand alone; the flag: the last one does *)
Inductive sp_segments : list (pathop * text) -> list tok -> bool -> Prop :=
  | Seg_nil : sp_segments [] [] false
  | Seg_named p o i ws ps ts q :
      path_op p = Some o -> sp_segments ps ts q -> sp_segments ((o, i) :: ps) (P p :: TIdent F i ws :: ts) q
  | Seg_bare p o ps ts q :
      path_op p = Some o -> sp_segments ps ts q ->
      sp_segments ps (P p :: ts) (match ts with [] => true | _ => q end).
(** A path of separators only stands for this. *)
Definition whole_path (ps : list (pathop * text)) : list (pathop * text) :=
  match ps with [] => [(PathSlash, lit "__PARSE_ERROR__")] | _ => ps end.

(** [.a?.b] after [new x] *)
Inductive sp_fields : list (propkind * text) -> list tok -> Prop :=
  | Fields_nil : sp_fields [] []
  | Fields_cons p k i ws fs ts :
      access_op true false p = Some k -> sp_fields fs ts -> sp_fields ((k, i) :: fs) (P p :: TIdent F i ws :: ts).

(** What an optional argument list after a phrase that swallows [A] swallows. *)
Definition then_args (args : option (list expr)) (A : swallow) : swallow :=
  match args with None => either A (punct_in [PLParen]) | Some _ => nothing end.

(** [sp_expr l tern e ts A]: [ts] spells [e], the operators outside brackets being of level at most [l]; [tern]: between the
    [?] and the [:] of a conditional, or in its last arm. *)
Inductive sp_expr : nat -> bool -> expr -> list tok -> swallow -> Prop :=
  | S_group l t e ts A : sp_group t e ts A -> sp_expr l t e ts A
  | S_binary l t n p op a ta A b tb B :
      binary_op p = Some (n, op) -> n <= l ->
      sp_expr n t a ta A -> A (P p) = false -> sp_expr (n - 1) t b tb B ->
      sp_expr l t (Bin op a b) (ta ++ P p :: tb) B
  | S_ternary l t c tc C a ta A colon b tb B :
      12 <= l ->
      sp_expr 11 t c tc C -> C (P PQuestionMark) = false ->
      sp_expr 12 true a ta A -> colon = PColon \/ colon = PCloseColon -> A (P colon) = false ->
      sp_expr 12 true b tb B ->
      sp_expr l t (Tern c a b) (tc ++ P PQuestionMark :: ta ++ P colon :: tb) B
  | S_assign l t p op a ta A b tb B :
      assign_op p = Some op -> 13 <= l ->
      sp_expr 12 t a ta A -> A (P p) = false -> sp_expr 13 t b tb B ->
      sp_expr l t (Assign op a b) (ta ++ P p :: tb) B
  | S_in l t a ta A b tb B :
      14 <= l ->
      sp_expr 14 t a ta A -> A (P PIn) = false -> sp_expr 13 t b tb B ->
      sp_expr l t (Bin BIn a b) (ta ++ P PIn :: tb) (either (the_word (lit "to")) B)
  | S_range l t a ta A b tb B ws c tc C :
      14 <= l ->
      sp_expr 14 t a ta A -> A (P PIn) = false ->
      sp_expr 13 t b tb B -> B (TIdent F (lit "to") ws) = false ->
      sp_expr 14 t c tc C ->
      sp_expr l t (Bin BIn a (Bin BTo b c)) (ta ++ P PIn :: tb ++ TIdent F (lit "to") ws :: tc) (either operator C)

(** Prefix operators, a term, and what is applied to it: the postfix ones first, then the prefix ones from the inside
    outwards. *)
with sp_group : bool -> expr -> list tok -> swallow -> Prop :=
  | G t ps us m chain tm M fs tf B :
      Forall2 (fun p u => prefix_op p = Some u) ps us ->
      sp_term m chain tm M -> sp_follows chain t M fs tf B ->
      sp_group t (Base m (fs ++ map FUnary (rev us))) (map (fun p => P p) ps ++ tm ++ tf) B

with sp_follows : bool -> bool -> swallow -> list follow -> list tok -> swallow -> Prop :=
  | Fs_nil chain t M : sp_follows chain t M [] [] (either (follow_start chain t) M)
  | Fs_cons chain t M f tf N fs ts B :
      sp_follow chain t f tf N -> delimited M tf ->
      sp_follows (chain && keeps_chain f) t N fs ts B ->
      sp_follows chain t M (f :: fs) (tf ++ ts) B

with sp_follow : bool -> bool -> follow -> list tok -> swallow -> Prop :=
  | Fo_incr chain t : sp_follow chain t (FUnary PostIncr) [P PPlusPlus] nothing
  | Fo_decr chain t : sp_follow chain t (FUnary PostDecr) [P PMinusMinus] nothing
  | Fo_index chain t e ts A :
      sp_expr 14 false e ts A -> sp_follow chain t (FIndex LNormal e) (P PLBracket :: ts ++ [P PRBracket]) nothing
  | Fo_safe_index chain t e ts A :
      sp_expr 14 false e ts A -> sp_follow chain t (FIndex LSafe e) (P PSafeLBracket :: ts ++ [P PRBracket]) nothing
  | Fo_field chain t p k i ws :
      access_op chain t p = Some k -> sp_follow chain t (FField k i) [P p; TIdent F i ws] (punct_in [PLParen])
  | Fo_call chain t p k i ws es ts :
      access_op chain t p = Some k -> sp_args false es ts ->
      sp_follow chain t (FCall k i es) (P p :: TIdent F i ws :: P PLParen :: ts) nothing
  | Fo_static chain t i ws : sp_follow chain t (FStaticField i) [P PScope; TIdent F i ws] (punct_in [PLParen])
  (* the arguments of [a::b(...)] are read and forgotten *)
  | Fo_procref chain t i ws es ts :
      sp_args false es ts -> sp_follow chain t (FProcRef i) (P PScope :: TIdent F i ws :: P PLParen :: ts) nothing

(** Arguments up to the closing parenthesis; the flag: a comma is due.  Superfluous commas leave no trace. *)
with sp_args : bool -> list expr -> list tok -> Prop :=
  | Args_end c : sp_args c [] [P PRParen]
  | Args_comma c es ts : sp_args false es ts -> sp_args c es (P PComma :: ts)
  | Args_item e te A es ts : sp_expr 14 false e te A -> sp_args true es ts -> sp_args false (e :: es) (te ++ ts)

with sp_pick : bool -> list (option expr * expr) -> list tok -> Prop :=
  | Pick_end c : sp_pick c [] [P PRParen]
  | Pick_comma es ts : sp_pick false es ts -> sp_pick true es (P PComma :: ts)
  | Pick_plain e te A es ts :
      sp_expr 14 false e te A -> sp_pick true es ts -> sp_pick false ((None, e) :: es) (te ++ ts)
  | Pick_weighted w tw W e te A es ts :
      sp_expr 14 false w tw W -> sp_expr 14 false e te A -> sp_pick true es ts ->
      sp_pick false ((Some w, e) :: es) (tw ++ P PSemicolon :: te ++ ts)

(** The variables of a prefab up to the closing brace *)
with sp_vars : bool -> list (text * expr) -> list tok -> Prop :=
  | Vars_end c : sp_vars c [] [P PRBrace]
  | Vars_semicolon c vs ts : sp_vars false vs ts -> sp_vars c vs (P PSemicolon :: ts)
  | Vars_item k ws e te A vs ts :
      sp_expr 14 false e te A -> sp_vars true vs ts ->
      sp_vars false ((k, e) :: vs) (TIdent F k ws :: P PAssign :: te ++ ts)

(** The rest of a prefab whose path begins with [pre] *)
with sp_prefab : list (pathop * text) -> list (pathop * text) -> list (text * expr) -> list tok -> swallow -> Prop :=
  | Prefab_none pre : pre <> [] -> sp_prefab pre pre [] [] path_separators
  | Prefab_path pre ps ts q :
      sp_segments ps ts q -> ts <> [] ->
      sp_prefab pre (whole_path (pre ++ ps)) [] ts
        (either path_separators (either (punct_in [PLBrace]) (fun t => q && an_ident t)))
  | Prefab_vars pre ps ts q vs tv :
      sp_segments ps ts q -> ts <> [] -> sp_vars false vs tv ->
      sp_prefab pre (whole_path (pre ++ ps)) vs (ts ++ P PLBrace :: tv) nothing

with sp_optargs : option (list expr) -> list tok -> Prop :=
  | Optargs_none : sp_optargs None []
  | Optargs_some es ts : sp_args false es ts -> sp_optargs (Some es) (P PLParen :: ts)

(** The parts of an interpolated string after its first piece of text *)
with sp_interp : list (option expr * text) -> list tok -> Prop :=
  | Interp_end s : sp_interp [(None, s)] [TInterpEnd F s]
  | Interp_end_expr e te A s : sp_expr 14 false e te A -> sp_interp [(Some e, s)] (te ++ [TInterpEnd F s])
  | Interp_part s ps ts : sp_interp ps ts -> sp_interp ((None, s) :: ps) (TInterpPart F s :: ts)
  | Interp_part_expr e te A s ps ts :
      sp_expr 14 false e te A -> sp_interp ps ts -> sp_interp ((Some e, s) :: ps) (te ++ TInterpPart F s :: ts)

(** [in] after input() and locate() *)
with sp_inlist : option expr -> list tok -> swallow -> Prop :=
  | In_none : sp_inlist None [] (punct_in [PIn])
  | In_some e te A : sp_expr 14 false e te A -> sp_inlist (Some e) (P PIn :: te) (either operator A)

(** Terms; the flag: a name that a colon can follow *)
with sp_term : term -> bool -> list tok -> swallow -> Prop :=
  | T_int z : sp_term (MInt z) false [TInt F z] nothing
  | T_float f : sp_term (MFloat f) false [TFloat F f] nothing
  | T_string s : sp_term (MString s) false [TString F s] nothing
  | T_resource s : sp_term (MResource s) false [TResource F s] nothing
  | T_null ws : sp_term MNull false [TIdent F (lit "null") ws] nothing
  | T_proc ws : sp_term MProc false [TIdent F (lit "__PROC__") ws] nothing
  | T_type ws : sp_term MType false [TIdent F (lit "__TYPE__") ws] nothing
  | T_implied ws : sp_term MImplied false [TIdent F (lit "__IMPLIED_TYPE__") ws] nothing
  | T_ident i ws : ~ In i reserved -> sp_term (MIdent i) true [TIdent F i ws] (punct_in [PLParen])
  | T_soft i ws : In i soft -> sp_term (MIdent i) false [TIdent F i ws] (punct_in [PLParen])
  | T_call i ws es ts :
      ~ In i reserved -> sp_args false es ts -> sp_term (MCall i es) false (TIdent F i ws :: P PLParen :: ts) nothing
  | T_list i ws es ts :
      i = lit "list" \/ i = lit "alist" -> sp_args false es ts ->
      sp_term (MList es) false (TIdent F i ws :: P PLParen :: ts) nothing
  | T_parent es ts : sp_args false es ts -> sp_term (MParentCall es) false (P PSuper :: P PLParen :: ts) nothing
  | T_self es ts : sp_args false es ts -> sp_term (MSelfCall es) false (P PDot :: P PLParen :: ts) nothing
  | T_dot : sp_term (MIdent (lit ".")) false [P PDot] (either an_ident (punct_in [PLParen]))
  | T_dot_path i ws path vars ts A :
      sp_prefab [(PathDot, i)] path vars ts A -> sp_term (MPrefab path vars) false (P PDot :: TIdent F i ws :: ts) A
  | T_path p path vars ts A :
      p = PSlash \/ p = PCloseColon -> sp_prefab [] path vars (P p :: ts) A ->
      sp_term (MPrefab path vars) false (P p :: ts) A
  | T_global i ws : sp_term (MGlobalIdent i) false [P PScope; TIdent F i ws] (punct_in [PLParen])
  | T_global_call i ws es ts :
      sp_args false es ts -> sp_term (MGlobalCall i es) false (P PScope :: TIdent F i ws :: P PLParen :: ts) nothing
  | T_paren e te A :
      sp_expr 14 false e te A -> sp_term (MExpr e) false (P PLParen :: te ++ [P PRParen]) nothing
  | T_interp s ps ts : sp_interp ps ts -> sp_term (MInterp s ps) false (TInterpBegin F s :: ts) nothing
  | T_new ws args ta :
      sp_optargs args ta ->
      sp_term (MNewImplicit args) false (TIdent F (lit "new") ws :: ta) (then_args args (either path_separators an_ident))
  | T_new_dot ws args ta :
      sp_optargs args ta ->
      sp_term (MNewMini (lit ".") [] args) false (TIdent F (lit "new") ws :: P PDot :: ta) (then_args args an_ident)
  | T_new_mini ws i ws' fs tf args ta :
      sp_fields fs tf -> sp_optargs args ta ->
      sp_term (MNewMini i fs args) false (TIdent F (lit "new") ws :: TIdent F i ws' :: tf ++ ta)
        (then_args args (punct_in [PDot; PCloseColon; PSafeDot; PSafeColon]))
  | T_new_dot_path ws i ws' path vars ts A args ta :
      sp_prefab [(PathDot, i)] path vars ts A -> sp_optargs args ta ->
      sp_term (MNewPrefab path vars args) false (TIdent F (lit "new") ws :: P PDot :: TIdent F i ws' :: ts ++ ta)
        (then_args args A)
  | T_new_path ws p path vars ts A args ta :
      p = PSlash \/ p = PCloseColon -> sp_prefab [] path vars (P p :: ts) A -> sp_optargs args ta ->
      sp_term (MNewPrefab path vars args) false (TIdent F (lit "new") ws :: P p :: ts ++ ta) (then_args args A)
  | T_dyncall ws es ts es' ts' :
      sp_args false es ts -> sp_args false es' ts' ->
      sp_term (MDynCall es es') false (TIdent F (lit "call") ws :: P PLParen :: ts ++ P PLParen :: ts') nothing
  | T_extcall ws f tf A es ts :
      sp_expr 14 false f tf A -> sp_args false es ts ->
      sp_term (MExtCall None f es) false
        (TIdent F (lit "call_ext") ws :: P PLParen :: tf ++ P PRParen :: P PLParen :: ts) nothing
  | T_extcall_lib ws l tl L f tf A es ts :
      sp_expr 14 false l tl L -> sp_expr 14 false f tf A -> sp_args false es ts ->
      sp_term (MExtCall (Some l) f es) false
        (TIdent F (lit "call_ext") ws :: P PLParen :: tl ++ P PComma :: tf ++ P PRParen :: P PLParen :: ts) nothing
  | T_input ws es ts il ti I :
      sp_args false es ts -> sp_inlist il ti I ->
      sp_term (MInput es None il) false (TIdent F (lit "input") ws :: P PLParen :: ts ++ ti)
        (either I (the_word (lit "as")))
  | T_input_as ws es ts ws' n tn A il ti I :
      sp_args false es ts -> sp_itype n tn A -> sp_inlist il ti I ->
      sp_term (MInput es (Some n) il) false
        (TIdent F (lit "input") ws :: P PLParen :: ts ++ TIdent F (lit "as") ws' :: tn ++ ti)
        (either I (match il with None => A | Some _ => the_word (lit "as") end))
  | T_locate ws es ts il ti I :
      sp_args false es ts -> sp_inlist il ti I ->
      match es with Bin BIn _ _ :: _ => False | _ => True end ->
      match il with Some _ => List.length es <= 1 | None => True end ->
      sp_term (MLocate es il) false (TIdent F (lit "locate") ws :: P PLParen :: ts ++ ti) I
  | T_pick ws es ts :
      sp_pick false es ts -> sp_term (MPick es) false (TIdent F (lit "pick") ws :: P PLParen :: ts) nothing
  | T_as ws : sp_term (MAs 0) false [TIdent F (lit "as") ws; P PLParen; P PRParen] nothing
  | T_as_type ws n tn A :
      sp_itype n tn A ->
      sp_term (MAs n) false (TIdent F (lit "as") ws :: P PLParen :: tn ++ [P PRParen]) nothing.

(** A phrase of level [l] that is a whole expression in front of [rest]: nothing of [rest] belongs to it. *)
Definition ends_before (l : nat) (A : swallow) (rest : list tok) : Prop :=
  delimited A rest /\
  match rest with
  | TPunct _ p :: _ =>
      match binary_op p with Some (n, _) => l < n | None => True end /\
      (p = PQuestionMark -> l < 12) /\ (assign_op p <> None -> l < 13) /\ (p = PIn -> l < 14)
  | _ => True
  end.
End SPEC.
