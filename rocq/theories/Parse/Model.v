(** The expression parser, crates/dreammaker/src/parser.rs (cited as parser.rs).

    Simplifications.  The parser pulls tokens from an iterator with one token of lookahead and puts documentation
    comments aside (parser.rs:497-526 peek, take); here the tokens not yet taken are a list, without the documentation
    comments, and the end of the list is [Token::Eof] (no pattern of the expression parser takes Eof, so the panic
    after a second Eof cannot be reached from here).  Locations, annotations and the texts "expected ..." of the
    messages are not modelled.  [belongs_to] (the identifiers of the chain so far) influences only annotations and
    one test for emptiness, so it is the Boolean "not empty".  Loops and recursion take fuel; [parse_fuel] provides
    enough (theorem C44_terminates). *)
From Coq Require Import List NArith ZArith Bool String.
From Verif Require Import Common.Text Lexer.Punct Lexer.Model Parse.Ast.
Import ListNotations.
Open Scope nat_scope.

(** ** Operator table *)
(** parser.rs:149-155 Op *)
Inductive oper : Set := OBin (op : binop) | OAssign (op : assignop) | OTern.
(** parser.rs:182-186 enum Strength, in the order of the table: the smaller binds tighter *)
Inductive strength : Set :=
  | SPow | SMul | SAdd | SCompare | SShift | SEquality | SBitAnd | SBitXor | SBitOr | SAnd | SOr | SConditional
  | SAssign | SIn.
(** derive(Ord) on Strength *)
Definition rank (s : strength) : nat :=
  match s with
  | SPow => 1 | SMul => 2 | SAdd => 3 | SCompare => 4 | SShift => 5 | SEquality => 6 | SBitAnd => 7 | SBitXor => 8
  | SBitOr => 9 | SAnd => 10 | SOr => 11 | SConditional => 12 | SAssign => 13 | SIn => 14
  end.
(** parser.rs:132-136 OpInfo *)
Record opinfo : Set := { o_strength : strength; o_token : punct; o_oper : oper }.
Definition bop (s : strength) (p : punct) (o : binop) : opinfo := {| o_strength := s; o_token := p; o_oper := OBin o |}.
Definition aop (p : punct) (o : assignop) : opinfo := {| o_strength := SAssign; o_token := p; o_oper := OAssign o |}.
(** parser.rs:197-286 BINARY_OPS *)
Definition BINARY_OPS : list opinfo :=
  [ bop SPow PPow BPow;
    bop SMul PMul BMul; bop SMul PSlash BDiv; bop SMul PMod BMod; bop SMul PFloatMod BFloatMod;
    bop SAdd PAdd BAdd; bop SAdd PSub BSub;
    bop SCompare PLess BLess; bop SCompare PGreater BGreater; bop SCompare PLessEq BLessEq;
    bop SCompare PGreaterEq BGreaterEq; bop SCompare PLessOrGreater BLessOrGreater;
    bop SShift PLShift BLShift; bop SShift PRShift BRShift;
    bop SEquality PEq BEq; bop SEquality PNotEq BNotEq; bop SEquality PLessGreater BNotEq;
    bop SEquality PEquiv BEquiv; bop SEquality PNotEquiv BNotEquiv;
    bop SBitAnd PBitAnd BBitAnd; bop SBitXor PBitXor BBitXor; bop SBitOr PBitOr BBitOr;
    bop SAnd PAnd BAnd; bop SOr POr BOr;
    {| o_strength := SConditional; o_token := PQuestionMark; o_oper := OTern |};
    aop PAssign AAssign; aop PAddAssign AAdd; aop PSubAssign ASub; aop PMulAssign AMul; aop PDivAssign ADiv;
    aop PModAssign AMod; aop PFloatModAssign AFloatMod; aop PBitAndAssign ABitAnd; aop PBitOrAssign ABitOr;
    aop PBitXorAssign ABitXor; aop PLShiftAssign ALShift; aop PRShiftAssign ARShift; aop PAssignInto AInto;
    aop PAndAssign AAnd; aop POrAssign AOr;
    bop SIn PIn BIn ].
Definition peqb (p q : punct) : bool := if punct_eq_dec p q then true else false.

Section PARSER.
Variable F : Type.
Notation tok := (token F).
Notation expr := (expr F).
Notation term := (term F).
Notation follow := (follow F).

(** What the parser registers with the context. *)
Inductive diag : Type :=
  | DParse            (* describe_parse_error, registered *)
  | DMissingElse | DNullParens | DLocateIn | DLocateArgs | DAsOrder | DBadInput (i : text)
  (* from the statements, Stmt/Model.v *)
  | DPathLead | DPathSeparator | DPathEmpty | DNoEffect (flag : N) | DAsLocal | DEmptyCase
  (* from the object tree, Tree/Model.v *)
  | DNested | DNoName | DSubBlock | DNoEffectItem | DNoBody | DRelativeType | DRelativeProc
  | DVarInParam | DStaticInParam | DSemicolonInParam | DReturnType.

(** The tokens still to come and the diagnostics registered so far, oldest first. *)
Record pst : Type := { toks : list tok; diags : list diag }.
(** parser.rs:20-33 Status<T> = Result<Option<T>, DMError>; [Stuck]: out of fuel *)
Inductive res (A : Type) : Type := Ok (o : option A) (s : pst) | Err (s : pst) | Stuck.
Arguments Ok {A}. Arguments Err {A}. Arguments Stuck {A}.

(** The [?] operator alone. *)
Definition opt_ {A B : Type} (x : res A) (k : option A -> pst -> res B) : res B :=
  match x with Ok o s => k o s | Err s => Err s | Stuck => Stuck end.
(** parser.rs:42-49 leading! *)
Definition lead_ {A B : Type} (x : res A) (k : A -> pst -> res B) : res B :=
  match x with Ok (Some a) s => k a s | Ok None s => Ok None s | Err s => Err s | Stuck => Stuck end.
(** parser.rs:35-40 require!, parser.rs:487-493 require *)
Definition req_ {A B : Type} (x : res A) (k : A -> pst -> res B) : res B :=
  match x with Ok (Some a) s => k a s | Ok None s => Err s | Err s => Err s | Stuck => Stuck end.
Notation "'opt' a s <- x ; k" := (opt_ x (fun a s => k)) (at level 200, a name, s name, x at level 100, k at level 200).
Notation "'lead' a s <- x ; k" := (lead_ x (fun a s => k)) (at level 200, a name, s name, x at level 100, k at level 200).
Notation "'req' a s <- x ; k" := (req_ x (fun a s => k)) (at level 200, a name, s name, x at level 100, k at level 200).
Definition success {A : Type} (a : A) (s : pst) : res A := Ok (Some a) s.

Definition with_toks (ts : list tok) (s : pst) : pst := {| toks := ts; diags := diags s |}.
(** Context::register_error *)
Definition register (d : diag) (s : pst) : pst := {| toks := toks s; diags := diags s ++ [d] |}.
(** parser.rs:529-534 take *)
Definition take (s : pst) : pst := with_toks (tl (toks s)) s.
(** parser.rs:504 peek, as a test *)
Definition at_punct (p : punct) (s : pst) : bool :=
  match toks s with TPunct _ q :: _ => peqb p q | _ => false end.
(** parser.rs:592-600 exact *)
Definition exact (p : punct) (s : pst) : res unit :=
  if at_punct p s then success tt (take s) else Ok None s.
(** parser.rs:602-607 ident; parser.rs:609-617 ident_in_seq *)
Definition ident (s : pst) : res text :=
  match toks s with TIdent _ i _ :: r => success i (with_toks r s) | _ => Ok None s end.
(** parser.rs:619-624 exact_ident *)
Definition exact_ident (w : text) (s : pst) : res unit :=
  match toks s with
  | TIdent _ i _ :: r => if text_eqb i w then success tt (with_toks r s) else Ok None s
  | _ => Ok None s
  end.

(** parser.rs:138-145 OpInfo::matches, and the search in the table *)
Definition op_of (t : tok) : option opinfo :=
  match t with TPunct _ p => find (fun i => peqb (o_token i) p) BINARY_OPS | _ => None end.
Definition peek_op (s : pst) : option opinfo := match toks s with t :: _ => op_of t | [] => None end.
(** parser.rs:158-164 Op::build; the ternary operator never gets there *)
Definition build (o : oper) (l r : expr) : expr :=
  match o with OBin op => Bin op l r | OAssign op => Assign op l r | OTern => Tern l r r end.
(** parser.rs:288-292 right_binding *)
Definition right_binding (s : strength) : bool := match s with SAssign => true | _ => false end.
Definition is_conditional (s : strength) : bool := match s with SConditional => true | _ => false end.

(** ** Input types *)
(** parser.rs:1455-1465 input_type, the loop *)
Fixpoint input_loop (ts : list tok) (bits : N) (ds : list diag) : res N :=
  match ts with
  | TPunct _ PBitOr :: r =>
      match r with
      | TIdent _ i _ :: r' =>
          match input_type_of i with
          | Some w => input_loop r' (N.lor bits w) ds
          | None => input_loop r' bits (ds ++ [DBadInput i])
          end
      | _ => Err {| toks := r; diags := ds |}
      end
  | _ => success bits {| toks := ts; diags := ds |}
  end.
(** parser.rs:1439-1467 input_type *)
Definition input_type (s : pst) : res N :=
  opt p s1 <- exact PLParen s;
  match p with
  | Some _ => req _ s2 <- exact PRParen s1; success 0%N s2
  | None =>
      lead i s2 <- ident s1;
      match input_type_of i with
      | Some w => input_loop (toks s2) w (diags s2)
      | None => input_loop (toks s2) 0%N (diags s2 ++ [DBadInput i])
      end
  end.

(** ** The mutually recursive functions *)
(** parser.rs:2818-2846 separated; [item] is the closure, [again] the next turn of the loop.  An element is pushed for
    every item and, where [allow] is given, for every superfluous separator. *)
Definition separated_body {R : Type} (sep terminator : punct) (allow : option R) (item : pst -> res R)
  (again : bool -> list R -> pst -> res (list R)) (comma_legal : bool) (elems : list R) (s : pst) : res (list R) :=
  opt e s1 <- exact terminator s;
  match e with
  | Some _ => success elems s1
  | None =>
      opt c s2 <- exact sep s1;
      match c with
      | Some _ =>
          if comma_legal then again false elems s2
          else match allow with Some r => again false (elems ++ [r]) s2 | None => Err s2 end
      | None =>
          if comma_legal then Err s2
          else req v s3 <- item s2; again true (elems ++ [v]) s3
      end
  end.

Record fns : Type := {
  f_expr : option strength -> bool -> pst -> res expr;
  f_expr_loop : expr -> option strength -> bool -> pst -> res expr;
  f_part : expr -> opinfo -> bool -> pst -> res expr;
  f_part_loop : list expr -> list oper -> expr -> opinfo -> bool -> pst -> res (list expr * list oper * expr);
  f_group : bool -> pst -> res expr;
  f_follows : list follow -> bool -> bool -> pst -> res (list follow);
  f_term : pst -> res (term * bool);
  f_args : bool -> list (option expr) -> pst -> res (list (option expr));
  f_pick : bool -> list (option expr * expr) -> pst -> res (list (option expr * expr));
  f_vars : bool -> list (option (text * expr)) -> pst -> res (list (option (text * expr)));
  f_interp : list (option expr * text) -> pst -> res (list (option expr * text)) }.

Section BODY.
Variable R : fns.

(** parser.rs:2152-2154 expression *)
Definition expression (s : pst) : res expr := f_expr R None false s.
(** parser.rs:2156-2161 expression_ex, up to the loop *)
Definition expr_body (st : option strength) (tern : bool) (s : pst) : res expr :=
  lead e s1 <- f_group R tern s; f_expr_loop R e st tern s1.
(** parser.rs:2162-2187 the loop *)
Definition expr_loop_body (e : expr) (st : option strength) (tern : bool) (s : pst) : res expr :=
  match peek_op s with
  | None => success e s
  | Some info =>
      if match st with Some m => rank m <? rank (o_strength info) | None => false end then success e s
      else
        req e1 s1 <- f_part R e info (tern || is_conditional (o_strength info)) (take s);
        f_expr_loop R e1 st tern s1
  end.
(** parser.rs:2203-2235 expression_part, the loop over operators; the results are bits, ops and rhs *)
Definition part_loop_body (bits : list expr) (ops : list oper) (rhs : expr) (prev : opinfo) (tern : bool) (s : pst)
  : res (list expr * list oper * expr) :=
  match peek_op s with
  | None => success (bits, ops, rhs) s
  | Some info =>
      match Nat.compare (rank (o_strength info)) (rank (o_strength prev)) with
      | Lt =>
          req rhs1 s1 <- f_part R rhs info (tern || is_conditional (o_strength info)) (take s);
          f_part_loop R bits ops rhs1 prev tern s1
      | Gt => success (bits, ops, rhs) s
      | Eq =>
          req rhs1 s1 <- f_group R tern (take s);
          f_part_loop R (bits ++ [rhs]) (ops ++ [o_oper info]) rhs1 prev tern s1
      end
  end.
(** parser.rs:2251-2276 the else branches; [rbits]: the conditions, last first *)
Fixpoint else_loop (rbits : list expr) (result : expr) (s : pst) : res expr :=
  match rbits with
  | [] => success result s
  | lhs :: rest =>
      if at_punct PColon s || at_punct PCloseColon s then
        opt e s1 <- f_expr R (Some SConditional) true (take s);
        match e with
        | Some else_ => else_loop rest (Tern lhs result else_) s1
        | None => else_loop rest (Tern lhs result (Base MNull [])) (register DMissingElse s1)
        end
      else Err s
  end.
(** parser.rs:2287-2297 the left-binding fold: the first bit, then each further bit under the operator before it,
    then rhs under the last operator *)
Fixpoint fold_left_ops (result : expr) (bits : list expr) (ops : list oper) (rhs : expr) : expr :=
  match ops, bits with
  | o :: ops', b :: bits' => fold_left_ops (build o result b) bits' ops' rhs
  | o :: _, [] => build o result rhs
  | [], _ => result
  end.
Definition build_left (bits : list expr) (ops : list oper) (rhs : expr) : expr :=
  match bits with b :: bits' => fold_left_ops b bits' ops rhs | [] => rhs end.
(** parser.rs:2281-2285 the right-binding fold *)
Definition build_right (bits : list expr) (ops : list oper) (rhs : expr) : expr :=
  fold_right (fun ob r => build (fst ob) (snd ob) r) rhs (combine ops bits).
(** parser.rs:2191-2298 expression_part; its parameter [strength] is only passed on and is left out *)
Definition part_body (lhs : expr) (prev : opinfo) (tern : bool) (s : pst) : res expr :=
  req rhs0 s1 <- f_group R tern s;
  req r s2 <- f_part_loop R [lhs] [o_oper prev] rhs0 prev tern s1;
  let '(bits, ops, rhs) := r in
  match o_strength prev with
  | SConditional => else_loop (rev bits) rhs s2
  | SIn =>
      opt to s3 <- exact_ident (lit "to") s2;
      match to with
      | Some _ =>
          req b s4 <- f_expr R (Some SIn) tern s3;
          success (build_left bits ops (Bin BTo rhs b)) s4
      | None => success (build_left bits ops rhs) s3
      end
  | st => success (if right_binding st then build_right bits ops rhs else build_left bits ops rhs) s2
  end.

(** parser.rs:2304-2315 prefix operators, in the order of reading *)
Definition prefix_op (t : tok) : option unop :=
  match t with
  | TPunct _ PSub => Some Neg | TPunct _ PNot => Some Not | TPunct _ PBitNot => Some BitNot
  | TPunct _ PPlusPlus => Some PreIncr | TPunct _ PMinusMinus => Some PreDecr
  | TPunct _ PBitAnd => Some Reference | TPunct _ PMul => Some Dereference
  | _ => None
  end.
Fixpoint prefix_loop (ts : list tok) : list unop * list tok :=
  match ts with
  | t :: r => match prefix_op t with
              | Some o => let '(os, r') := prefix_loop r in (o :: os, r')
              | None => ([], ts)
              end
  | [] => ([], [])
  end.
(** parser.rs:2301-2354 group *)
Definition group_body (tern : bool) (s : pst) : res expr :=
  let '(unary, r) := prefix_loop (toks s) in
  let s1 := with_toks r s in
  let k := fun (tb : term * bool) s2 =>
             req fs s3 <- f_follows R [] (snd tb) tern s2;
             success (Base (fst tb) (fs ++ map FUnary (rev unary))) s3 in
  match unary with
  | [] => lead_ (f_term R s1) k
  | _ :: _ => req_ (f_term R s1) k
  end.

(** parser.rs:2764-2797 arguments; the closure pushes what it reads, so superfluous commas leave nothing behind *)
Definition arguments (s : pst) : res (list expr) :=
  lead _ s1 <- exact PLParen s;
  req es s2 <- f_args R false [] s1;
  success (flat_map (fun o => match o with Some e => [e] | None => [] end) es) s2.
Definition args_body : bool -> list (option expr) -> pst -> res (list (option expr)) :=
  separated_body PComma PRParen (Some None) (fun s => lead e s1 <- expression s; success (Some e) s1) (f_args R).
(** parser.rs:2803-2811 the elements of pick() *)
Definition pick_item (s : pst) : res (option expr * expr) :=
  lead e s1 <- expression s;
  opt c s2 <- exact PSemicolon s1;
  match c with
  | Some _ => req v s3 <- expression s2; success (Some e, v) s3
  | None => success (None, e) s2
  end.
Definition pick_body : bool -> list (option expr * expr) -> pst -> res (list (option expr * expr)) :=
  separated_body PComma PRParen None pick_item (f_pick R).
(** parser.rs:2799-2816 pick_arguments *)
Definition pick_arguments (s : pst) : res (list (option expr * expr)) :=
  lead _ s1 <- exact PLParen s;
  req v s2 <- f_pick R false [] s1; success v s2.

(** parser.rs:2136-2142 a variable of a prefab *)
Definition var_item (s : pst) : res (option (text * expr)) :=
  req key s1 <- ident s;
  req _ s2 <- exact PAssign s1;
  req value s3 <- expression s2;
  success (Some (key, value)) s3.
Definition vars_body : bool -> list (option (text * expr)) -> pst -> res (list (option (text * expr))) :=
  separated_body PSemicolon PRBrace (Some None) var_item (f_vars R).
(** parser.rs:2074-2080 path_separator *)
Definition separator_of (t : tok) : option pathop :=
  match t with
  | TPunct _ PSlash => Some PathSlash | TPunct _ PDot => Some PathDot | TPunct _ PCloseColon => Some PathColon
  | _ => None
  end.
(** parser.rs:2094-2120: the first element and the loop over the others do the same *)
Fixpoint path_loop (ts : list tok) : list (pathop * text) * list tok :=
  match ts with
  | t :: r =>
      match separator_of t with
      | Some sep =>
          match r with
          | TIdent _ i _ :: r' => let '(parts, r2) := path_loop r' in ((sep, i) :: parts, r2)
          | _ => path_loop r
          end
      | None => ([], ts)
      end
  | [] => ([], [])
  end.
(** parser.rs:2122-2125 *)
Definition nonempty_path (parts : list (pathop * text)) : list (pathop * text) :=
  match parts with [] => [(PathSlash, lit "__PARSE_ERROR__")] | _ => parts end.
(** parser.rs:2088-2150 prefab_ex *)
Definition prefab_ex (parts : list (pathop * text)) (s : pst) : res (list (pathop * text) * list (text * expr)) :=
  match toks s with
  | t :: _ =>
      match separator_of t with
      | Some _ =>
          let '(more, r) := path_loop (toks s) in
          let path := nonempty_path (parts ++ more) in
          opt b s1 <- exact PLBrace (with_toks r s);
          match b with
          | Some _ =>
              opt vs s2 <- f_vars R false [] s1;
              success (path, match vs with
                             | Some l => flat_map (fun o => match o with Some v => [v] | None => [] end) l
                             | None => []
                             end) s2
          | None => success (path, []) s1
          end
      | None => match parts with [] => Ok None s | _ => success (parts, []) s end
      end
  | [] => match parts with [] => Ok None s | _ => success (parts, []) s end
  end.

(** parser.rs:2724-2762 field, and the loop at 2402-2404 that calls it with a non-empty belongs_to *)
Definition field_kind (t : tok) : option propkind :=
  match t with
  | TPunct _ PDot => Some KDot | TPunct _ PCloseColon => Some KColon
  | TPunct _ PSafeDot => Some KSafeDot | TPunct _ PSafeColon => Some KSafeColon
  | _ => None
  end.
Fixpoint fields_loop (ts : list tok) (ds : list diag) : list (propkind * text) * pst :=
  match ts with
  | t :: r =>
      match field_kind t with
      | Some k =>
          match r with
          | TIdent _ i _ :: r' => let '(fs, s') := fields_loop r' ds in ((k, i) :: fs, s')
          | _ => let '(fs, s') := fields_loop r (ds ++ [DParse]) in ((k, []) :: fs, s')
          end
      | None => ([], {| toks := ts; diags := ds |})
      end
  | [] => ([], {| toks := []; diags := ds |})
  end.

(** parser.rs:1389-1413 input_specifier *)
Definition input_specifier (s : pst) : res (option N * option expr) :=
  opt a s1 <- exact_ident (lit "as") s;
  let k := fun (it : option N) s2 =>
    opt i s3 <- exact PIn s2;
    match i with
    | Some _ =>
        req e s4 <- expression s3;
        opt a2 s5 <- exact_ident (lit "as") s4;
        match a2 with
        | Some _ => req _ s6 <- input_type (register DAsOrder s5); success (it, Some e) s6
        | None => success (it, Some e) s5
        end
    | None => success (it, None) s3
    end in
  match a with
  | Some _ => req it s2 <- input_type s1; k (Some it) s2
  | None => k None s1
  end.

(** parser.rs:2366-2422 term, after 'new' *)
Definition new_term (s : pst) : res term :=
  opt d s1 <- exact PDot s;
  match d with
  | Some _ =>
      opt i s2 <- ident s1;
      match i with
      | Some i =>
          req p s3 <- prefab_ex [(PathDot, i)] s2;
          opt a s4 <- arguments s3; success (MNewPrefab (fst p) (snd p) a) s4
      | None => opt a s3 <- arguments s2; success (MNewMini (lit ".") [] a) s3
      end
  | None =>
      opt i s2 <- ident s1;
      match i with
      | Some i =>
          let '(fields, s3) := fields_loop (toks s2) (diags s2) in
          opt a s4 <- arguments s3; success (MNewMini i fields a) s4
      | None =>
          opt p s3 <- prefab_ex [] s2;
          match p with
          | Some p => opt a s4 <- arguments s3; success (MNewPrefab (fst p) (snd p) a) s4
          | None => opt a s4 <- arguments s3; success (MNewImplicit a) s4
          end
      end
  end.
(** parser.rs:2444-2470 term, after 'call_ext' *)
Definition call_ext_term (s : pst) : res term :=
  req _ s1 <- exact PLParen s;
  req first s2 <- expression s1;
  opt c s3 <- exact PComma s2;
  let k := fun (second : option expr) s4 =>
    req _ s5 <- exact PRParen s4;
    req args s6 <- arguments s5;
    success (match second with
             | Some function => MExtCall (Some first) function args
             | None => MExtCall None first args
             end) s6 in
  match c with
  | Some _ => req e s4 <- expression s3; k (Some e) s4
  | None => k None s3
  end.
(** parser.rs:2473-2483 term, after 'input' *)
Definition input_term (i : text) (s : pst) : res term :=
  opt a s1 <- arguments s;
  match a with
  | Some args => req p s2 <- input_specifier s1; success (MInput args (fst p) (snd p)) s2
  | None => success (MIdent i) s1
  end.
(** parser.rs:2486-2508 term, after 'locate' *)
Definition locate_term (i : text) (s : pst) : res term :=
  opt a s1 <- arguments s;
  match a with
  | Some args =>
      let s2 := match args with Bin BIn _ _ :: _ => register DLocateIn s1 | _ => s1 end in
      opt n s3 <- exact PIn s2;
      match n with
      | Some _ =>
          let s4 := if 1 <? List.length args then register DLocateArgs s3 else s3 in
          req e s5 <- expression s4; success (MLocate args (Some e)) s5
      | None => success (MLocate args None) s3
      end
  | None => success (MIdent i) s1
  end.
(** parser.rs:2519-2524 term, after 'as' *)
Definition as_term (s : pst) : res term :=
  req _ s1 <- exact PLParen s;
  opt t s2 <- input_type s1;
  req _ s3 <- exact PRParen s2;
  success (MAs (match t with Some t => t | None => 0%N end)) s3.
(** parser.rs:2428-2436 'list' and 'alist' *)
Definition list_term (i : text) (s : pst) : res term :=
  opt a s1 <- arguments s;
  success (match a with Some args => MList args | None => MIdent i end) s1.
(** parser.rs:2364-2544 term, an identifier; the flag: the identifier was pushed to belongs_to *)
Definition ident_term (i : text) (s : pst) : res (term * bool) :=
  let plain := fun x => req t s1 <- x; success (t, false) s1 in
  if text_eqb i (lit "new") then plain (new_term s)
  else if text_eqb i (lit "list") || text_eqb i (lit "alist") then plain (list_term i s)
  else if text_eqb i (lit "call") then
    plain (req a s1 <- arguments s; req b s2 <- arguments s1; success (MDynCall a b) s2)
  else if text_eqb i (lit "call_ext") then plain (call_ext_term s)
  else if text_eqb i (lit "input") then plain (input_term i s)
  else if text_eqb i (lit "locate") then plain (locate_term i s)
  else if text_eqb i (lit "pick") then
    plain (opt a s1 <- pick_arguments s; success (match a with Some a => MPick a | None => MIdent i end) s1)
  else if text_eqb i (lit "null") then success (MNull, false) s
  else if text_eqb i (lit "as") then plain (as_term s)
  else if text_eqb i (lit "__PROC__") then success (MProc, false) s
  else if text_eqb i (lit "__TYPE__") then success (MType, false) s
  else if text_eqb i (lit "__IMPLIED_TYPE__") then success (MImplied, false) s
  else
    opt a s1 <- arguments s;
    match a with
    | Some args => success (MCall i args, false) s1
    | None => success (MIdent i, true) s1
    end.
(** parser.rs:2556-2577 term, after '.' *)
Definition dot_term (s : pst) : res term :=
  opt i s1 <- ident s;
  match i with
  | Some i => req p s2 <- prefab_ex [(PathDot, i)] s1; success (MPrefab (fst p) (snd p)) s2
  | None =>
      opt a s2 <- arguments s1;
      success (match a with Some args => MSelfCall args | None => MIdent (lit ".") end) s2
  end.
(** parser.rs:2578-2589 term, after '::' *)
Definition scope_term (s : pst) : res term :=
  req i s1 <- ident s;
  opt a s2 <- arguments s1;
  success (match a with Some args => MGlobalCall i args | None => MGlobalIdent i end) s2.
(** parser.rs:2601-2612 term, after '(' *)
Definition paren_term (s : pst) : res term :=
  opt c s1 <- exact PRParen s;
  match c with
  | Some _ => success MNull (register DNullParens s1)
  | None => req e s2 <- expression s1; req _ s3 <- exact PRParen s2; success (MExpr e) s3
  end.
(** parser.rs:2616-2628 the loop over the parts of an interpolated string *)
Definition interp_body (parts : list (option expr * text)) (s : pst) : res (list (option expr * text)) :=
  opt e s1 <- expression s;
  match toks s1 with
  | TInterpPart _ part :: r => f_interp R (parts ++ [(e, part)]) (with_toks r s1)
  | TInterpEnd _ part :: r => success (parts ++ [(e, part)]) (with_toks r s1)
  | _ => Err s1
  end.
(** parser.rs:2356-2640 term *)
Definition term_body (s : pst) : res (term * bool) :=
  let plain := fun (x : res term) => req t s1 <- x; success (t, false) s1 in
  match toks s with
  | [] => Ok None s
  | t :: r =>
      let s1 := with_toks r s in
      match t with
      | TIdent _ i _ => ident_term i s1
      | TPunct _ PSuper => plain (req a s2 <- arguments s1; success (MParentCall a) s2)
      | TPunct _ PDot => plain (dot_term s1)
      | TPunct _ PScope => plain (scope_term s1)
      | TString _ v => success (MString v, false) s1
      | TResource _ v => success (MResource v, false) s1
      | TInt _ v => success (MInt v, false) s1
      | TFloat _ v => success (MFloat v, false) s1
      | TPunct _ PLParen => plain (paren_term s1)
      | TInterpBegin _ begin => plain (req parts s2 <- f_interp R [] s1; success (MInterp begin parts) s2)
      | TPunct _ PSlash | TPunct _ PCloseColon =>
          plain (req p s2 <- prefab_ex [] s; success (MPrefab (fst p) (snd p)) s2)
      | _ => Ok None s
      end
  end.

(** parser.rs:2642-2661 list_access *)
Definition list_access (s : pst) : res follow :=
  let k := fun kind => req e s1 <- expression (take s); req _ s2 <- exact PRBracket s1; success (FIndex kind e) s2 in
  if at_punct PLBracket s then k LNormal
  else if at_punct PSafeLBracket s then k LSafe
  else Ok None s.
(** parser.rs:2672-2679 follow, the operator *)
Definition follow_kind (belongs tern : bool) (t : tok) : option propkind :=
  match t with
  | TPunct _ PDot => Some KDot
  | TPunct _ PCloseColon => if belongs || negb tern then Some KColon else None
  | TPunct _ PSafeDot => Some KSafeDot | TPunct _ PSafeColon => Some KSafeColon | TPunct _ PScope => Some KScope
  | _ => None
  end.
(** parser.rs:2663-2720 follow; the result also says whether belongs_to is not empty afterwards *)
Definition follow_one (belongs tern : bool) (s : pst) : res (follow * bool) :=
  opt l s0 <- list_access s;
  match l with
  | Some f => success (f, false) s0
  | None =>
      match toks s0 with
      | [] => Ok None s0
      | t :: r =>
          match follow_kind belongs tern t with
          | None => Ok None s0
          | Some kind =>
              opt i s1 <- ident (with_toks r s0);
              let '(i, s2) := match i with Some i => (i, s1) | None => ([], register DParse s1) end in
              opt a s3 <- arguments s2;
              match a with
              | Some args => success (match kind with KScope => FProcRef i | _ => FCall kind i args end, false) s3
              | None => success (match kind with KScope => FStaticField i | _ => FField kind i end, belongs) s3
              end
          end
      end
  end.
(** parser.rs:2324-2337 group, the loop over postfix operators and follows *)
Definition follows_body (acc : list follow) (belongs tern : bool) (s : pst) : res (list follow) :=
  if at_punct PPlusPlus s then f_follows R (acc ++ [FUnary PostIncr]) belongs tern (take s)
  else if at_punct PMinusMinus s then f_follows R (acc ++ [FUnary PostDecr]) belongs tern (take s)
  else
    opt f s1 <- follow_one belongs tern s;
    match f with
    | Some (f, b) => f_follows R (acc ++ [f]) b tern s1
    | None => success acc s1
    end.

Definition step : fns :=
  {| f_expr := expr_body; f_expr_loop := expr_loop_body; f_part := part_body; f_part_loop := part_loop_body;
     f_group := group_body; f_follows := follows_body; f_term := term_body; f_args := args_body;
     f_pick := pick_body; f_vars := vars_body; f_interp := interp_body |}.
End BODY.

Definition stuck_fns : fns :=
  {| f_expr := fun _ _ _ => Stuck; f_expr_loop := fun _ _ _ _ => Stuck; f_part := fun _ _ _ _ => Stuck;
     f_part_loop := fun _ _ _ _ _ _ => Stuck; f_group := fun _ _ => Stuck; f_follows := fun _ _ _ _ => Stuck;
     f_term := fun _ => Stuck; f_args := fun _ _ _ => Stuck; f_pick := fun _ _ _ => Stuck;
     f_vars := fun _ _ _ => Stuck; f_interp := fun _ _ => Stuck |}.
(** The functions with calls nested at most [n] deep. *)
Fixpoint run (n : nat) : fns := match n with O => stuck_fns | S n' => step (run n') end.

(** Enough for any token list, C44_terminates. *)
Definition parse_fuel (ts : list tok) : nat := 4 * List.length ts + 4.
(** parser.rs:109-119 parse_expression; documentation comments are put aside by [peek].  [Some e]: the expression; [None]:
    an error is returned; with the diagnostics registered and the tokens not taken (the parser has already pulled the
    first of these from its input) *)
Definition is_doc (t : tok) : bool := match t with TDoc _ _ _ _ => true | _ => false end.
Definition parse_expression (ts : list tok) : option (option expr * list diag * list tok) :=
  let ts' := filter (fun t => negb (is_doc t)) ts in
  match f_expr (run (parse_fuel ts')) None false {| toks := ts'; diags := [] |} with
  | Ok (Some e) s => Some (Some e, diags s, toks s)
  | Ok None s => Some (None, diags s, toks s)
  | Err s => Some (None, diags s, toks s)
  | Stuck => None
  end.
End PARSER.
Arguments toks {F}. Arguments diags {F}. Arguments Ok {F A}. Arguments Err {F A}. Arguments Stuck {F A}.
