(** The analysis of the control flow of a procedure: which code is reported as unreachable.  Models crates/dreamchecker/src/lib.rs (cited
    without file name): ControlFlow, 1304-1390; visit_block, 1565-1597; loop_condition_check, 1599-1613; visit_statement, 1629-2146, as far
    as it deals with the control flow and the reports about it; and crates/dreammaker/src/ast.rs (cited as ast.rs): is_truthy,
    valid_for_range.  Left out: the analysis of the expressions, of variables and settings, and all other reports. *)
From Coq Require Import List NArith ZArith Bool String.
From Verif Require Import Common.Text Parse.Ast.
Import ListNotations.
Open Scope nat_scope.

Section MODEL.
(** f32, with the test for zero; locations *)
Variables F L : Type.
Variable f_zero : F -> bool.
Notation expr := (expr F). Notation term := (term F). Notation follow := (follow F).

(** ast.rs:1054-1059 *)
Fixpoint negations (fs : list follow) (b : bool) : option bool :=
  match fs with
  | [] => Some b
  | FUnary Not :: fs' => negations fs' (negb b)
  | _ => None
  end.
Definition is_empty (s : text) : bool := match s with [] => true | _ => false end.
(** ast.rs:1050-1090 Expression::is_truthy; ast.rs:1218-1249 Term::is_truthy *)
Fixpoint is_truthy (e : expr) : option bool :=
  match e with
  | Base t fs => match term_truthy t with Some b => negations fs b | None => None end
  | Bin op l r =>
      match is_truthy l, is_truthy r with
      | Some a, Some b => match op with BAnd => Some (a && b) | BOr => Some (a || b) | _ => None end
      | _, _ => None
      end
  | Assign AAssign _ (Base t []) => term_truthy t
  | Assign _ _ _ => None
  | Tern c a b => match is_truthy c with Some true => is_truthy a | Some false => is_truthy b | None => None end
  end
with term_truthy (t : term) : option bool :=
  match t with
  | MNull => Some false
  | MInt z => Some (negb (z =? 0)%Z)
  | MFloat f => Some (negb (f_zero f))
  | MString s => Some (negb (is_empty s))
  | MPrefab _ _ | MNewImplicit _ | MNewPrefab _ _ _ | MNewMini _ _ _ | MList _ => Some true
  | MInterp s parts => if negb (is_empty s) || existsb (fun p => negb (is_empty (snd p))) parts then Some true else None
  | MExpr e => is_truthy e
  | _ => None
  end.
(** ast.rs:996-1001 as_term *)
Definition as_term (e : expr) : option term := match e with Base t [] => Some t | _ => None end.
(** ast.rs:1251-1271 valid_for_range *)
Definition valid_for_range (a b : term) (step : option expr) : option bool :=
  match a, b with
  | MInt i, MInt o =>
      if (i =? 0)%Z && (o =? 0)%Z then Some false
      else match step with
           | Some s => match as_term s with
                       | Some (MInt _) => Some true
                       | Some _ => Some (i <=? o)%Z
                       | None => Some true
                       end
           | None => Some (i <=? o)%Z
           end
  | _, _ => None
  end.

(** crates/dreammaker/src/parser.rs:1904-2015: the statements that can be the first and the last part of a for loop ([Simply]: Expr, Var) *)
Inductive simple : Type := Simply | Returning | Throwing | Going (label : text).
(** ast.rs:1502-1560 Statement, as far as it matters here: [Plain] are Expr, Var, Vars, Setting and Del; [ForEach] are ForList and
    ForKeyValue; of the cases of a switch only the blocks are kept. *)
Inductive stmt : Type :=
  | Plain | Return | Crash | Throw
  | While (c : expr) (b : block)
  | DoWhile (b : block) (c : expr)
  | If (arms : arms) (else_ : option_block)
  | ForInfinite (b : block)
  | ForLoop (init : option simple) (test : option expr) (inc : option simple) (b : block)
  | ForEach (b : block)
  | ForRange (start end_ : expr) (step : option expr) (b : block)
  | Spawn (b : block)
  | Switch (cases : cases) (default : option_block)
  | TryCatch (try_ catch : block)
  | Continue (label : option text) | Break (label : option text)
  | Goto (label : text) | Label (name : text) (b : block)
with block : Type := End | Then (at_ : L) (s : stmt) (rest : block)
with arms : Type := NoArm | Arm (at_ : L) (c : expr) (b : block) (rest : arms)
with cases : Type := NoCase | Case (b : block) (rest : cases)
with option_block : Type := NoBlock | SomeBlock (b : block).

(** 1305-1310 ControlFlow *)
Record flow : Type := { returns : bool; continues : bool; breaks : bool; fuzzy : bool }.
(** 1313-1320, 1322-1329 *)
Definition alltrue : flow := {| returns := true; continues := true; breaks := true; fuzzy := false |}.
Definition allfalse : flow := {| returns := false; continues := false; breaks := false; fuzzy := false |}.
(** 1331-1337 *)
Definition terminates (t : flow) : bool := negb (fuzzy t) && (returns t || continues t || breaks t).
Definition terminates_loop (t : flow) : bool := negb (fuzzy t) && (returns t || breaks t).
(** 1339-1343 *)
Definition no_else (t : flow) : flow := {| returns := false; continues := false; breaks := false; fuzzy := fuzzy t |}.
(** 1345-1361 *)
Definition merge (t o : flow) : flow :=
  {| returns := if fuzzy o then false else returns t || (negb (fuzzy t) && returns o);
     continues := continues t || continues o; breaks := breaks t || breaks o; fuzzy := fuzzy t || fuzzy o |}.
(** 1363-1376 *)
Definition merge_false (t o : flow) : flow :=
  {| returns := returns t && returns o; continues := continues t && continues o; breaks := breaks t && breaks o; fuzzy := fuzzy t || fuzzy o |}.
(** 1378-1382 *)
Definition finalize (t : flow) : flow :=
  {| returns := returns t; continues := continues t; breaks := breaks t; fuzzy := if returns t || breaks t || continues t then false else fuzzy t |}.
(** 1384-1389 *)
Definition end_loop (t : flow) : flow := allfalse.

Inductive report : Type :=
  | Unreachable (at_ : L) | UnreachableIf (at_ : L) | UnreachableElse (at_ : L)
  | AlwaysTrue (at_ : L) | AlwaysFalse (at_ : L) | LoopTrue (at_ : L) | LoopFalse (at_ : L)
  | NeverTested (at_ : L) | NeverEntered (at_ : L).
(** 1599-1613 *)
Definition loop_check (at_ : L) (test : option expr) : list report :=
  match test with
  | Some e => match is_truthy e with Some true => [LoopTrue at_] | Some false => [LoopFalse at_] | None => [] end
  | None => []
  end.
(** 1629-2146 *)
Fixpoint visit (at_ : L) (s : stmt) : flow * list report :=
  match s with
  | Plain | Throw | Goto _ => (allfalse, [])
  | Return | Crash => ({| returns := true; continues := false; breaks := false; fuzzy := false |}, [])
  | While _ b => let '(st, rs) := visit_block allfalse b in (end_loop st, rs)
  | DoWhile b _ =>
      let '(st, rs) := visit_block allfalse b in
      if terminates_loop st then (st, rs ++ [NeverTested at_]) else (end_loop st, rs)
  | If arms els =>
      let '(st, always, rs) := visit_arms alltrue false arms in
      match els with
      | SomeBlock b =>
          let r := match b with Then l _ _ => if always then [UnreachableElse l] else [] | End => [] end in
          let '(st2, rs2) := visit_block allfalse b in
          (finalize (merge_false st st2), rs ++ r ++ rs2)
      | NoBlock => (no_else st, rs)
      end
  | ForInfinite b | ForEach b => let '(st, rs) := visit_block allfalse b in (end_loop st, rs)
  (* 1812-1822: the first and the last part have no reports, and what they do to the control flow is ignored *)
  | ForLoop init test inc b =>
      let '(st, rs) := visit_block allfalse b in
      (end_loop st, loop_check at_ test ++ rs)
  | ForRange start end_ step b =>
      let '(st, rs) := visit_block allfalse b in
      match as_term start, as_term end_ with
      | Some x, Some y =>
          match valid_for_range x y step with
          | Some false => (end_loop st, rs ++ [NeverEntered at_])
          | Some true => (st, rs)
          | None => (end_loop st, rs)
          end
      | _, _ => (end_loop st, rs)
      end
  | Spawn b => let '(_, rs) := visit_block allfalse b in (allfalse, rs)
  | Switch cs default =>
      let '(st, rs) := visit_cases alltrue cs in
      match default with
      | SomeBlock b => let '(st2, rs2) := visit_block allfalse b in (finalize (merge_false st st2), rs ++ rs2)
      | NoBlock => (no_else st, rs)
      end
  | TryCatch b1 b2 => let '(_, rs1) := visit_block allfalse b1 in let '(_, rs2) := visit_block allfalse b2 in (allfalse, rs1 ++ rs2)
  | Continue _ => ({| returns := false; continues := true; breaks := false; fuzzy := true |}, [])
  | Break _ => ({| returns := false; continues := false; breaks := true; fuzzy := true |}, [])
  | Label _ b => let '(_, rs) := visit_block allfalse b in (allfalse, rs)
  end
(** 1565-1597 *)
with visit_block (t : flow) (b : block) : flow * list report :=
  match b with
  | End => (t, [])
  | Then l s rest =>
      if terminates t then (t, [Unreachable l])
      else let '(st, rs) := visit l s in let '(t2, rs2) := visit_block (merge t st) rest in (t2, rs ++ rs2)
  end
(** 1751-1780 *)
with visit_arms (t : flow) (always : bool) (a : arms) : flow * bool * list report :=
  match a with
  | NoArm => (t, always, [])
  | Arm l c b rest =>
      let r1 := if always then [UnreachableIf l] else [] in
      let '(st, rs) := visit_block allfalse b in
      let '(t2, always2, r2) := match is_truthy c with
                                | Some true => (merge_false t st, true, [AlwaysTrue l])
                                | Some false => (t, always, [AlwaysFalse l])
                                | None => (merge_false t st, always, [])
                                end in
      let '(t3, always3, rs3) := visit_arms t2 always2 rest in (t3, always3, r1 ++ rs ++ r2 ++ rs3)
  end
(** 1968-2004 *)
with visit_cases (t : flow) (cs : cases) : flow * list report :=
  match cs with
  | NoCase => (t, [])
  | Case b rest => let '(st, rs) := visit_block allfalse b in let '(t2, rs2) := visit_cases (merge_false t st) rest in (t2, rs ++ rs2)
  end.
(** a procedure *)
Definition reports (b : block) : list report := snd (visit_block allfalse b).
End MODEL.
Arguments is_truthy {F}. Arguments term_truthy {F}. Arguments as_term {F}. Arguments valid_for_range {F}. Arguments negations {F}.
Arguments Plain {F L}. Arguments Return {F L}. Arguments Crash {F L}. Arguments Throw {F L}. Arguments While {F L}. Arguments DoWhile {F L}. Arguments If {F L}. Arguments ForInfinite {F L}. Arguments ForLoop {F L}. Arguments ForEach {F L}. Arguments ForRange {F L}.
Arguments Spawn {F L}. Arguments Switch {F L}. Arguments TryCatch {F L}. Arguments Continue {F L}. Arguments Break {F L}. Arguments Goto {F L}. Arguments Label {F L}. Arguments End {F L}. Arguments Then {F L}. Arguments NoArm {F L}. Arguments Arm {F L}. Arguments NoCase {F L}. Arguments Case {F L}.
Arguments NoBlock {F L}. Arguments SomeBlock {F L}.
Arguments Unreachable {L}. Arguments UnreachableIf {L}. Arguments UnreachableElse {L}. Arguments AlwaysTrue {L}. Arguments AlwaysFalse {L}. Arguments LoopTrue {L}. Arguments LoopFalse {L}. Arguments NeverTested {L}. Arguments NeverEntered {L}.
Arguments visit {F L}. Arguments visit_block {F L}. Arguments visit_arms {F L}. Arguments visit_cases {F L}. Arguments reports {F L}. Arguments loop_check {F L}.
