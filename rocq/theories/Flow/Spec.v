(** How a procedure runs, as far as its control flow is concerned, and what the reports say about it (C54). *)
From Coq Require Import List NArith ZArith Bool String.
From Verif Require Import Common.Text Parse.Ast Flow.Model.
Import ListNotations.
Open Scope nat_scope.

Section SPEC.
Variables F L : Type.
Variable f_zero : F -> bool.
Notation expr := (expr F). Notation term := (term F).
Notation stmt := (stmt F L). Notation block := (block F L). Notation arms := (arms F L). Notation cases := (cases F L).
Notation option_block := (option_block F L).

(** ** Values *)
(** [truth e b]: the value of [e] can be true ([b]) or false, as a condition.  Of variables, calls and so on nothing is known. *)
Inductive truth : expr -> bool -> Prop :=
  | truth_term t b : term_truth t b -> truth (Base t []) b
  | truth_not t fs b : truth (Base t fs) b -> truth (Base t (fs ++ [FUnary Not])) (negb b)
  | truth_follow t fs f b : f <> FUnary Not -> truth (Base t (fs ++ [f])) b
  | truth_and_false l r : truth l false -> truth (Bin BAnd l r) false
  | truth_and_true l r b : truth l true -> truth r b -> truth (Bin BAnd l r) b
  | truth_or_true l r : truth l true -> truth (Bin BOr l r) true
  | truth_or_false l r b : truth l false -> truth r b -> truth (Bin BOr l r) b
  | truth_bin op l r b : op <> BAnd -> op <> BOr -> truth (Bin op l r) b
  | truth_assign l r b : truth r b -> truth (Assign AAssign l r) b
  | truth_assign_op op l r b : op <> AAssign -> truth (Assign op l r) b
  | truth_then c x y b : truth c true -> truth x b -> truth (Tern c x y) b
  | truth_else c x y b : truth c false -> truth y b -> truth (Tern c x y) b
with term_truth : term -> bool -> Prop :=
  | tt_null : term_truth MNull false
  | tt_zero : term_truth (MInt 0%Z) false
  | tt_int z : z <> 0%Z -> term_truth (MInt z) true
  | tt_float f : term_truth (MFloat f) (negb (f_zero f))
  | tt_empty : term_truth (MString []) false
  | tt_string s : s <> [] -> term_truth (MString s) true
  | tt_path p v : term_truth (MPrefab p v) true
  | tt_new a : term_truth (MNewImplicit a) true
  | tt_new_path p v a : term_truth (MNewPrefab p v a) true
  | tt_new_mini i f a : term_truth (MNewMini i f a) true
  | tt_list a : term_truth (MList a) true
  | tt_interp_some s parts : s <> [] \/ (exists p, In p parts /\ snd p <> []) -> term_truth (MInterp s parts) true
  | tt_interp s parts b : s = [] -> (forall p, In p parts -> snd p = []) -> term_truth (MInterp s parts) b
  | tt_expr e b : truth e b -> term_truth (MExpr e) b
  | tt_any t b : (match t with MIdent _ | MResource _ | MAs _ | MProc | MType | MImplied | MCall _ _ | MSelfCall _ | MParentCall _ | MInput _ _ _ | MLocate _ _ | MPick _ | MDynCall _ _ | MExtCall _ _ _ | MGlobalIdent _ | MGlobalCall _ _ => True | _ => False end) -> term_truth t b.
(** a whole number that is written down *)
Definition number (e : expr) : option Z := match e with Base (MInt z) [] => Some z | _ => None end.
(** Whether a loop [for (i = a to b step s)] is entered: if the numbers are known this is determined. *)
Definition enters (a b : expr) (step : option expr) (yes : bool) : Prop :=
  forall x y, number a = Some x -> number b = Some y ->
    (step = None -> yes = (x <=? y)%Z) /\
    (forall e s, step = Some e -> number e = Some s -> ((0 < s)%Z -> yes = (x <=? y)%Z) /\ ((s < 0)%Z -> yes = (y <=? x)%Z)).

(** ** Runs *)
(** What happens: the statement at this place starts; the condition of this arm of an if is tested; the condition of a loop is tested;
    the body of a loop is entered. *)
Inductive event : Type := At (l : L) | Tested (l : L) (b : bool) | Looped (l : L) (b : bool) | Until (l : L) (b : bool) | Entered (l : L).
(** How it ends.  [Cut] is no end: this is as far as we look.  Any part can throw. *)
Inductive outcome : Type := Done | Broke (l : option text) | Continued (l : option text) | Returned | Threw | Jumped (l : text) | Cut.
Inductive looptest : Type := Always | Sometimes | When (e : expr).
Definition passes (t : looptest) (b : bool) : Prop := match t with Always => b = true | Sometimes => True | When e => truth e b end.
Definition test_of (o : option expr) : looptest := match o with Some e => When e | None => Always end.
(** the body has run and the next round comes *)
Definition goes_on (o : outcome) : Prop := match o with Done | Continued _ => True | _ => False end.
(** the loop ends with the body *)
Definition leaves (o : outcome) : Prop := match o with Done | Continued None | Broke None => False | _ => True end.
(** the rest of a block from a label on *)
Fixpoint from_label (x : text) (b : block) : option block :=
  match b with
  | End => None
  | Then l s rest => match s with Label name _ => if text_eqb name x then Some b else from_label x rest | _ => from_label x rest end
  end.
(** the first and the last part of a for loop *)
Inductive run_part : option simple -> outcome -> Prop :=
  | part_none : run_part None Done
  | part_throw s : run_part (Some s) Threw
  | part_simply : run_part (Some Simply) Done
  | part_return : run_part (Some Returning) Returned
  | part_goto x : run_part (Some (Going x)) (Jumped x).
Inductive run : L -> stmt -> list event -> outcome -> Prop :=
  | run_cut l s : run l s [] Cut
  | run_throw l s : run l s [] Threw
  | run_plain l : run l Plain [] Done
  | run_return l : run l Return [] Returned
  | run_while l c b tr o : run_loop l (When c) None b tr o -> run l (While c b) tr o
  | run_do l b c tr o : run_do_while l b c tr o -> run l (DoWhile b c) tr o
  | run_if l a els tr o : run_arms a els tr o -> run l (If a els) tr o
  | run_forever l b tr o : run_loop l Always None b tr o -> run l (ForInfinite b) tr o
  | run_for l init test inc b tr o : run_part init Done -> run_loop l (test_of test) inc b tr o -> run l (ForLoop init test inc b) tr o
  | run_for_init l init test inc b o : run_part init o -> o <> Done -> run l (ForLoop init test inc b) [] o
  | run_each l b tr o : run_loop l Sometimes None b tr o -> run l (ForEach b) tr o
  | run_range_not l x y step b : enters x y step false -> run l (ForRange x y step b) [] Done
  | run_range_leave l x y step b tr o : enters x y step true -> run_block b tr o -> leaves o -> run l (ForRange x y step b) (Entered l :: tr) o
  | run_range_break l x y step b tr : enters x y step true -> run_block b tr (Broke None) -> run l (ForRange x y step b) (Entered l :: tr) Done
  | run_range_on l x y step b tr o tr2 o2 : enters x y step true -> run_block b tr o -> goes_on o -> run_loop l Sometimes None b tr2 o2 -> run l (ForRange x y step b) (Entered l :: tr ++ tr2) o2
  | run_spawn l b tr o : run_block b tr o -> run l (Spawn b) tr Done
  | run_switch l cs d tr o : run_cases cs d tr o -> run l (Switch cs d) tr o
  | run_try l b1 b2 tr o : run_block b1 tr o -> o <> Threw -> run l (TryCatch b1 b2) tr o
  | run_catch l b1 b2 tr1 tr2 o : run_block b1 tr1 Threw -> run_block b2 tr2 o -> run l (TryCatch b1 b2) (tr1 ++ tr2) o
  | run_continue l x : run l (Continue x) [] (Continued x)
  | run_break l x : run l (Break x) [] (Broke x)
  | run_goto l x : run l (Goto x) [] (Jumped x)
  | run_label l x b tr o : run_block b tr o -> run l (Label x b) tr o
  | run_label_break l x b tr : run_block b tr (Broke (Some x)) -> run l (Label x b) tr Done
with run_block : block -> list event -> outcome -> Prop :=
  | block_cut b : run_block b [] Cut
  | block_end : run_block End [] Done
  | block_leave l s rest tr o : run l s tr o -> o <> Done -> run_block (Then l s rest) (At l :: tr) o
  | block_on l s rest tr o tr2 : run l s tr Done -> run_block rest tr2 o -> run_block (Then l s rest) (At l :: tr ++ tr2) o
  | block_goto b tr x b' tr2 o : run_block b tr (Jumped x) -> from_label x b = Some b' -> run_block b' tr2 o -> run_block b (tr ++ tr2) o
with run_arms : arms -> option_block -> list event -> outcome -> Prop :=
  | arms_throw a els : run_arms a els [] Threw
  | arms_cut a els : run_arms a els [] Cut
  | arms_none : run_arms NoArm NoBlock [] Done
  | arms_else b tr o : run_block b tr o -> run_arms NoArm (SomeBlock b) tr o
  | arms_this l c b rest els tr o : truth c true -> run_block b tr o -> run_arms (Arm l c b rest) els (Tested l true :: tr) o
  | arms_next l c b rest els tr o : truth c false -> run_arms rest els tr o -> run_arms (Arm l c b rest) els (Tested l false :: tr) o
with run_cases : cases -> option_block -> list event -> outcome -> Prop :=
  | cases_none : run_cases NoCase NoBlock [] Done
  | cases_default b tr o : run_block b tr o -> run_cases NoCase (SomeBlock b) tr o
  | cases_this b rest d tr o : run_block b tr o -> run_cases (Case b rest) d tr o
  | cases_next b rest d tr o : run_cases rest d tr o -> run_cases (Case b rest) d tr o
with run_loop : L -> looptest -> option simple -> block -> list event -> outcome -> Prop :=
  | loop_cut l t inc b : run_loop l t inc b [] Cut
  | loop_throw l t inc b : run_loop l t inc b [] Threw
  | loop_end l t inc b : passes t false -> run_loop l t inc b [Looped l false] Done
  | loop_leave l t inc b tr o : passes t true -> run_block b tr o -> leaves o -> run_loop l t inc b (Looped l true :: Entered l :: tr) o
  | loop_break l t inc b tr : passes t true -> run_block b tr (Broke None) -> run_loop l t inc b (Looped l true :: Entered l :: tr) Done
  | loop_inc l t inc b tr o o2 : passes t true -> run_block b tr o -> goes_on o -> run_part inc o2 -> o2 <> Done -> run_loop l t inc b (Looped l true :: Entered l :: tr) o2
  | loop_on l t inc b tr o tr2 o2 : passes t true -> run_block b tr o -> goes_on o -> run_part inc Done -> run_loop l t inc b tr2 o2 -> run_loop l t inc b (Looped l true :: Entered l :: tr ++ tr2) o2
with run_do_while : L -> block -> expr -> list event -> outcome -> Prop :=
  | do_leave l b c tr o : run_block b tr o -> leaves o -> run_do_while l b c tr o
  | do_break l b c tr : run_block b tr (Broke None) -> run_do_while l b c tr Done
  | do_throw l b c tr o : run_block b tr o -> goes_on o -> run_do_while l b c tr Threw
  | do_end l b c tr o : run_block b tr o -> goes_on o -> truth c false -> run_do_while l b c (tr ++ [Until l false]) Done
  | do_again l b c tr o tr2 o2 : run_block b tr o -> goes_on o -> truth c true -> run_do_while l b c tr2 o2 -> run_do_while l b c (tr ++ Until l true :: tr2) o2.

(** ** What a report says *)
(** Events that cannot happen if the report is right *)
Definition excludes (r : report L) (e : event) : Prop :=
  match r with
  | Unreachable l | UnreachableElse l => e = At l
  | UnreachableIf l => exists b, e = Tested l b
  | AlwaysTrue l => e = Tested l false
  | AlwaysFalse l => e = Tested l true
  | LoopTrue l => e = Looped l false
  | LoopFalse l => e = Looped l true
  | NeverTested l => exists b, e = Until l b
  | NeverEntered l => e = Entered l
  end.
Definition right (b : block) (r : report L) : Prop := forall tr o e, run_block b tr o -> In e tr -> ~ excludes r e.

(** ** Where the analysis can be trusted *)
(** The places of the statements (true) and of the conditions of if (false) *)
Fixpoint places (s : stmt) : list (bool * L) :=
  match s with
  | Plain | Return | Crash | Throw | Continue _ | Break _ | Goto _ => []
  | While _ b | DoWhile b _ | ForInfinite b | ForEach b | ForRange _ _ _ b | ForLoop _ _ _ b | Spawn b | Label _ b => places_block b
  | If a els => places_arms a ++ places_else els
  | Switch cs d => places_cases cs ++ places_else d
  | TryCatch b1 b2 => places_block b1 ++ places_block b2
  end
with places_block (b : block) : list (bool * L) := match b with End => [] | Then l s rest => (true, l) :: places s ++ places_block rest end
with places_arms (a : arms) : list (bool * L) := match a with NoArm => [] | Arm l _ b rest => (false, l) :: places_block b ++ places_arms rest end
with places_cases (cs : cases) : list (bool * L) := match cs with NoCase => [] | Case b rest => places_block b ++ places_cases rest end
with places_else (o : option_block) : list (bool * L) := match o with NoBlock => [] | SomeBlock b => places_block b end.

(** There is a break ([k]) or continue that belongs to the loop around this, *)
Fixpoint has (k : bool) (s : stmt) : Prop :=
  match s with
  | Break _ => k = true
  | Continue _ => k = false
  | If a els => has_arms k a \/ has_else k els
  | Switch cs d => has_cases k cs \/ has_else k d
  | TryCatch b1 b2 => has_block k b1 \/ has_block k b2
  | Label _ b => has_block k b
  | _ => False
  end
with has_block (k : bool) (b : block) : Prop := match b with End => False | Then _ s rest => has k s \/ has_block k rest end
with has_arms (k : bool) (a : arms) : Prop := match a with NoArm => False | Arm _ _ b rest => has_block k b \/ has_arms k rest end
with has_cases (k : bool) (cs : cases) : Prop := match cs with NoCase => False | Case b rest => has_block k b \/ has_cases k rest end
with has_else (k : bool) (o : option_block) : Prop := match o with NoBlock => False | SomeBlock b => has_block k b end.
(** or one with a label. *)
Fixpoint labelled (s : stmt) : Prop :=
  match s with
  | Break (Some _) | Continue (Some _) => True
  | While _ b | DoWhile b _ | ForInfinite b | ForEach b | ForRange _ _ _ b | ForLoop _ _ _ b | Label _ b => labelled_block b
  | If a els => labelled_arms a \/ labelled_else els
  | Switch cs d => labelled_cases cs \/ labelled_else d
  | TryCatch b1 b2 => labelled_block b1 \/ labelled_block b2
  | _ => False
  end
with labelled_block (b : block) : Prop := match b with End => False | Then _ s rest => labelled s \/ labelled_block rest end
with labelled_arms (a : arms) : Prop := match a with NoArm => False | Arm _ _ b rest => labelled_block b \/ labelled_arms rest end
with labelled_cases (cs : cases) : Prop := match cs with NoCase => False | Case b rest => labelled_block b \/ labelled_cases rest end
with labelled_else (o : option_block) : Prop := match o with NoBlock => False | SomeBlock b => labelled_block b end.
(** Neither *)
Definition quiet (b : block) : Prop := ~ has_block true b /\ ~ has_block false b /\ ~ labelled_block b.
(** One of these branches, which can be taken, has no break ([k]) or no continue. *)
Fixpoint spares (k : bool) (a : arms) : Prop := match a with NoArm => False | Arm _ c b rest => (truth c true /\ ~ has_block k b) \/ spares k rest end.
Fixpoint spares_case (k : bool) (cs : cases) : Prop := match cs with NoCase => False | Case b rest => ~ has_block k b \/ spares_case k rest end.
(** In a loop body: no if with else and no switch with default in which every branch has a break, or every branch a continue; none of them
    inside of try or below a label; and none with a label inside of another loop. *)
Fixpoint tame (s : stmt) : Prop :=
  match s with
  | If a els => tame_arms a /\ match els with NoBlock => True | SomeBlock b => tame_block b /\ forall k, spares k a \/ ~ has_block k b end
  | Switch cs d => tame_cases cs /\ match d with NoBlock => True | SomeBlock b => tame_block b /\ forall k, spares_case k cs \/ ~ has_block k b end
  | TryCatch b1 b2 => quiet b1 /\ quiet b2
  | Label _ b => quiet b
  | While _ b | DoWhile b _ | ForInfinite b | ForEach b | ForRange _ _ _ b | ForLoop _ _ _ b => ~ labelled_block b
  | _ => True
  end
with tame_block (b : block) : Prop := match b with End => True | Then _ s rest => tame s /\ tame_block rest end
with tame_arms (a : arms) : Prop := match a with NoArm => True | Arm _ _ b rest => tame_block b /\ tame_arms rest end
with tame_cases (cs : cases) : Prop := match cs with NoCase => True | Case b rest => tame_block b /\ tame_cases rest end.
(** A procedure without goto, in which the bodies of do-while loops are tame, and loops from one number to another have no step, are not
    from 0 to 0 and have no break or continue *)
Fixpoint orderly (s : stmt) : Prop :=
  match s with
  | Goto _ => False
  | DoWhile b _ => tame_block b /\ orderly_block b
  | ForRange x y step b => (forall i j, number x = Some i -> number y = Some j -> step = None /\ ~ (i = 0%Z /\ j = 0%Z) /\ quiet b) /\ orderly_block b
  | ForLoop init _ inc b => (forall x, init <> Some (Going x) /\ inc <> Some (Going x)) /\ orderly_block b
  | While _ b | ForInfinite b | ForEach b | Spawn b | Label _ b => orderly_block b
  | If a els => orderly_arms a /\ orderly_else els
  | Switch cs d => orderly_cases cs /\ orderly_else d
  | TryCatch b1 b2 => orderly_block b1 /\ orderly_block b2
  | _ => True
  end
with orderly_block (b : block) : Prop := match b with End => True | Then _ s rest => orderly s /\ orderly_block rest end
with orderly_arms (a : arms) : Prop := match a with NoArm => True | Arm _ _ b rest => orderly_block b /\ orderly_arms rest end
with orderly_cases (cs : cases) : Prop := match cs with NoCase => True | Case b rest => orderly_block b /\ orderly_cases rest end
with orderly_else (o : option_block) : Prop := match o with NoBlock => True | SomeBlock b => orderly_block b end.

(** ** What is reported in any case *)
(** an orderly statement without break or continue that belongs to a loop around it *)
Definition calm (s : stmt) : Prop := orderly s /\ ~ has true s /\ ~ has false s.
Fixpoint calm_block (b : block) : Prop := match b with End => True | Then _ s rest => calm s /\ calm_block rest end.
(** it always returns: return and CRASH, an if with else and a switch with default all of whose branches always return; and a block with such
    a statement behind calm ones *)
Fixpoint surely (s : stmt) : Prop :=
  match s with
  | Return | Crash => True
  | If a els => surely_arms a /\ match els with NoBlock => False | SomeBlock b => surely_block b end
  | Switch cs d => surely_cases cs /\ match d with NoBlock => False | SomeBlock b => surely_block b end
  | _ => False
  end
with surely_block (b : block) : Prop := match b with End => False | Then _ s rest => surely s \/ (calm s /\ surely_block rest) end
with surely_arms (a : arms) : Prop := match a with NoArm => True | Arm _ _ b rest => surely_block b /\ surely_arms rest end
with surely_cases (cs : cases) : Prop := match cs with NoCase => True | Case b rest => surely_block b /\ surely_cases rest end.
(** the places of the statements of a block itself *)
Fixpoint tops (b : block) : list L := match b with End => [] | Then l _ rest => l :: tops rest end.
Fixpoint append (b b2 : block) : block := match b with End => b2 | Then l s rest => Then l s (append rest b2) end.
End SPEC.
Arguments truth {F}. Arguments term_truth {F}. Arguments number {F}. Arguments enters {F}. Arguments At {L}. Arguments Tested {L}. Arguments Looped {L}. Arguments Until {L}. Arguments Entered {L}. Arguments Always {F}. Arguments Sometimes {F}. Arguments When {F}.
Arguments passes {F}. Arguments test_of {F}. Arguments from_label {F L}. Arguments run {F L}. Arguments run_block {F L}. Arguments run_arms {F L}. Arguments run_cases {F L}. Arguments run_loop {F L}. Arguments run_do_while {F L}. Arguments excludes {L}. Arguments right {F L}.
Arguments places {F L}. Arguments places_block {F L}. Arguments places_arms {F L}. Arguments places_cases {F L}. Arguments places_else {F L}. Arguments has {F L}. Arguments has_block {F L}. Arguments has_arms {F L}. Arguments has_cases {F L}. Arguments has_else {F L}.
Arguments labelled {F L}. Arguments labelled_block {F L}. Arguments labelled_arms {F L}. Arguments labelled_cases {F L}. Arguments labelled_else {F L}. Arguments quiet {F L}. Arguments spares {F L}. Arguments spares_case {F L}. Arguments tame {F L}. Arguments tame_block {F L}. Arguments tame_arms {F L}. Arguments tame_cases {F L}.
Arguments orderly {F L}. Arguments orderly_block {F L}. Arguments orderly_arms {F L}. Arguments orderly_cases {F L}. Arguments orderly_else {F L}.

Arguments calm {F L}. Arguments calm_block {F L}. Arguments surely {F L}. Arguments surely_block {F L}. Arguments surely_arms {F L}. Arguments surely_cases {F L}. Arguments tops {F L}. Arguments append {F L}.
