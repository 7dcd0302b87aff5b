(** What the outline, the folding ranges and the links of a file are to be (C75), said without the recursion of Lsp/Outline.v. *)
From Coq Require Import List Arith NArith ZArith Bool String Sorting.Sorted.
From Verif Require Import Common.Text Loc.Model Loc.Spec Lsp.Outline.
Import ListNotations.
Open Scope nat_scope.

(** ** Symbols *)
(** What is shown of a symbol, but for what is below it. *)
Record entry : Type := Entry { en_name : text; en_detail : option text; en_kind : kind; en_range : lsp_range; en_selection : lsp_range }.
Definition keyword (x : text) : Prop :=
  In x (map lit ["var"; "proc"; "verb"; "final"; "global"; "static"; "const"; "tmp"; "SpacemanDMM_final"; "SpacemanDMM_private"; "SpacemanDMM_protected"]%string).
(** The detail is the last component that is no keyword, of those between what the block around says and the name. *)
Definition detail_is (before : list text) (said : nat) (d : option text) : Prop :=
  (exists x p q, before = p ++ x :: q /\ said <= List.length p /\ ~ keyword x /\ (forall y, In y q -> keyword y) /\ d = Some x)
  \/ (d = None /\ forall p x q, before = p ++ x :: q -> said <= List.length p -> keyword x).
Definition constructor_name (x : text) : Prop := In x (map lit ["New"; "init"; "Initialize"]%string).
Definition global_path (before : list text) : Prop := before = [] \/ before = [lit "proc"].
Inductive body_kind_is : list text -> text -> kind -> Prop :=
  | bk_function before name : global_path before -> body_kind_is before name KFunction
  | bk_constructor before name : ~ global_path before -> constructor_name name -> body_kind_is before name KConstructor
  | bk_method before name : ~ global_path before -> ~ constructor_name name -> body_kind_is before name KMethod.
(** positions count from 0, locations from 1 *)
Definition position_of (l : loc) (p : position) : Prop := fst p = Z.max 0 (lline l - 1) /\ snd p = Z.max 0 (lcol l - 1).
Definition placed (s e : loc) (x : entry) : Prop :=
  position_of s (fst (en_range x)) /\ position_of e (snd (en_range x)) /\ position_of s (fst (en_selection x)) /\ position_of s (snd (en_selection x)).
(** what is shown of an annotation below something that says [said] components of its path *)
Inductive shows : ann -> nat -> text -> option text -> kind -> Prop :=
  | sh_block before name said d : detail_is before said d -> shows (ABlock (before ++ [name])) said name d KClass
  | sh_variable before name said d : detail_is before said d -> shows (AVariable (before ++ [name])) said name d KField
  | sh_body before name idx said d k : detail_is before said d -> body_kind_is before name k -> shows (ABody (before ++ [name]) idx) said name d k
  | sh_local ty name said : shows (ALocal ty name) said name None KVariable
  | sh_macro name said : shows (AMacro name) said name None KConstant.
Definition shown (i : item) (said : nat) (x : entry) : Prop :=
  let '(s, e, a) := i in shows a said (en_name x) (en_detail x) (en_kind x) /\ placed s e x.
(** annotations of which something is shown, and those below which something can be shown *)
Definition has_symbol (a : ann) : Prop :=
  match a with ABlock p => p <> [] | ABody p _ => p <> [] | AVariable _ | ALocal _ _ | AMacro _ => True | _ => False end.
Definition holds_symbols (a : ann) : Prop := match a with ABlock p => p <> [] | ABody p _ => p <> [] | _ => False end.
Definition ann_of (i : item) : ann := snd i.
Definition start_of (i : item) : loc := fst (fst i).
Definition last_of (i : item) : loc := snd (fst i).
(** [i], which comes later, is below [j]: it starts before the last location of [j] *)
Definition below (i j : item) : Prop := holds_symbols (ann_of j) /\ before (start_of i) (last_of j).
(** how much of a path is said already below [j] *)
Definition says (j : item) (n : nat) : Prop := (exists p, ann_of j = ABlock p /\ n = List.length p) \/ (n = 0 /\ forall p, ann_of j <> ABlock p).

(** ** The outline *)
(** every symbol of a forest, from top to bottom, with those above it, the outermost first *)
Definition row : Type := (list entry * entry)%type.
Fixpoint rows_of (above : list entry) (x : sym) : list row :=
  match x with
  | Sym name d k r sel children =>
      let me := Entry name d k r sel in
      (above, me) :: match children with Some c => flat_map (rows_of (above ++ [me])) c | None => [] end
  end.
Definition rows (above : list entry) (xs : list sym) : list row := flat_map (rows_of above) xs.
(** [outlined seen items r]: the rows of [items], after those of [seen], which has the newest first: one row for each annotation that has a symbol,
    in order; it is directly under the newest one that it is below of. *)
Inductive outlined : list (item * row) -> list item -> list row -> Prop :=
  | ol_nil seen : outlined seen [] []
  | ol_none seen i rest r : ~ has_symbol (ann_of i) -> outlined seen rest r -> outlined seen (i :: rest) r
  | ol_top seen i rest r x :
      has_symbol (ann_of i) -> (forall j, In j seen -> ~ below i (fst j)) -> shown i 0 x ->
      outlined ((i, ([], x)) :: seen) rest r -> outlined seen (i :: rest) (([], x) :: r)
  | ol_under newer j above y older i rest r said x :
      has_symbol (ann_of i) -> below i j -> (forall k, In k newer -> ~ below i (fst k)) -> says j said -> shown i said x ->
      outlined ((i, (above ++ [y], x)) :: newer ++ (j, (above, y)) :: older) rest r ->
      outlined (newer ++ (j, (above, y)) :: older) (i :: rest) ((above ++ [y], x) :: r).
(** the order: by the start, what goes on for longer first, of those in the same place blocks first; those alike stay in their order *)
Definition is_block (a : ann) : bool := match a with ABlock _ => true | _ => false end.
Definition earlier (x y : item) : Prop :=
  before (start_of x) (start_of y)
  \/ (start_of x = start_of y /\ (before (last_of y) (last_of x) \/ (last_of x = last_of y /\ (is_block (ann_of x) = true \/ is_block (ann_of y) = false)))).
Definition alike (x y : item) : bool := range_eqb (fst x) (fst y) && Bool.eqb (is_block (ann_of x)) (is_block (ann_of y)).
Definition in_order (items sorted : list item) : Prop :=
  StronglySorted earlier sorted /\ forall x, filter (alike x) sorted = filter (alike x) items.
(** ranges of which two are nested or have nothing in common *)
Definition within (i j : item) : Prop := ~ before (start_of i) (start_of j) /\ ~ before (last_of j) (last_of i).
Definition apart (i j : item) : Prop := before (last_of i) (start_of j) \/ before (last_of j) (start_of i).
Definition nested (items : list item) : Prop := forall i j, In i items -> In j items -> within i j \/ within j i \/ apart i j.
(** ranges of a file *)
Definition in_file (items : list item) (file : Z) : Prop :=
  forall i, In i items -> lfile (start_of i) = file /\ lfile (last_of i) = file /\ (1 <= lline (start_of i))%Z /\ ~ before (last_of i) (start_of i).
Definition position_le (p q : position) : Prop := (fst p < fst q \/ fst p = fst q /\ snd p <= snd q)%Z.
Definition range_within (r s : lsp_range) : Prop := position_le (fst s) (fst r) /\ position_le (snd r) (snd s).
Definition has_symbolb (a : ann) : bool :=
  match a with ABlock p | ABody p _ => match p with [] => false | _ => true end | AVariable _ | ALocal _ _ | AMacro _ => true | _ => false end.

(** the annotations that have a symbol *)
Definition symbols (items : list item) : list item := filter (fun i => has_symbolb (ann_of i)) items.

(** ** Folding *)
Inductive marker : Type := Opens | Closes | Neither.
Definition marks_region (word : string) (line : text) : Prop :=
  exists ws sp tail, line = ws ++ lit "//" ++ sp ++ lit word ++ tail /\ Forall (fun c => is_whitespace c = true) ws /\ (sp = [] \/ sp = lit " ")
    /\ (tail = [] \/ exists c t, tail = c :: t /\ is_whitespace c = true).
Inductive marker_of : text -> marker -> Prop :=
  | mk_opens line : marks_region "#region" line -> marker_of line Opens
  | mk_closes line : marks_region "#endregion" line -> marker_of line Closes
  | mk_neither line : ~ marks_region "#region" line -> ~ marks_region "#endregion" line -> marker_of line Neither.
(** lines between which all regions are closed again *)
Inductive balanced : list marker -> Prop :=
  | bal_nil : balanced []
  | bal_neither ms : balanced ms -> balanced (Neither :: ms)
  | bal_region a b : balanced a -> balanced b -> balanced (Opens :: a ++ Closes :: b).
Definition region (ms : list marker) (s e : nat) : Prop :=
  exists p b q, ms = p ++ Opens :: b ++ Closes :: q /\ balanced b /\ s = List.length p /\ e = s + 1 + List.length b.

(** ** Links *)
Definition linked (a : ann) (path : text) : Prop := a = AInclude path \/ a = AResource path.
Definition linkb (file : Z) (i : item) : bool := (lfile (start_of i) =? file)%Z && match ann_of i with AInclude _ | AResource _ => true | _ => false end.
(** a link where [i] was annotated, from its start to its end, to what [path] is *)
Definition links_to {url : Type} (to_url : text -> option url) (b : build ann) (i : item) (l : lsp_range * url) : Prop :=
  exists s e a path, In (s, e, a) (inserted b) /\ i = reported (s, e, a) /\ linked a path /\ to_url path = Some (snd l) /\ position_of s (fst (fst l)) /\ position_of e (snd (fst l)).
