(** What the object tree should say (C49, C50): types are known by the components of their paths. *)
From Coq Require Import List Arith NArith Bool String Relations.
From Verif Require Import Common.Text Objtree.Ispath Objtree.Model Parse.Ast.
Import ListNotations.
Open Scope nat_scope.

Section SPEC.
Variables V D : Type.
Notation objtree := (objtree V D).
Notation node := (node V D).

(** Names without slashes, as identifiers are *)
Definition names (cs : list text) : Prop := forall c, In c cs -> slash_free c.
(** Node [i] is the type with the path [/c1/c2/...]. *)
Definition at_ (t : objtree) (i : nat) (cs : list text) : Prop :=
  names cs /\ exists n, nth_error (graph t) i = Some n /\ n_path n = render cs.

(** A tree that the parser has built, or finished building *)
Definition tree (t : objtree) : Prop := built t \/ exists out, finished t out.
(** ** The order of paths: component by component, a type before the types in it *)
(** the order of the words of a dictionary: at the first difference the smaller character comes first, and what ends there before what goes on *)
Definition before (a b : text) : Prop :=
  exists p, (exists x s, a = p /\ b = p ++ x :: s) \/ (exists x y s s', a = p ++ x :: s /\ b = p ++ y :: s' /\ (x < y)%N).
Fixpoint plt (a b : list text) : Prop :=
  match a, b with
  | _, [] => False
  | [], _ :: _ => True
  | x :: a', y :: b' => before x y \/ (x = y /\ plt a' b')
  end.
Definition inside (cs ds : list text) : Prop := exists es, ds = cs ++ es.
(** ** One step of a path, from the type [/c1/c2/...]: [/x] is the type in it with this name; [.x] is that of the nearest type
    outwards that has one, starting with itself; [:x] is that of the first type inside that has one, starting with itself. *)
Definition step (t : objtree) (cs : list text) (op : pathop) (x : text) (j : nat) : Prop :=
  match op with
  | PathSlash => at_ t j (cs ++ [x])
  | PathDot => exists ds, inside ds cs /\ at_ t j (ds ++ [x]) /\ forall es k, inside es cs -> at_ t k (es ++ [x]) -> inside es ds
  | PathColon => exists ds, inside cs ds /\ at_ t j (ds ++ [x]) /\ forall es k, inside cs es -> at_ t k (es ++ [x]) -> es = ds \/ plt ds es
  end.
Inductive reaches (t : objtree) : list text -> list (pathop * text) -> nat -> Prop :=
  | reaches_here cs i : at_ t i cs -> reaches t cs [] i
  | reaches_on cs op x j ds rest i : step t cs op x j -> at_ t j ds -> reaches t ds rest i -> reaches t cs ((op, x) :: rest) i.

(** ** Inheritance *)
(** The parent that the path alone implies; [None] stands for the root. *)
Definition parentless : list text := map lit ["datum"; "list"; "alist"; "savefile"; "world"; "vector"; "pixloc"; "callee"; "client"]%string.
Definition usual_parent (cs : list text) : option (list text) :=
  match cs with
  | [] => None
  | [x] =>
      if existsb (text_eqb x) parentless then None
      else if text_eqb x (lit "atom") then Some [lit "datum"]
      else if existsb (text_eqb x) [lit "turf"; lit "area"] then Some [lit "atom"]
      else if existsb (text_eqb x) [lit "obj"; lit "mob"] then Some [lit "atom"; lit "movable"]
      else Some [lit "datum"]
  | _ => Some (removelast cs)
  end.
(** Types whose parent cannot be chosen *)
Definition fixed (cs : list text) : bool :=
  match cs with
  | [x] => existsb (text_eqb x) (map lit ["datum"; "list"; "alist"; "savefile"; "world"; "vector"; "pixloc"; "callee"; "atom"; "turf"; "area"; "obj"; "mob"]%string)
  | _ => false
  end.
(** The path of the parent of the type [/c1/c2/...] whose variable [parent_type] is [v]; [None]: the root *)
Definition chosen_parent (cs : list text) (v : option pvar) : option text :=
  let usual := option_map render (usual_parent cs) in
  if fixed cs then usual
  else match option_map pv_value v with
       | Some (PString s) => if text_eqb (render cs) (lit "/client") && text_eqb s [] then None else Some s
       | Some (PPath p) => if text_eqb (render cs) (lit "/client") && text_eqb (render p) [] then None else Some (render p)
       | _ => usual
       end.
(** No type other than the root has this path. *)
Definition unknown (t : objtree) (path : text) : Prop := forall j ds, at_ t j ds -> ds <> [] -> render ds <> path.
(** The parent of the type [/c1/c2/...]: the type with the chosen path, or the root *)
Definition right_parent (t : objtree) (cs : list text) (v : option pvar) (p : nat) : Prop :=
  match chosen_parent cs v with
  | None => p = 0
  | Some q => (exists ds, at_ t p ds /\ ds <> [] /\ render ds = q) \/ (unknown t q /\ p = 0)
  end.
(** What is wrong with the variable [parent_type] of a type *)
Inductive complaint (t : objtree) (cs : list text) (v : option pvar) : preport -> Prop :=
  | not_allowed x w : cs = [x] -> In x (map lit ["datum"; "list"; "alist"; "savefile"; "world"; "vector"; "pixloc"; "callee"]%string) -> v = Some w -> pv_expr w = true ->
      complaint t cs v (NotAllowed (render cs))
  | bad_value w : fixed cs = false -> v = Some w -> pv_value w = POther \/ (pv_value w = PMissing /\ cs <> [lit "client"]) -> complaint t cs v (BadValue (render cs))
  | bad_parent q : chosen_parent cs v = Some q -> unknown t q -> complaint t cs v (BadParent (render cs) q).
(** [i] inherits from [p] directly. *)
Definition inherits (t : objtree) (i p : nat) : Prop := parent_type t i = Some p.
(** [i] is [j] or inherits from it. *)
Definition subtype (t : objtree) : nat -> nat -> Prop := clos_refl_trans _ (inherits t).
Definition acyclic (t : objtree) : Prop := well_founded (fun p i => inherits t i p).

(** The variable [parent_type] of a type is set to something that can be a parent, and counts. *)
Definition chooses (cs : list text) (v : option pvar) : Prop :=
  fixed cs = false /\ exists w, v = Some w /\ ((exists s, pv_value w = PString s) \/ (exists p, pv_value w = PPath p)).
(** What the nearest type upwards says that says anything *)
Inductive nearest {A : Type} (t : objtree) (f : nat -> option A) : nat -> option A -> Prop :=
  | nearest_here i a : f i = Some a -> nearest t f i (Some a)
  | nearest_up i p r : f i = None -> parent_type t i = Some p -> nearest t f p r -> nearest t f i r
  | nearest_none i : f i = None -> parent_type t i = None -> nearest t f i None.

(** ** Procedures *)
(** The values that type [i] has itself for procedure [name], from the last to the first *)
Definition own (t : objtree) (name : text) (i : nat) : list (nat * text * nat) :=
  match procs_of t i name with
  | Some p => map (fun k => (i, name, k)) (rev (seq 0 (List.length (p_values p))))
  | None => []
  end.
(** All values that [..()] leads through from type [i] upwards: its own, then those of its parent. *)
Inductive chain (t : objtree) (name : text) : nat -> list (nat * text * nat) -> Prop :=
  | chain_end i : parent_type t i = None -> chain t name i (own t name i)
  | chain_up i p rest : parent_type t i = Some p -> chain t name p rest -> chain t name i (own t name i ++ rest).
End SPEC.
Arguments at_ {V D}. Arguments inherits {V D}. Arguments subtype {V D}. Arguments acyclic {V D}. Arguments own {V D}. Arguments chain {V D}. Arguments unknown {V D}. Arguments right_parent {V D}. Arguments complaint {V D}. Arguments tree {V D}. Arguments step {V D}. Arguments reaches {V D}. Arguments nearest {V D A}.
