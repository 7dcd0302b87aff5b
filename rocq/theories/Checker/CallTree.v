(** The check of the call tree for [SpacemanDMM_should_not_sleep] and [SpacemanDMM_should_be_pure].  Models
    crates/dreamchecker/src/lib.rs (cited without file name), check_proc_call_tree, 749-955, and propagate_violations, 1077-1090.
    What the analysis of the procedure bodies has gathered is the input.  The texts of the messages are reduced to their kind. *)
From Coq Require Import List Arith NArith Bool String.
From Verif Require Import Common.Text Objtree.Model.
Import ListNotations.
Open Scope nat_scope.

(** objtree.rs 697-703: equality of ProcRef *)
Definition pr_eqb (a b : procref) : bool := (fst (fst a) =? fst (fst b)) && text_eqb (snd (fst a)) (snd (fst b)) && (snd a =? snd b).
Definition pr_in (p : procref) (l : list procref) : bool := existsb (pr_eqb p) l.
Definition pr_ty (p : procref) : nat := fst (fst p).
(** HashMap::get *)
Definition pr_get {A : Type} (p : procref) (l : list (procref * A)) : option A :=
  match List.find (fun e => pr_eqb (fst e) p) l with Some e => Some (snd e) | None => None end.

Section CHECK.
(** locations, and notes on what was found in a body (name of the builtin or operation, location) *)
Variables L X : Type.

(** 598-610 CallEdge *)
Record edge : Type := { e_proc : procref; e_loc : L; e_new : bool; e_src : nat; e_exact : bool; e_inherit : bool }.
(** 612-636: what has been gathered *)
Record facts : Type := {
  call_tree : list (procref * list edge);
  sleeping : list (procref * list X); impure : list (procref * list X);
  waitfor : list procref; sleep_exempt : list procref;
  must_not_sleep : list (procref * L); must_be_pure : list (procref * L);
  impure_overrides : list (procref * list procref) }.

(** 822-838: the three ways a message starts *)
Inductive kind : Type := OwnOverride | Override (parent : procref) | Calls.
Inductive report : Type :=
  | SleepsItself (root : procref) (set_at : L) (what : list X)
  | Sleeps (root : procref) (set_at : L) (k : kind) (proc : procref) (stack : list (procref * L)) (what : list X).

(** 755-756: an element of to_visit *)
Record item : Type := { i_proc : procref; i_stack : list (procref * L); i_new : bool; i_parent : procref; i_receiver : nat; i_exact : bool }.

Section SLEEP.
Variable f : facts.
(** the overrides that can be dispatched to: recurse_children_within *)
Variable within : procref -> nat -> list procref.
(** 779-798, 870-890: the calls of a procedure that runs with the given receiver *)
Definition calls_of (p : procref) : list edge := match pr_get p (call_tree f) with Some l => l | None => [] end.
Definition queue_calls (receiver : nat) (stack : list (procref * L)) (p : procref) : list item :=
  map (fun e => {| i_proc := e_proc e; i_stack := stack ++ [(e_proc e, e_loc e)]; i_new := e_new e; i_parent := e_proc e;
                   i_receiver := if e_inherit e then receiver else e_src e; i_exact := e_exact e |}) (calls_of p).
Definition kind_of (root p parent : procref) : kind :=
  let same := pr_ty p =? pr_ty root in
  let override := negb (pr_ty p =? pr_ty parent) in
  if same && override then OwnOverride else if override then Override parent else Calls.
(** 801-891: the loop over to_visit.  [None]: it does not end within this many rounds. *)
Fixpoint walk (fuel : nat) (root : procref) (set_at : L) (visited : list procref) (queue : list item) (out : list report) : option (list procref * list report) :=
  match fuel with
  | O => None
  | S fuel' =>
      match queue with
      | [] => Some (visited, out)
      | i :: queue =>
          let p := i_proc i in
          if i_new i then walk fuel' root set_at visited queue out
          else if pr_in p visited then walk fuel' root set_at visited queue out
          else
            let visited := p :: visited in
            if pr_in p (waitfor f) then walk fuel' root set_at visited queue out
            else if pr_in p (sleep_exempt f) then walk fuel' root set_at visited queue out
            else if pr_in p (map fst (must_not_sleep f)) then walk fuel' root set_at visited queue out
            else
              match pr_get p (sleeping f) with
              | Some what => walk fuel' root set_at visited queue (out ++ [Sleeps root set_at (kind_of root p (i_parent i)) p (i_stack i) what])
              | None =>
                  let dispatched :=
                    if negb (i_exact i) && negb (pr_ty p =? 0) then
                      map (fun c => {| i_proc := c; i_stack := i_stack i; i_new := false; i_parent := p; i_receiver := pr_ty c; i_exact := true |}) (within p (i_receiver i))
                    else [] in
                  walk fuel' root set_at visited (queue ++ dispatched ++ queue_calls (i_receiver i) (i_stack i) p) out
              end
      end
  end.
(** 758-892: for each procedure with the directive, in the order given *)
Fixpoint check_roots (fuel : nat) (roots : list (procref * L)) (visited : list procref) (out : list report) : option (list report) :=
  match roots with
  | [] => Some out
  | (root, set_at) :: roots' =>
      if pr_in root visited then check_roots fuel roots' visited out
      else
        let out1 := match pr_get root (sleeping f) with Some what => out ++ [SleepsItself root set_at what] | None => out end in
        match walk fuel root set_at (root :: visited) (queue_calls (pr_ty root) [] root) out1 with
        | Some (visited', out') => check_roots fuel roots' visited' out'
        | None => None
        end
  end.
(** the order is that of the locations of the procedures; here it is the order of the list *)
Definition check_sleep (fuel : nat) : option (list report) := check_roots fuel (must_not_sleep f) [] [].
End SLEEP.

(** ** Purity *)
Inductive purity : Type :=
  | ImpureItself (root : procref) (set_at : L) (what : list X)
  | ImpureCall (root : procref) (set_at : L) (proc : procref) (stack : list (procref * L)) (what : list X)
  | ImpureOverride (root : procref) (set_at : L) (proc : procref) (stack : list (procref * L)) (child : procref) (what : list X).
(** A loop that has not ended within the given number of rounds; a call of unwrap on None *)
Inductive ended (A : Type) : Type := Unfinished | Panicked | Ended (a : A).

Section PURE.
Variable f : facts.
(** is_subtype_of *)
Variable sub : nat -> nat -> bool.
(** 914-920; 942-948, where the location is that of the directive *)
Definition queue_pure (where_ : edge -> L) (stack : list (procref * L)) (p : procref) : list (procref * list (procref * L)) :=
  map (fun e => (e_proc e, stack ++ [(e_proc e, where_ e)])) (calls_of f p).
(** 926-941 *)
Fixpoint override_reports (root : procref) (set_at : L) (p : procref) (stack : list (procref * L)) (children : list procref) : option (list purity) :=
  match children with
  | [] => Some []
  | c :: children' =>
      if sub (pr_ty root) (pr_ty p) && negb (sub (pr_ty c) (pr_ty root)) then override_reports root set_at p stack children'
      else match pr_get c (impure f) with
           | None => None
           | Some what => option_map (cons (ImpureOverride root set_at p stack c what)) (override_reports root set_at p stack children')
           end
  end.
Fixpoint pure_walk (fuel : nat) (root : procref) (set_at : L) (visited : list procref) (queue : list (procref * list (procref * L))) (out : list purity) : ended (list purity) :=
  match fuel with
  | O => Unfinished _
  | S fuel' =>
      match queue with
      | [] => Ended _ out
      | (p, stack) :: queue =>
          if pr_in p visited then pure_walk fuel' root set_at visited queue out
          else
            let mine := match pr_get p (impure f) with
                        | Some what => Some [ImpureCall root set_at p stack what]
                        | None => match pr_get p (impure_overrides f) with
                                  | Some children => override_reports root set_at p stack children
                                  | None => Some []
                                  end
                        end in
            match mine with
            | None => Panicked _
            | Some mine => pure_walk fuel' root set_at (p :: visited) (queue ++ queue_pure (fun _ => set_at) stack p) (out ++ mine)
            end
      end
  end.
(** 896-952 *)
Fixpoint check_pure_roots (fuel : nat) (roots : list (procref * L)) (out : list purity) : ended (list purity) :=
  match roots with
  | [] => Ended _ out
  | (root, set_at) :: roots' =>
      let out1 := match pr_get root (impure f) with Some what => out ++ [ImpureItself root set_at what] | None => out end in
      match pure_walk fuel root set_at [] (queue_pure e_loc [] root) out1 with
      | Ended _ out' => check_pure_roots fuel roots' out'
      | other => other
      end
  end.
Definition check_pure (fuel : nat) : ended (list purity) := check_pure_roots fuel (must_be_pure f) [].
End PURE.

(** ** Overrides with violations *)
Fixpoint pr_push {A : Type} (p : procref) (a : A) (l : list (procref * list A)) : list (procref * list A) :=
  match l with
  | [] => [(p, [a])]
  | (q, vs) :: l' => if pr_eqb q p then (q, vs ++ [a]) :: l' else (q, vs) :: pr_push p a l'
  end.
(** 1077-1090 propagate_violations; [parents]: the procedures that [..()] leads through, without the procedure itself *)
Definition propagate (parents : procref -> list procref) (f : facts) (ovr : list (procref * list procref)) (p : procref) : list (procref * list procref) :=
  if text_eqb (snd (fst p)) (lit "New") then ovr
  else match pr_get p (impure f) with
       | Some _ => fold_left (fun ovr q => pr_push q p ovr) (parents p) ovr
       | None => ovr
       end.
Definition with_overrides (f : facts) (ovr : list (procref * list procref)) : facts :=
  {| call_tree := call_tree f; sleeping := sleeping f; impure := impure f; waitfor := waitfor f; sleep_exempt := sleep_exempt f;
     must_not_sleep := must_not_sleep f; must_be_pure := must_be_pure f; impure_overrides := ovr |}.
End CHECK.

(** ** With the object tree *)
Section TREE.
Variables V D L X : Type.
Variable t : objtree V D.
Notation size := (List.length (graph t)).
(** objtree.rs 487-497 iter_self_procs *)
Definition self_procs (i : nat) : list procref :=
  match node_at t i with
  | Some n => flat_map (fun e => map (fun k => (i, fst e, k)) (seq 0 (List.length (p_values (snd e))))) (n_procs n)
  | None => []
  end.
(** 361-386: the procedures in the order in which they are gone through.  Where the model of the tree has no answer, which is never for
    trees without circles (C49, C50), these lists are empty. *)
Definition all_procs : list procref := match recurse t size 0 with Some l => flat_map self_procs l | None => [] end.
Definition tree_within (p : procref) (src : nat) : list procref := match recurse_children_within t size p src with Some l => l | None => [] end.
Definition tree_sub (i j : nat) : bool := match is_subtype_of t size i j with Some b => b | None => false end.
Definition tree_parents (p : procref) : list procref := match call_chain t size (S (List.length all_procs)) p with Some l => tl l | None => [] end.
Definition tree_sleep (f : facts L X) (fuel : nat) : option (list (report L X)) := check_sleep L X f tree_within fuel.
(** 376-392 *)
Definition propagated (f : facts L X) : facts L X := with_overrides L X f (fold_left (propagate L X tree_parents f) all_procs []).
Definition tree_pure (f : facts L X) (fuel : nat) : ended (list (purity L X)) := check_pure L X (propagated f) tree_sub fuel.
End TREE.
Arguments self_procs {V D}. Arguments all_procs {V D}. Arguments tree_within {V D}. Arguments tree_sub {V D}. Arguments tree_parents {V D}. Arguments tree_sleep {V D L X}. Arguments propagated {V D L X}. Arguments tree_pure {V D L X}.
