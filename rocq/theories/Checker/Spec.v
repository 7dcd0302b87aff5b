(** What the check of the call tree should find (C51, C52). *)
From Coq Require Import List Arith NArith Bool String Relations.
From Verif Require Import Common.Text Objtree.Model Objtree.Spec Checker.CallTree.
Import ListNotations.
Open Scope nat_scope.

Section SPEC.
Variables V D L X : Type.
Variable t : objtree V D.
Variable f : facts L X.

(** [e] is a call in the body of [p]. *)
Definition calls (p : procref) (e : edge L) : Prop := exists l, In (p, l) (call_tree L X f) /\ In e l.
(** A call of [p] on an object whose type is [receiver] or a subtype of it can end up in [c]. *)
Definition dispatches (p : procref) (receiver : nat) (c : procref) : Prop :=
  exists j q, subtype t j receiver /\ procs_of t j (snd (fst p)) = Some q /\ c = (j, snd (fst p), List.length (p_values q) - 1).
(** Procedures that are not looked into: they return when they sleep, may sleep, or are checked by themselves *)
Definition stops (p : procref) : Prop := In p (waitfor L X f) \/ In p (sleep_exempt L X f) \/ exists l, In (p, l) (must_not_sleep L X f).
Definition sleeps (p : procref) (what : list X) : Prop := In (p, what) (sleeping L X f).
Definition passes (p : procref) : Prop := ~ stops p /\ forall what, ~ sleeps p what.
Definition receiver_of (e : edge L) (receiver : nat) : nat := if e_inherit L e then receiver else e_src L e.
(** While [root] runs, [p] runs: [stack] are the calls that lead there, [called] the procedure that was called last ([p] or one that it
    overrides), [receiver] a type of the object and [exact] whether nothing but [p] can run. *)
Inductive reach (root : procref) : list (procref * L) -> procref -> procref -> nat -> bool -> Prop :=
  | reach_first e : calls root e -> e_new L e = false ->
      reach root [(e_proc L e, e_loc L e)] (e_proc L e) (e_proc L e) (receiver_of e (pr_ty root)) (e_exact L e)
  | reach_override stack called p receiver c : reach root stack called p receiver false -> passes p -> pr_ty p <> 0 -> dispatches p receiver c -> c <> p ->
      reach root stack p c (pr_ty c) true
  | reach_call stack called p receiver exact e : reach root stack called p receiver exact -> passes p -> calls p e -> e_new L e = false ->
      reach root (stack ++ [(e_proc L e, e_loc L e)]) (e_proc L e) (e_proc L e) (receiver_of e receiver) (e_exact L e).
(** keys of hash maps *)
Definition keyed : Prop :=
  NoDup (map fst (call_tree L X f)) /\ NoDup (map fst (sleeping L X f)) /\ NoDup (map fst (impure L X f)) /\ NoDup (map fst (must_not_sleep L X f)) /\ NoDup (map fst (must_be_pure L X f)).
(** What the message says about [p], which runs because [called] was called: it is an override, on the type of [root]; it is an override
    of [parent]; it is called. *)
Definition says (root called p : procref) (k : kind) : Prop :=
  match k with
  | OwnOverride => pr_ty p = pr_ty root /\ pr_ty p <> pr_ty called
  | Override parent => parent = called /\ pr_ty p <> pr_ty root /\ pr_ty p <> pr_ty called
  | Calls => pr_ty p = pr_ty called
  end.
(** Which overrides a procedure can lead to does not depend on how it is reached. *)
Definition uniform : Prop := forall r1 s1 c1 r2 s2 c2 p recv1 ex1 recv2 c,
  (exists l, In (r1, l) (must_not_sleep L X f)) -> (exists l, In (r2, l) (must_not_sleep L X f)) ->
  reach r1 s1 c1 p recv1 false -> reach r2 s2 c2 p recv2 ex1 -> pr_ty p <> 0 -> dispatches p recv1 c -> c = p \/ (ex1 = false /\ dispatches p recv2 c).

(** ** Purity *)
(** While [root] runs, or something it has started, [p] runs after these calls. *)
Inductive started (root : procref) : list (procref * L) -> procref -> Prop :=
  | started_first e : calls root e -> started root [(e_proc L e, e_loc L e)] (e_proc L e)
  | started_call stack p e : started root stack p -> calls p e -> started root (stack ++ [(e_proc L e, e_loc L e)]) (e_proc L e).
(** The calls as they are shown: from the second on the location is that of the directive. *)
Definition shown (set_at : L) (stack : list (procref * L)) : list (procref * L) :=
  match stack with [] => [] | first :: rest => first :: map (fun e => (fst e, set_at)) rest end.
Definition is_impure (p : procref) (what : list X) : Prop := In (p, what) (impure L X f).
(** [..()] leads from [c] to [p], directly or not. *)
Definition overrides (c p : procref) : Prop := exists a b, chain t (snd (fst c)) (pr_ty c) (a ++ c :: b) /\ In p b.
(** The override [c] of [p] can be the one that runs when [root] calls [p]: if [root] belongs to a type with [p], then [c] belongs to that
    type. *)
Definition can_answer (root p c : procref) : Prop := subtype t (pr_ty root) (pr_ty p) -> subtype t (pr_ty c) (pr_ty root).
(** Which complaints there are, with the calls that can be shown *)
Inductive impurity : purity L X -> Prop :=
  | itself root set_at what : In (root, set_at) (must_be_pure L X f) -> is_impure root what -> impurity (ImpureItself L X root set_at what)
  | by_call root set_at p stack what : In (root, set_at) (must_be_pure L X f) -> started root stack p -> is_impure p what -> impurity (ImpureCall L X root set_at p (shown set_at stack) what)
  | by_override root set_at p stack c what : In (root, set_at) (must_be_pure L X f) -> started root stack p -> (forall w, ~ is_impure p w) ->
      overrides c p -> snd (fst c) <> lit "New" -> (exists q, procs_of t (pr_ty c) (snd (fst c)) = Some q /\ snd c < List.length (p_values q)) -> is_impure c what -> can_answer root p c ->
      impurity (ImpureOverride L X root set_at p (shown set_at stack) c what).
(** The complaint without the calls *)
Definition but_calls (r : purity L X) : purity L X :=
  match r with
  | ImpureItself _ _ root set_at what => ImpureItself L X root set_at what
  | ImpureCall _ _ root set_at p _ what => ImpureCall L X root set_at p [] what
  | ImpureOverride _ _ root set_at p _ c what => ImpureOverride L X root set_at p [] c what
  end.
(** whom it is about *)
Definition about (r : purity L X) : procref * option procref * option procref :=
  match r with
  | ImpureItself _ _ root _ _ => (root, None, None)
  | ImpureCall _ _ root _ p _ _ => (root, Some p, None)
  | ImpureOverride _ _ root _ p _ c _ => (root, Some p, Some c)
  end.
End SPEC.
Arguments calls {L X}. Arguments dispatches {V D}. Arguments stops {L X}. Arguments sleeps {L X}. Arguments passes {L X}. Arguments receiver_of {L}. Arguments reach {V D L X}. Arguments keyed {L X}. Arguments started {L X}. Arguments shown {L}. Arguments is_impure {L X}. Arguments overrides {V D}. Arguments can_answer {V D}. Arguments impurity {V D L X}. Arguments about {L X}. Arguments but_calls {L X}. Arguments uniform {V D L X}.
