(** What the directives of procedures mean (C53). *)
From Coq Require Import List Arith NArith Bool String Relations.
From Verif Require Import Common.Text Objtree.Model Objtree.Spec Checker.CallTree Checker.Spec Checker.Directives.
Import ListNotations.
Open Scope nat_scope.

Section SPEC.
Variables V D L : Type.
Variable t : objtree V D.
Variable vloc : V -> L.
Variable dloc : D -> L.

(** The procedure is an override, or a further definition: what declares it is at another place. *)
Definition not_the_declaration (p : procref) : Prop :=
  exists d v, nearest t (fun j => match procs_of t j (snd (fst p)) with Some q => p_decl q | None => None end) (pr_ty p) (Some d) /\ value_of t p = Some v /\ dloc d <> vloc v.
(** A setting that can be accepted as far as it alone is concerned *)
Definition acceptable (d : rules) (s : setting L) (b : bool) : Prop :=
  s_value s = Some b /\ (set_at_definition d = true -> ~ not_the_declaration (s_proc s)) /\
  (pr_ty (s_proc s) = 0 -> can_be_global d = true) /\ (b = false -> can_be_disabled d = true).
(** The first acceptable one among these for the procedure *)
Definition first_accepted (d : rules) (ss : list (setting L)) (p : procref) (b : bool) (l : L) : Prop :=
  exists before s after, ss = before ++ s :: after /\ s_proc s = p /\ s_loc s = l /\ acceptable d s b /\ forall s' b', In s' before -> s_proc s' = p -> ~ acceptable d s' b'.
(** Why a setting is refused that comes after these *)
Inductive refused (d : rules) (before : list (setting L)) (s : setting L) : refusal L -> Prop :=
  | not_here : set_at_definition d = true -> not_the_declaration (s_proc s) -> refused d before s (NotAtDefinition L)
  | bad_value : (set_at_definition d = true -> ~ not_the_declaration (s_proc s)) -> s_value s = None -> refused d before s (BadSetting L)
  | not_global b : (set_at_definition d = true -> ~ not_the_declaration (s_proc s)) -> s_value s = Some b -> pr_ty (s_proc s) = 0 -> can_be_global d = false -> refused d before s (NotGlobal L)
  | not_disabled : (set_at_definition d = true -> ~ not_the_declaration (s_proc s)) -> s_value s = Some false -> (pr_ty (s_proc s) = 0 -> can_be_global d = true) -> can_be_disabled d = false -> refused d before s (NotDisabled L)
  | twice b b0 first : acceptable d s b -> first_accepted d before (s_proc s) b0 first -> refused d before s (Twice L first).
(** [q] is [p] or the nearest procedure that [..()] leads to from it that has the directive; it is set to [b], at [l]. *)
Definition governs (m : entries L) (p q : procref) (b : bool) (l : L) : Prop :=
  exists a mid rest, chain t (snd (fst p)) (pr_ty p) (a ++ mid ++ q :: rest) /\ hd_error (mid ++ [q]) = Some p /\ (forall x v, In x mid -> ~ In (x, v) m) /\ In (q, (b, l)) m.
(** [..()] in [p] is [parent]. *)
Definition next (p parent : procref) : Prop := exists a rest, chain t (snd (fst p)) (pr_ty p) (a ++ p :: parent :: rest).
(** What is wrong with a procedure that overrides another one *)
Inductive wrong (e : env L) (builtin : procref -> bool) (p : procref) (calls_parent : bool) : complaint L -> Prop :=
  | wrong_private parent q l : next p parent -> governs (e_private e) p q true l -> q <> p -> wrong e builtin p calls_parent (OverridesPrivate L q l)
  | wrong_override parent q l : next p parent -> governs (e_no_override e) p q true l -> q <> p -> wrong e builtin p calls_parent (OverridesForbidden L q l)
  | wrong_call parent l : next p parent -> calls_parent = true -> In (parent, (true, l)) (e_must_not_call e) -> (forall l', ~ In (p, (false, l')) (e_must_not_call e)) -> wrong e builtin p calls_parent (CallsParent L parent l)
  | wrong_no_call parent q l : next p parent -> calls_parent = false -> governs (e_must_call e) p q true l -> wrong e builtin p calls_parent (NeverCallsParent L q l)
  | wrong_again parent : next p parent -> pr_ty parent = pr_ty p -> builtin parent = false -> (forall q b l, ~ governs (e_redefinable e) p q b l) -> wrong e builtin p calls_parent (Redefines L parent).
(** What is wrong with a call of [p] by a procedure of the type [caller], on something of the static type [ty] *)
Inductive trespasses (e : env L) (caller ty : nat) (p : procref) : trespass L -> Prop :=
  | on_private q l : governs (e_private e) p q true l -> ty <> pr_ty q \/ caller <> pr_ty q -> trespasses e caller ty p (CallsPrivate L q l)
  | on_protected q l : governs (e_protected e) p q true l -> ~ subtype t caller (pr_ty q) -> (forall q' l', governs (e_private e) p q' true l' -> ty = pr_ty q') -> trespasses e caller ty p (CallsProtected L q l).
Definition one_each (m : entries L) : Prop := NoDup (map fst m).
Definition tidy_env (e : env L) : Prop :=
  one_each (e_private e) /\ one_each (e_protected e) /\ one_each (e_no_override e) /\ one_each (e_must_call e) /\ one_each (e_must_not_call e) /\ one_each (e_redefinable e).
(** a procedure that there is *)
Definition exists_ (p : procref) : Prop := exists q, procs_of t (pr_ty p) (snd (fst p)) = Some q /\ snd p < List.length (p_values q).
End SPEC.
Arguments not_the_declaration {V D L}. Arguments acceptable {V D L}. Arguments first_accepted {V D L}. Arguments refused {V D L}. Arguments governs {V D L}. Arguments next {V D}. Arguments wrong {V D L}. Arguments trespasses {V D L}. Arguments one_each {L}. Arguments tidy_env {L}. Arguments exists_ {V D}.
