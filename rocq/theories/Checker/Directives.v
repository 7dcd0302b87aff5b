(** The directives of procedures ([set SpacemanDMM_...]).  Models crates/dreamchecker/src/lib.rs (cited without file name): ProcDirective,
    417-510; add_directive_or_error, 695-747; the settings at the start of each procedure, 997-1070, as far as they are directives; the
    copying at 689-693; the checks of overrides, 1488-1562, and of calls, 2912-2955 and 3236-3250.  Messages are reduced to their kind. *)
From Coq Require Import List Arith NArith Bool String.
From Verif Require Import Common.Text Objtree.Model Checker.CallTree.
Import ListNotations.
Open Scope nat_scope.

Section DIRECTIVES.
Variables V D L : Type.
Variable t : objtree V D.
(** locations of procedure values and of declarations *)
Variable vloc : V -> L.
Variable dloc : D -> L.
Variable l_eqb : L -> L -> bool.

(** 417-424 ProcDirective, 426-440 new.  The map is in [entries]. *)
Record rules : Type := { can_be_disabled : bool; set_at_definition : bool; can_be_global : bool }.
Definition entries : Type := list (procref * (bool * L)).
Inductive refusal : Type := NotGlobal | NotDisabled | Twice (first : L) | NotAtDefinition | BadSetting.
Definition outcome : Type := (entries + refusal)%type.
(** 442-480 insert *)
Definition insert (d : rules) (m : entries) (p : procref) (enable : bool) (at_ : L) : outcome :=
  if (pr_ty p =? 0) && negb (can_be_global d) then inr NotGlobal
  else if negb enable && negb (can_be_disabled d) then inr NotDisabled
  else match pr_get p m with
       | Some (_, first) => inr (Twice first)
       | None => inl ((p, (enable, at_)) :: m)
       end.
(** 487-497 get_self_or_parent *)
Fixpoint first_entry (m : entries) (ps : list procref) : option (procref * bool * L) :=
  match ps with
  | [] => None
  | p :: ps' => match pr_get p m with Some (b, l) => Some (p, b, l) | None => first_entry m ps' end
  end.
Definition get_self_or_parent (m : entries) (p : procref) : option (procref * bool * L) := first_entry m (p :: tree_parents t p).
(** 499-507 try_copy_from_parent *)
Definition try_copy (d : rules) (m : entries) (p : procref) : entries :=
  match pr_get p m with
  | Some _ => m
  | None =>
      match tree_parents t p with
      | [] => m
      | parent :: _ =>
          match get_self_or_parent m parent with
          | Some (_, true, at_) => match insert d m p true at_ with inl m' => m' | inr _ => m end
          | _ => m
          end
      end
  end.
(** the value of a procedure *)
Definition value_of (p : procref) : option V :=
  match procs_of t (pr_ty p) (snd (fst p)) with Some q => nth_error (p_values q) (snd p) | None => None end.
(** 719-732: whether the declaration of the procedure is elsewhere *)
Definition elsewhere (p : procref) : bool :=
  match get_proc_declaration t (List.length (graph t)) (pr_ty p) (snd (fst p)), value_of p with
  | Some (Some d), Some v => negb (l_eqb (dloc d) (vloc v))
  | _, _ => false
  end.
(** A setting: the procedure, the value (513-523 directive_value_to_truthy: none for an invalid one) and the location *)
Record setting : Type := { s_proc : procref; s_value : option bool; s_loc : L }.
(** 695-747 add_directive_or_error, for the directive with the rules [d] *)
Definition add (d : rules) (m : entries) (s : setting) : outcome :=
  if set_at_definition d && elsewhere (s_proc s) then inr NotAtDefinition
  else match s_value s with
       | Some b => insert d m (s_proc s) b (s_loc s)
       | None => inr BadSetting
       end.
(** all settings of one directive, in the order in which the procedures are gone through; with what is complained about *)
Fixpoint gather (d : rules) (m : entries) (ss : list setting) : entries * list (setting * refusal) :=
  match ss with
  | [] => (m, [])
  | s :: ss' =>
      match add d m s with
      | inl m' => gather d m' ss'
      | inr r => let '(m', out) := gather d m ss' in (m', (s, r) :: out)
      end
  end.
(** 371-376, 689-691: every procedure with code is checked in turn, which copies the directive to it *)
Definition copied (d : rules) (m : entries) (ps : list procref) : entries := fold_left (try_copy d) ps m.

(** ** Overrides: 1488-1562 *)
Record env : Type := { e_private : entries; e_protected : entries; e_no_override : entries; e_must_call : entries; e_must_not_call : entries; e_redefinable : entries }.
Inductive complaint : Type :=
  | OverridesPrivate (by_ : procref) (at_ : L) | OverridesForbidden (by_ : procref) (at_ : L)
  | CallsParent (parent : procref) (at_ : L) | NeverCallsParent (by_ : procref) (at_ : L) | Redefines (parent : procref).
Definition check_override (e : env) (builtin : procref -> bool) (p : procref) (calls_parent : bool) : list complaint :=
  match tree_parents t p with
  | [] => []
  | parent :: _ =>
      (match get_self_or_parent (e_private e) p with Some (q, true, l) => if pr_eqb q p then [] else [OverridesPrivate q l] | _ => [] end) ++
      (match get_self_or_parent (e_no_override e) p with Some (q, true, l) => if pr_eqb q p then [] else [OverridesForbidden q l] | _ => [] end) ++
      (if calls_parent then
         match pr_get p (e_must_not_call e) with
         | Some (false, _) => []
         | _ => match pr_get parent (e_must_not_call e) with Some (true, l) => [CallsParent parent l] | _ => [] end
         end
       else match get_self_or_parent (e_must_call e) p with Some (q, true, l) => [NeverCallsParent q l] | _ => [] end) ++
      (if negb (builtin parent) && (pr_ty p =? pr_ty parent) && match get_self_or_parent (e_redefinable e) p with None => true | Some _ => false end then [Redefines parent] else [])
  end.
(** ** Calls *)
Inductive trespass : Type := CallsPrivate (proc : procref) (at_ : L) | CallsProtected (proc : procref) (at_ : L).
(** 3236-3250: in visit_call, from a procedure of the type [caller] *)
Definition check_private (e : env) (caller : nat) (p : procref) : list trespass :=
  match get_self_or_parent (e_private e) p with
  | Some (q, true, l) => if caller =? pr_ty q then [] else [CallsPrivate q l]
  | _ => []
  end.
(** 2912-2955: a call [a.b()], where the static type of [a] is [ty] and the procedure found there is [p] *)
Definition check_follow (e : env) (caller ty : nat) (p : procref) : list trespass :=
  let private := match get_self_or_parent (e_private e) p with
                 | Some (q, true, l) => if ty =? pr_ty q then None else Some (CallsPrivate q l)
                 | _ => None
                 end in
  match private with
  | Some c => [c]
  | None => (match get_self_or_parent (e_protected e) p with
             | Some (q, true, l) => if tree_sub t caller (pr_ty q) then [] else [CallsProtected q l]
             | _ => []
             end) ++ check_private e caller p
  end.
End DIRECTIVES.
Arguments s_proc {L}. Arguments s_value {L}. Arguments s_loc {L}. Arguments insert {L}. Arguments get_self_or_parent {V D L}. Arguments try_copy {V D L}. Arguments value_of {V D}. Arguments gather {V D L}. Arguments add {V D L}. Arguments elsewhere {V D L}. Arguments copied {V D L}. Arguments check_override {V D L}. Arguments check_private {V D L}. Arguments check_follow {V D L}. Arguments first_entry {L}.
Arguments e_private {L}. Arguments e_protected {L}. Arguments e_no_override {L}. Arguments e_must_call {L}. Arguments e_must_not_call {L}. Arguments e_redefinable {L}.
