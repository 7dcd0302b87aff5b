(** Model of named arguments in crates/dreamchecker/src/lib.rs: visit_call 3252-3350, check_kwargs 1092-1120,
    finish_check_kwargs 1123-1171.

    Simplifications: a BTreeMap is a list of entries in the order of insertion; an error is the data in its text and its notes. Calls
    are given as the analysis of the bodies meets them; the values of the arguments are left out. *)
From Coq Require Import List Arith NArith Bool String.
From Verif Require Import Common.Text Common.Decimal Objtree.Model Checker.CallTree.
Import ListNotations.
Open Scope nat_scope.

Section KWARGS.
Variables V D L : Type.
Variable t : objtree V D.
(** a value of a procedure: its location and the names of its parameters *)
Variable vloc : V -> L.
Variable params : V -> list text.
Variable nowhere : L.

(** 415-430 CalledAt, KwargInfo, BadOverride *)
Record called : Type := { ca_loc : L; ca_others : nat }.
Record bad_override : Type := { b_missing : list text; b_loc : L }.
Record info : Type := { k_loc : L; k_called : list (text * called); k_bad : list (text * bad_override) }.
Definition used : Type := list (text * info).

Definition pr_name (p : procref) : text := snd (fst p).
Definition value_of (p : procref) : option V :=
  match procs_of t (pr_ty p) (pr_name p) with Some q => nth_error (p_values q) (snd p) | None => None end.
Definition parameters (p : procref) : list text := match value_of p with Some v => params v | None => [] end.
Definition location (p : procref) : L := match value_of p with Some v => vloc v | None => nowhere end.
Definition has_param (p : procref) (k : text) : bool := existsb (fun n => text_eqb n k) (parameters p).
Definition path_of (i : nat) : text := match node_at t i with Some n => n_path n | None => [] end.
Definition is_root (i : nat) : bool := match path_of i with [] => true | _ => false end.
(** objtree.rs 173-179 pretty_path *)
Definition pretty_path (i : nat) : text := if is_root i then lit "(global)" else path_of i.
(** objtree.rs 687-695 Display of ProcRef *)
Definition display (p : procref) : text :=
  path_of (pr_ty p) ++ lit "/proc/" ++ pr_name p ++
  match procs_of t (pr_ty p) (pr_name p) with
  | Some q => if 1 <? List.length (p_values q)
              then lit "[" ++ print_N (N.of_nat (snd p)) ++ lit "/" ++ print_N (N.of_nat (List.length (p_values q))) ++ lit "]" else []
  | None => []
  end.

(** A call: the static type it is made on, the procedure found there, whether it is exact, and for each argument its name if it has one *)
Record call : Type := { c_src : nat; c_proc : procref; c_exact : bool; c_args : list (option text); c_loc : L }.
Inductive complaint : Type :=
  | BadKeyword (at_ : L) (name : text) (proc : procref) (elsewhere : list procref)
  | AfterKeyword (at_ : L) (proc : procref).

(** 3302-3316 *)
Definition key_of (c : call) : text := pretty_path (c_src c) ++ lit "/proc/" ++ pr_name (c_proc c).
Definition mark (c : call) (name : text) (u : used) : used :=
  let i := match get (key_of c) u with Some i => i | None => {| k_loc := location (c_proc c); k_called := []; k_bad := [] |} end in
  let ca := match get name (k_called i) with
            | Some a => {| ca_loc := ca_loc a; ca_others := S (ca_others a) |}
            | None => {| ca_loc := c_loc c; ca_others := 0 |}
            end in
  ix_insert (key_of c) {| k_loc := k_loc i; k_called := ix_insert name ca (k_called i); k_bad := k_bad i |} u.

(** 3276-3294: the overrides that have the parameter *)
Definition elsewhere_of (p : procref) (name : text) : list procref :=
  filter (fun c => negb (pr_ty c =? pr_ty p) && has_param c name) (tree_within t p (pr_ty p)).
(** 3252-3350: the loop over the arguments *)
Fixpoint visit_args (c : call) (any_kwargs_yet : bool) (args : list (option text)) (u : used) : used * list complaint :=
  match args with
  | [] => (u, [])
  | Some name :: args' =>
      let '(u1, l1) := if negb (has_param (c_proc c) name) then (u, [BadKeyword (c_loc c) name (c_proc c) (elsewhere_of (c_proc c) name)])
                       else if negb (c_exact c) then (mark c name u, []) else (u, []) in
      let '(u2, l2) := visit_args c true args' u1 in
      (u2, l1 ++ l2)
  | None :: args' =>
      let l1 := if any_kwargs_yet && negb (is_root (pr_ty (c_proc c)) && text_eqb (pr_name (c_proc c)) (lit "animate")) then [AfterKeyword (c_loc c) (c_proc c)] else [] in
      let '(u2, l2) := visit_args c any_kwargs_yet args' u in
      (u2, l1 ++ l2)
  end.
Fixpoint visit_calls (cs : list call) (u : used) : used * list complaint :=
  match cs with
  | [] => (u, [])
  | c :: cs' => let '(u1, l1) := visit_args c false (c_args c) u in let '(u2, l2) := visit_calls cs' u1 in (u2, l1 ++ l2)
  end.

(** 1099-1116 *)
Definition missing_of (p : procref) (i : info) : list text := filter (fun k => negb (has_param p k)) (map fst (k_called i)).
Definition blame (p : procref) (i : info) : info :=
  match missing_of p i with
  | [] => i
  | missing => {| k_loc := k_loc i; k_called := k_called i; k_bad := ix_insert (path_of (pr_ty p)) {| b_missing := missing; b_loc := location p |} (k_bad i) |}
  end.
(** 1092-1120 check_kwargs *)
Definition check_kwargs (u : used) (p : procref) : used :=
  fold_left (fun u q => match get (display q) u with Some i => ix_insert (display q) (blame p i) u | None => u end) (tree_parents t p) u.

(** 1123-1171 finish_check_kwargs: an error per entry with bad overrides *)
Record report : Type := { r_base : text; r_loc : L; r_overrides : list (text * bad_override); r_calls : list (text * called) }.
Definition report_of (e : text * info) : list report :=
  match k_bad (snd e) with
  | [] => []
  | bad => [{| r_base := fst e; r_loc := k_loc (snd e); r_overrides := bad;
               r_calls := filter (fun a => existsb (fun b => existsb (text_eqb (fst a)) (b_missing (snd b))) bad) (k_called (snd e)) |}]
  end.
Definition finish (u : used) : list report := flat_map report_of u.

(** 361-399 run_inner: the bodies first, then the overrides, then the end *)
Definition run (cs : list call) : list complaint * list report :=
  let '(u, l) := visit_calls cs [] in (l, finish (fold_left check_kwargs (all_procs t) u)).
End KWARGS.
Arguments ca_loc {L}. Arguments ca_others {L}. Arguments b_missing {L}. Arguments b_loc {L}. Arguments k_loc {L}. Arguments k_called {L}. Arguments k_bad {L}.
Arguments parameters {V D}. Arguments has_param {V D}. Arguments path_of {V D}. Arguments is_root {V D}. Arguments display {V D}.
Arguments c_src {L}. Arguments c_proc {L}. Arguments c_exact {L}. Arguments c_args {L}. Arguments c_loc {L}.
Arguments BadKeyword {L}. Arguments AfterKeyword {L}. Arguments r_base {L}. Arguments r_loc {L}. Arguments r_overrides {L}. Arguments r_calls {L}.
Arguments location {V D L}. Arguments run {V D L}. Arguments elsewhere_of {V D}. Arguments value_of {V D}. Arguments pretty_path {V D}.
