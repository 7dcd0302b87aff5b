(** What is shown of a name (C77), said with the places of Lsp/GotoSpec.v and the types above a type. *)
From Coq Require Import List Arith NArith Bool String.
From Verif Require Import Common.Text Objtree.Ispath Objtree.Model Objtree.Lemmas Objtree.Spec Parse.Ast Lsp.Completion Lsp.CompletionSpec Lsp.Goto Lsp.GotoSpec Lsp.Hover.
Import ListNotations.
Open Scope nat_scope.

Section SPEC.
Variables V D L : Type.
Variable t : objtree V D.
Variable hvars : nat -> list (text * hvar L).
Variable value_params : V -> list hparam.
Variable value_loc : V -> L.
Variable value_docs : V -> option text.
Variable kind_name : D -> text.
Variable macro_docs : L -> option text.
Variable builtin : L -> bool.
Variable file_link : L -> option text.
Notation mark := (mark L). Notation pvars := (plain_vars L hvars). Notation pparams := (plain_params V value_params).

(** ** The types above a type, from it on *)
Definition up (rootless : bool) (i p : nat) : Prop := inherits t i p /\ (rootless = true -> p <> 0).
Inductive lineage (rootless : bool) : nat -> list nat -> Prop :=
  | li_end i : (forall p, ~ up rootless i p) -> lineage rootless i [i]
  | li_on i p js : up rootless i p -> lineage rootless p js -> lineage rootless i (i :: js).
(** What those of them have, that need to have something, in order *)
Inductive collects {A : Type} (needs : nat -> Prop) (R : nat -> A -> Prop) : list nat -> list A -> Prop :=
  | co_nil : collects needs R [] []
  | co_take j a js l : needs j -> R j a -> collects needs R js l -> collects needs R (j :: js) (a :: l)
  | co_skip j js l : ~ needs j -> collects needs R js l -> collects needs R (j :: js) l.

(** ** Pieces of text *)
Definition code (s : text) : text := lit "```dm" ++ [10%N] ++ s ++ [10%N] ++ lit "```".
Definition linked (loc : L) (u : text) : Prop := (builtin loc = true /\ u = []) \/ (builtin loc = false /\ file_link loc = Some u).
(** the path of the type, with a link to a place *)
Definition titled (j : nat) (loc : L) (s : text) : Prop :=
  exists cs u, at_ t j cs /\ linked loc u /\ s = lit "[" ++ (match cs with [] => lit "(global)" | _ => render cs end) ++ lit "](" ++ u ++ lit ")".
Definition typed (flags : text) (path : list text) : text := flags ++ flat_map (fun w => w ++ lit "/") path.
Definition parameter (q : hparam) : text := typed (q_flags q) (q_type q) ++ q_name q ++ match q_as q with Some a => lit " as " ++ a | None => [] end.
(** [name(a, b)] *)
Definition header (x : text) (v : V) : text := x ++ lit "(" ++ joined (lit ", ") (map parameter (value_params v)) ++ lit ")".
Definition var_declaration (x flags : text) (path : list text) : text := code (lit "var/" ++ typed flags path ++ x).
(** What is shown of the documentations: the one of the topmost type that has one *)
Inductive top_docs : list text -> list text -> Prop := td_none : top_docs [] [] | td_last docs d : top_docs (docs ++ [d]) [d].

(** ** Variables and procedures of a type *)
Definition var_at (x : text) (j : nat) (v : hvar L) : Prop := get x (hvars j) = Some v.
Definition proc_at (x : text) (j : nat) (p : type_proc V D) : Prop := procs_of t j x = Some p.
(** the last value of the procedure *)
Definition value_at (x : text) (j : nat) (v : V) : Prop := exists p vs, proc_at x j p /\ p_values p = vs ++ [v].
Definition var_documented (x : text) (j : nat) (d : text) : Prop := exists v, var_at x j v /\ h_docs v = Some d.
Definition proc_documented (x : text) (j : nat) (d : text) : Prop := exists v, value_at x j v /\ value_docs v = Some d.
Definition some {A : Type} (R : nat -> A -> Prop) (j : nat) : Prop := exists a, R j a.

(** ** What a page is about *)
Inductive about : Type := VarPage (i : nat) (x : text) | ProcPage (i : nat) (x : text) | OneVar (rootless : bool) (i : nat) (x : text) | OneProc (rootless : bool) (i : nat) (x : text) | MacroDocs (d : text).
(** of a declaration of a variable: every type upwards that has it, topmost first, each with its declaration, if it declares it, the link and the constant *)
Definition var_entry (x : text) (j : nat) (s : list text) : Prop :=
  exists v title, var_at x j v /\ titled j (h_loc v) title /\
    s = match h_decl v with Some (flags, path) => [var_declaration x flags path] | None => [] end ++ [title ++ match h_const v with Some c => [10%N] ++ code (lit "= " ++ c) | None => [] end].
Definition proc_entry (x : text) (j : nat) (s : list text) : Prop :=
  exists p v title, proc_at x j p /\ value_at x j v /\ titled j (value_loc v) title /\
    s = match p_decl p with Some d => [code (kind_name d ++ lit "/" ++ x)] | None => [] end ++ [title ++ lit "  " ++ [10%N] ++ code (header x v)].
Definition sections (entries : list (list text)) (s : list text) : Prop := (entries = [] /\ s = []) \/ (entries <> [] /\ s = [joined [10%N; 10%N] (List.concat (List.rev entries))]).
(** of a use: every type upwards that declares the variable, nearest first *)
Definition var_declared (x : text) (j : nat) : Prop := exists v d, var_at x j v /\ h_decl v = Some d.
Definition var_use (x : text) (j : nat) (s : text) : Prop :=
  exists v flags path title, var_at x j v /\ h_decl v = Some (flags, path) /\ titled j (h_loc v) title /\ s = title ++ [10%N] ++ var_declaration x flags path.
Definition proc_declared (x : text) (j : nat) (d : D) : Prop := exists p, proc_at x j p /\ p_decl p = Some d.
Inductive page : about -> list text -> Prop :=
  | pg_var i x js entries docs s ds : lineage false i js -> collects (some (var_at x)) (var_entry x) js entries -> collects (some (var_documented x)) (var_documented x) js docs ->
      sections entries s -> top_docs docs ds -> page (VarPage i x) (s ++ ds)
  | pg_proc i x js entries docs s ds : lineage false i js -> collects (some (proc_at x)) (proc_entry x) js entries -> collects (some (proc_documented x)) (proc_documented x) js docs ->
      sections entries s -> top_docs docs ds -> page (ProcPage i x) (s ++ ds)
  | pg_one_var rootless i x js entries docs ds : lineage rootless i js -> collects (var_declared x) (var_use x) js entries -> collects (some (var_documented x)) (var_documented x) js docs ->
      top_docs docs ds -> page (OneVar rootless i x) (match entries with [] => [] | _ => [List.concat entries] end ++ ds)
  | pg_no_proc rootless i x js : lineage rootless i js -> (forall j p, In j js -> ~ proc_at x j p) -> page (OneProc rootless i x) []
  (* the link and the parameters are those of the nearest type that has the procedure, whichever types declare it *)
  | pg_one_proc rootless i x js j v title declarations docs ds : lineage rootless i js -> nearest_with V D t rootless (has_proc V D t x) i j -> value_at x j v -> titled j (value_loc v) title ->
      collects (some (proc_declared x)) (proc_declared x) js declarations -> collects (some (proc_documented x)) (proc_documented x) js docs -> top_docs docs ds ->
      page (OneProc rootless i x) (map (fun d => title ++ [10%N] ++ code (kind_name d ++ lit "/" ++ header x v)) declarations ++ ds)
  | pg_macro d : page (MacroDocs d) [d].

(** ** What an annotation is about.  Names are shown only where there is a symbol (C74) to look for. *)
Definition known (marks : list mark) : Prop := exists s, says_last L (names V D L t pvars pparams marks) marks s.
Inductive subject (marks : list mark) : mark -> about -> Prop :=
  | su_variable most x cs i : enters V D t [lit "var"] [] most cs -> at_ t i cs -> subject marks (OnVariable (most ++ [x])) (VarPage i x)
  | su_header most x idx cs i : enters V D t [lit "proc"; lit "verb"] [] most cs -> at_ t i cs -> subject marks (OnHeader (most ++ [x]) idx) (ProcPage i x)
  | su_name x i j : known marks -> stands V D L t pvars pparams marks x (IsMember i) -> nearest_with V D t false (declares_var pvars x) i j -> subject marks (OnName x) (OneVar false i x)
  | su_call x i : known marks -> here V D t (map as_note marks) i -> subject marks (OnCall x) (OneProc false i x)
  | su_method priors x i : known marks -> scoped V D t pvars pparams (map as_note marks) priors i -> subject marks (OnMethod priors x) (OneProc true i x)
  | su_field priors x i : known marks -> scoped V D t pvars pparams (map as_note marks) priors i -> subject marks (OnField priors x) (OneVar true i x)
  | su_macro loc d : macro_docs loc = Some d -> subject marks (OnMacro loc) (MacroDocs d).
Definition part (marks : list mark) (m : mark) (s : list text) : Prop := (exists a, subject marks m a /\ page a s) \/ ((forall a, ~ subject marks m a) /\ s = []).
(** The answer: the parts one after the other, or nothing *)
Definition shown (marks : list mark) (answer : option (list text)) : Prop :=
  exists parts, Forall2 (part marks) marks parts /\ answer = match List.concat parts with [] => None | s => Some s end.
End SPEC.
