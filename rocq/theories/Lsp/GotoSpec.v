(** Where the names at a place lead (C74), said with the paths of types, the parents of types and the places of Lsp/CompletionSpec.v. *)
From Coq Require Import List Arith NArith Bool String Relations.
From Verif Require Import Common.Text Objtree.Ispath Objtree.Model Objtree.Lemmas Objtree.Spec Parse.Ast Lsp.Completion Lsp.CompletionSpec Lsp.Goto.
Import ListNotations.
Open Scope nat_scope.

Section SPEC.
Variables V D L : Type.
Variable t : objtree V D.
Variable vars : nat -> list (text * option (list text)).
Variable params : V -> list (text * list text).
Notation mark := (mark L). Notation thing := (thing L). Notation target := (target L).
Notation around := (around V D t). Notation here := (here V D t). Notation scoped := (scoped V D t vars params). Notation reach := (reach V D t).
Notation parameters_here := (parameters_here V D t params). Notation listed := (listed V D t). Notation leads := (leads V D t).

(** What an annotation says about the place of the names: in the block of a type, in the body of a procedure, after the declaration of a local
    variable, in the part [idx] of a path.  The others say nothing about it. *)
Inductive says_place : mark -> note -> Prop :=
  | sp_block path : says_place (OnBlock path) (TreeBlock path)
  | sp_body path idx : says_place (OnBody path idx) (ProcBody path idx)
  | sp_local loc ty x : says_place (OnLocal loc ty x) (LocalVarScope ty x)
  | sp_part idx : says_place (OnSequence idx) (InSequence idx)
  | sp_nothing m : (forall path, m <> OnBlock path) -> (forall path idx, m <> OnBody path idx) -> (forall loc ty x, m <> OnLocal loc ty x) -> (forall idx, m <> OnSequence idx) -> says_place m OtherNote.

(** ** Going up *)
(** [j] is the nearest type upwards from [i] with [P]; the root may be left out unless it is [i]. *)
Definition nearest_with (rootless : bool) (P : nat -> Prop) (i j : nat) : Prop := reach rootless i j /\ P j /\ forall k, reach rootless i k -> P k -> reach rootless j k.
Definition has_proc (x : text) (j : nat) : Prop := procs_of t j x <> None.
Definition declares_proc (x : text) (j : nat) : Prop := exists p d, procs_of t j x = Some p /\ p_decl p = Some d.
Definition has_var (x : text) (j : nat) : Prop := get x (vars j) <> None.
Definition declares_var (x : text) (j : nat) : Prop := exists path, get x (vars j) = Some (Some path).
(** the last value of the procedure *)
Definition last_value (j : nat) (x : text) (r : procref) : Prop := exists p vs v, procs_of t j x = Some p /\ p_values p = vs ++ [v] /\ r = (j, x, List.length vs).

(** ** Names *)
Definition first_mark (P : mark -> Prop) (marks : list mark) (m : mark) : Prop := exists pre post, marks = pre ++ m :: post /\ P m /\ forall m', In m' pre -> ~ P m'.
Definition is_local (x : text) (m : mark) : Prop := exists loc ty, m = OnLocal loc ty x.
Definition no_local (marks : list mark) (x : text) : Prop := forall m, In m marks -> ~ is_local x m.
(** A name with nothing before it stands for a local variable, else for a parameter, else for a variable of the type or above. *)
Inductive stands (marks : list mark) (x : text) : thing -> Prop :=
  | sn_local loc ty : first_mark (is_local x) marks (OnLocal loc ty x) -> stands marks x (IsLocal loc ty)
  | sn_param path name idx i p v pre ty post : no_local marks x -> in_proc (map as_note marks) path name idx -> here (map as_note marks) i -> procs_of t i name = Some p -> nth_error (p_values p) idx = Some v ->
      params v = pre ++ (x, ty) :: post -> ~ In x (map fst pre) -> stands marks x (IsParam i name idx (List.length pre) ty)
  | sn_var i j : no_local marks x -> (forall ps, parameters_here (map as_note marks) ps -> ~ In x (map fst ps)) -> here (map as_note marks) i -> nearest_with false (has_var x) i j -> stands marks x (IsMember j).

(** ** Definitions *)
Definition word (w : text) : Prop := w = lit "proc" \/ w = lit "verb".
Inductive goes (marks : list mark) : mark -> target -> Prop :=
  | go_path absolute parts full i : full_path (map as_note marks) absolute parts full -> listed full i -> goes marks (OnTreePath absolute parts) (ToType i)
  (* the path of an override: of the parent of the type, so that what is overridden is shown *)
  | go_override absolute parts pre x i p j r : full_path (map as_note marks) absolute parts (pre ++ [x]) -> (forall k, ~ listed (pre ++ [x]) k) -> listed pre i -> inherits t i p ->
      nearest_with false (has_proc x) p j -> last_value j x r -> goes marks (OnTreePath absolute parts) (ToProc r)
  | go_type parts i left : leads (map as_note marks) parts i left -> ~ at_word (lit "proc") left -> ~ at_word (lit "verb") left -> goes marks (OnTypePath parts) (ToType i)
  | go_type_proc parts i op w op' x rest j r : leads (map as_note marks) parts i ((op, w) :: (op', x) :: rest) -> word w -> nearest_with false (has_proc x) i j -> last_value j x r ->
      goes marks (OnTypePath parts) (ToProc r)
  | go_call x i j r : here (map as_note marks) i -> nearest_with false (has_proc x) i j -> last_value j x r -> goes marks (OnCall x) (ToProc r)
  | go_local x loc ty : stands marks x (IsLocal loc ty) -> goes marks (OnName x) (ToLocation loc)
  | go_param x i name idx k ty : stands marks x (IsParam i name idx k ty) -> goes marks (OnName x) (ToParameter i name idx k)
  | go_var x j : stands marks x (IsMember j) -> goes marks (OnName x) (ToVar j x)
  | go_method priors x i j r : scoped (map as_note marks) priors i -> nearest_with true (has_proc x) i j -> last_value j x r -> goes marks (OnMethod priors x) (ToProc r)
  | go_field priors x i j : scoped (map as_note marks) priors i -> nearest_with true (has_var x) i j -> goes marks (OnField priors x) (ToVar j x)
  | go_parent path x i p j r : around (map as_note marks) i -> in_proc (map as_note marks) path x 0 -> inherits t i p -> nearest_with false (has_proc x) p j -> last_value j x r -> goes marks OnParent (ToProc r)
  | go_previous path x k i p : around (map as_note marks) i -> in_proc (map as_note marks) path x (S k) -> procs_of t i x = Some p -> k < List.length (p_values p) -> goes marks OnParent (ToProc (i, x, k))
  | go_macro loc : goes marks (OnMacro loc) (ToLocation loc).

(** ** Types of variables *)
Inductive has_type (marks : list mark) : mark -> list text -> Prop :=
  | ht_local x loc ty : stands marks x (IsLocal loc ty) -> has_type marks (OnName x) ty
  | ht_param x i name idx k ty : stands marks x (IsParam i name idx k ty) -> has_type marks (OnName x) ty
  | ht_var x j k ty : stands marks x (IsMember j) -> nearest_with false (declares_var x) j k -> get x (vars k) = Some (Some ty) -> has_type marks (OnName x) ty
  | ht_field priors x i k ty : scoped (map as_note marks) priors i -> nearest_with true (declares_var x) i k -> get x (vars k) = Some (Some ty) -> has_type marks (OnField priors x) ty.
(** What the last of the marks says, that says anything *)
Definition says_last {A : Type} (says : mark -> A -> Prop) (marks : list mark) (a : A) : Prop :=
  exists pre m post, marks = pre ++ m :: post /\ says m a /\ forall m' a', In m' post -> ~ says m' a'.

(** ** Symbols *)
(** Going into types from the root on, up to one of some words *)
Inductive enters (words : list text) : list text -> list text -> list text -> Prop :=
  | en_end cs : enters words cs [] cs
  | en_word cs w path : In w words -> enters words cs (w :: path) cs
  | en_stop cs w path : ~ In w words -> (forall j, ~ at_ t j (cs ++ [w])) -> enters words cs (w :: path) cs
  | en_on cs w path j ds : ~ In w words -> at_ t j (cs ++ [w]) -> enters words (cs ++ [w]) path ds -> enters words cs (w :: path) ds.
Inductive names (marks : list mark) : mark -> name_of -> Prop :=
  | nm_variable most x cs i j : enters [lit "var"] [] most cs -> at_ t i cs -> nearest_with false (declares_var x) i j -> names marks (OnVariable (most ++ [x])) (NameVar j x)
  | nm_header most x idx cs i j : enters [lit "proc"; lit "verb"] [] most cs -> at_ t i cs -> nearest_with false (declares_proc x) i j -> names marks (OnHeader (most ++ [x]) idx) (NameProc j x)
  | nm_path absolute parts full i : full_path (map as_note marks) absolute parts full -> listed full i -> names marks (OnTreePath absolute parts) (NameType i)
  | nm_type parts i left : leads (map as_note marks) parts i left -> ~ at_word (lit "proc") left -> ~ at_word (lit "verb") left -> names marks (OnTypePath parts) (NameType i)
  | nm_type_proc parts i op w op' x rest j : leads (map as_note marks) parts i ((op, w) :: (op', x) :: rest) -> word w -> nearest_with false (declares_proc x) i j -> names marks (OnTypePath parts) (NameProc j x)
  | nm_call x i j : here (map as_note marks) i -> nearest_with false (declares_proc x) i j -> names marks (OnCall x) (NameProc j x)
  | nm_var x i j : stands marks x (IsMember i) -> nearest_with false (declares_var x) i j -> names marks (OnName x) (NameVar j x)
  | nm_method priors x i j : scoped (map as_note marks) priors i -> nearest_with true (declares_proc x) i j -> names marks (OnMethod priors x) (NameProc j x)
  | nm_field priors x i j : scoped (map as_note marks) priors i -> nearest_with true (declares_var x) i j -> names marks (OnField priors x) (NameVar j x).

(** ** Signatures *)
Definition is_arguments (m : mark) : Prop := exists priors x idx, m = OnArguments priors x idx.
Definition is_argument (m : mark) : Prop := exists idx, m = OnArgument idx.
Definition written (e : text * list text) : text := joined (lit "/") (snd e ++ [fst e]).
(** The label: [/path/name(type/a, b)]; the [k]-th span is the name of the [k]-th parameter in it. *)
Definition signature_of (path x : text) (ps : list (text * list text)) (label : text) (spans : list (nat * nat)) : Prop :=
  label = path ++ lit "/" ++ x ++ lit "(" ++ joined (lit ", ") (map written ps) ++ lit ")" /\ List.length spans = List.length ps /\
  forall k y ty, nth_error ps k = Some (y, ty) -> exists before after, label = before ++ y ++ after /\ nth_error spans k = Some (List.length before, List.length before + List.length y) /\
    before = path ++ lit "/" ++ x ++ lit "(" ++ flat_map (fun e => written e ++ lit ", ") (firstn k ps) ++ flat_map (fun w => w ++ lit "/") ty.
Inductive helps (marks : list mark) : text * list (nat * nat) * nat -> Prop :=
  | he_args priors x idx idx' i j cs p vs v label spans : first_mark is_arguments marks (OnArguments priors x idx) ->
      (first_mark is_argument marks (OnArgument idx') \/ (forall m, In m marks -> ~ is_argument m) /\ idx' = idx) ->
      scoped (map as_note marks) priors i -> nearest_with (match priors with [] => false | _ => true end) (has_proc x) i j ->
      at_ t j cs -> procs_of t j x = Some p -> p_values p = vs ++ [v] -> signature_of (render cs) x (params v) label spans -> helps marks (label, spans, idx').
End SPEC.
