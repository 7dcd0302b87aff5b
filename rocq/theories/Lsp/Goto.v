(** Where the name at a place leads.  Models crates/dm-langserver/src/main.rs (cited without file name): find_unscoped_var 874-923 with what it
    finds, symbol_id_at 975-1101, the requests GotoDefinition 1728-1856, GotoTypeDefinition 1858-1911, References 1913-1933, GotoImplementation
    1935-1955 and SignatureHelpRequest 2039-2112.  The lookups find_type_context and find_scoped_type, follow_type_path and combine_tree_path are
    those of Lsp/Completion.v; a list of annotations at the place is what annotation.rs get_location gives.

    Simplifications: locations are the types, procedure values, parameters and variables whose locations they are; those of local variables and of
    macros are abstract.  A text is counted in characters.  A walk upwards that does not end, because a type is its own ancestor, finds nothing. *)
From Coq Require Import List Arith NArith Bool String.
From Verif Require Import Common.Text Objtree.Model Parse.Ast Lsp.Completion.
Import ListNotations.
Open Scope nat_scope.

Section GOTO.
Variables V D L : Type.
(** annotation.rs 12-48 Annotation, with the start of the scope of a local variable *)
Inductive mark : Type :=
  | OnBlock (path : list text) | OnTreePath (absolute : bool) (parts : list text) | OnTypePath (parts : list (pathop * text)) | OnVariable (path : list text)
  | OnHeader (path : list text) (idx : nat) | OnBody (path : list text) (idx : nat) | OnLocal (loc : L) (ty : list text) (name : text)
  | OnCall (name : text) | OnName (name : text) | OnMethod (priors : list text) (name : text) | OnField (priors : list text) (name : text)
  | OnParent | OnSequence (idx : nat) | OnMacro (loc : L) | OnArguments (priors : list text) (name : text) (idx : nat) | OnArgument (idx : nat) | OnOther.
(** the annotations that say where the place is *)
Definition as_note (m : mark) : note :=
  match m with
  | OnBlock path => TreeBlock path | OnBody path idx => ProcBody path idx | OnLocal _ ty name => LocalVarScope ty name | OnSequence idx => InSequence idx
  | _ => OtherNote
  end.
Fixpoint first_some {A B : Type} (f : A -> option B) (l : list A) : option B :=
  match l with [] => None | a :: l' => match f a with Some b => Some b | None => first_some f l' end end.

Variable t : objtree V D.
Variable vars : nat -> list (text * option (list text)).
Variable params : V -> list (text * list text).
Notation size := (S (List.length (graph t))).
Notation find_type_context := (find_type_context V D t).
Notation find_scoped_type := (find_scoped_type V D t vars params).

(** the loops [while let Some(ty) = next]: over parent_type, or over parent_type_without_root (objtree.rs 279-288) *)
Definition climb {A : Type} (rootless : bool) (f : nat -> option A) (i : nat) : option A :=
  first_some f (upwards V D t (if rootless then parent_without_root V D t else parent_type t) i).
Definition with_proc (x : text) (j : nat) : option nat := match procs_of t j x with Some _ => Some j | None => None end.
Definition with_proc_decl (x : text) (j : nat) : option nat := match procs_of t j x with Some p => match p_decl p with Some _ => Some j | None => None end | None => None end.
Definition with_var (x : text) (j : nat) : option nat := match get x (vars j) with Some _ => Some j | None => None end.
Definition with_var_decl (x : text) (j : nat) : option (nat * list text) := match get x (vars j) with Some (Some path) => Some (j, path) | _ => None end.
Definition or_root (o : option nat) : nat := match o with Some i => i | None => 0 end.

(** 874-923: a local variable, a parameter (of which value of which procedure, the how-manieth), or a variable of a type *)
Inductive thing : Type := IsLocal (loc : L) (ty : list text) | IsParam (i : nat) (proc : text) (idx k : nat) (ty : list text) | IsMember (i : nat).
Fixpoint numbered (k : nat) (x : text) (ps : list (text * list text)) : option (nat * list text) :=
  match ps with [] => None | (y, ty) :: ps' => if text_eqb y x then Some (k, ty) else numbered (S k) x ps' end.
Definition local_called (x : text) (m : mark) : option thing := match m with OnLocal loc ty name => if text_eqb name x then Some (IsLocal loc ty) else None | _ => None end.
Definition parameter_called (i : nat) (proc_name : option (text * nat)) (x : text) : option thing :=
  match proc_name with
  | Some (name, idx) =>
      match procs_of t i name with
      | Some p => match nth_error (p_values p) idx with Some v => match numbered 0 x (params v) with Some (k, ty) => Some (IsParam i name idx k ty) | None => None end | None => None end
      | None => None
      end
  | None => None
  end.
Definition unscoped_var (marks : list mark) (x : text) : option thing :=
  let '(ty, proc_name) := find_type_context (map as_note marks) in
  match first_some (local_called x) marks with
  | Some th => Some th
  | None =>
      match parameter_called (or_root ty) proc_name x with
      | Some th => Some th
      | None => match climb false (with_var x) (or_root ty) with Some j => Some (IsMember j) | None => None end
      end
  end.

(** ** 1728-1856 GotoDefinition *)
Inductive target : Type := ToType (i : nat) | ToProc (p : procref) | ToVar (i : nat) (x : text) | ToParameter (i : nat) (proc : text) (idx k : nat) | ToLocation (loc : L).
(** main_value, 117-121 of objtree.rs, of the type that is found *)
Definition newest (x : text) (o : option nat) : list target := match o with Some j => match visible t j x with Some p => [ToProc p] | None => [] end | None => [] end.
Definition up_from {A : Type} (o : option nat) (f : nat -> option A) (rootless : bool) : option A := match o with Some i => climb rootless f i | None => None end.
Definition goto_mark (marks : list mark) (m : mark) : list target :=
  let notes := map as_note marks in
  match m with
  | OnTreePath absolute parts =>
      let full := combine_tree_path notes absolute parts in
      match type_by_path t full with
      | Some i => [ToType i]
      | None =>
          match split_last full with
          | Some (prefix, name) =>
              let next := match type_by_path t prefix with Some i => parent_type t i | None => None end in
              newest name (up_from next (with_proc name) false)
          | None => []
          end
      end
  | OnTypePath parts =>
      match follow_type_path V D t notes parts with
      | Some (_, Some (_, Some p)) => [ToProc p]
      | Some (i, None) => [ToType i]
      | _ => []
      end
  | OnCall x => newest x (climb false (with_proc x) (or_root (fst (find_type_context notes))))
  | OnName x =>
      match unscoped_var marks x with
      | Some (IsParam i proc idx k _) => [ToParameter i proc idx k]
      | Some (IsMember j) => [ToVar j x]
      | Some (IsLocal loc _) => [ToLocation loc]
      | None => []
      end
  | OnMethod priors x => newest x (up_from (find_scoped_type notes priors) (with_proc x) true)
  | OnField priors x => match up_from (find_scoped_type notes priors) (with_var x) true with Some j => [ToVar j x] | None => [] end
  | OnParent =>
      match find_type_context notes with
      | (Some i, Some (x, 0)) => newest x (up_from (parent_type t i) (with_proc x) false)
      | (Some i, Some (x, S k)) => match procs_of t i x with Some p => match nth_error (p_values p) k with Some _ => [ToProc (i, x, k)] | None => [] end | None => [] end
      | _ => []
      end
  | OnMacro loc => [ToLocation loc]
  | _ => []
  end.
Definition goto_definition (marks : list mark) : list target := flat_map (goto_mark marks) marks.

(** ** 1858-1911 GotoTypeDefinition *)
Definition declared_path (marks : list mark) (m : mark) : option (list text) :=
  match m with
  | OnName x =>
      match unscoped_var marks x with
      | Some (IsParam _ _ _ _ ty) => Some ty
      | Some (IsMember j) => option_map snd (climb false (with_var_decl x) j)
      | Some (IsLocal _ ty) => Some ty
      | None => None
      end
  | OnField priors x => option_map snd (up_from (find_scoped_type (map as_note marks) priors) (with_var_decl x) true)
  | _ => None
  end.
(** what the last annotation says that says anything *)
Fixpoint last_some {A B : Type} (f : A -> option B) (l : list A) (so_far : option B) : option B :=
  match l with [] => so_far | a :: l' => last_some f l' (match f a with Some b => Some b | None => so_far end) end.
Definition goto_type_definition (marks : list mark) : option nat :=
  match last_some (declared_path marks) marks None with Some [] => None | Some path => type_by_path t path | None => None end.

(** ** 975-1101 symbol_id_at *)
Inductive name_of : Type := NameType (i : nat) | NameVar (i : nat) (x : text) | NameProc (i : nat) (x : text).
(** 995-1003, 1013-1021; a path that is empty panics, which the parser never makes *)
Fixpoint enter (words : list text) (i : nat) (path : list text) : nat :=
  match path with
  | [] => i
  | w :: path' => if existsb (text_eqb w) words then i else match child t i w with Some j => enter words j path' | None => i end
  end.
Definition var_symbol (x : text) (o : option (nat * list text)) : option name_of := match o with Some (j, _) => Some (NameVar j x) | None => None end.
Definition proc_symbol (x : text) (o : option nat) : option name_of := match o with Some j => Some (NameProc j x) | None => None end.
Definition symbol_of (marks : list mark) (m : mark) : option name_of :=
  let notes := map as_note marks in
  match m with
  | OnVariable path => match split_last path with Some (most, x) => var_symbol x (climb false (with_var_decl x) (enter [lit "var"] 0 most)) | None => None end
  | OnHeader path _ => match split_last path with Some (most, x) => proc_symbol x (climb false (with_proc_decl x) (enter [lit "proc"; lit "verb"] 0 most)) | None => None end
  | OnTreePath absolute parts => option_map NameType (type_by_path t (combine_tree_path notes absolute parts))
  | OnTypePath parts =>
      match follow_type_path V D t notes parts with
      | Some (i, Some (_, Some (_, x, _))) => proc_symbol x (climb false (with_proc_decl x) i)
      | Some (i, None) => Some (NameType i)
      | _ => None
      end
  | OnCall x => proc_symbol x (climb false (with_proc_decl x) (or_root (fst (find_type_context notes))))
  | OnName x => match unscoped_var marks x with Some (IsMember j) => var_symbol x (climb false (with_var_decl x) j) | _ => None end
  | OnMethod priors x => proc_symbol x (up_from (find_scoped_type notes priors) (with_proc_decl x) true)
  | OnField priors x => var_symbol x (up_from (find_scoped_type notes priors) (with_var_decl x) true)
  | _ => None
  end.
Definition symbol_at (marks : list mark) : option name_of := last_some (symbol_of marks) marks None.
(** 1913-1955 References, GotoImplementation: [table]: what the table of find_references.rs has for the symbol *)
Definition look_up {A : Type} (table : name_of -> list A) (marks : list mark) : list A := match symbol_at marks with Some s => table s | None => [] end.

(** ** 2039-2112 SignatureHelpRequest: the label, where in it the parameters are, and the number of the one that is being written *)
Fixpoint write_type (sep label : text) (ty : list text) : text := match ty with [] => label ++ sep | w :: ty' => write_type (lit "/") (label ++ sep ++ w) ty' end.
Fixpoint write_params (sep label : text) (ps : list (text * list text)) : text * list (nat * nat) :=
  match ps with
  | [] => (label, [])
  | (x, ty) :: ps' =>
      let label := write_type sep label ty in
      let start := List.length label in
      let label := label ++ x in
      let '(label', spans) := write_params (lit ", ") label ps' in (label', (start, List.length label) :: spans)
  end.
Definition arguments_mark (m : mark) : option (list text * text * nat) := match m with OnArguments priors x idx => Some (priors, x, idx) | _ => None end.
Definition argument_mark (m : mark) : option nat := match m with OnArgument idx => Some idx | _ => None end.
Definition signature_help (marks : list mark) : option (text * list (nat * nat) * nat) :=
  match first_some arguments_mark marks with
  | Some (priors, x, idx) =>
      let idx := match first_some argument_mark marks with Some i => i | None => idx end in
      match up_from (find_scoped_type (map as_note marks) priors) (with_proc x) (match priors with [] => false | _ => true end) with
      | Some j =>
          match procs_of t j x, node_at t j with
          | Some p, Some n =>
              let '(label, spans) := write_params [] (n_path n ++ lit "/" ++ x ++ lit "(") (match last (map Some (p_values p)) None with Some v => params v | None => [] end) in
              Some (label ++ lit ")", spans, idx)
          | _, _ => None
          end
      | None => None
      end
  | None => None
  end.
End GOTO.
Arguments OnBlock {L}. Arguments OnTreePath {L}. Arguments OnTypePath {L}. Arguments OnVariable {L}. Arguments OnHeader {L}. Arguments OnBody {L}. Arguments OnLocal {L}. Arguments OnCall {L}. Arguments OnName {L}.
Arguments OnMethod {L}. Arguments OnField {L}. Arguments OnParent {L}. Arguments OnSequence {L}. Arguments OnMacro {L}. Arguments OnArguments {L}. Arguments OnArgument {L}. Arguments OnOther {L}. Arguments as_note {L}.
Arguments IsLocal {L}. Arguments IsParam {L}. Arguments IsMember {L}. Arguments ToType {L}. Arguments ToProc {L}. Arguments ToVar {L}. Arguments ToParameter {L}. Arguments ToLocation {L}.
