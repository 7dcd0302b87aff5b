(** What is shown of the name at a place.  Models crates/dm-langserver/src/main.rs (cited without file name): location_link 363-371,
    construct_proc_hover 1103-1166, construct_var_hover 1168-1213 and HoverRequest 1553-1727; objtree.rs pretty_path 173-179; ast.rs Display for
    Parameter 1374-1382 and for VarType 1410-1419.  The lookups are those of Lsp/Goto.v.

    Simplifications: the release build (a debug build shows the annotations themselves too, 1566-1569).  The text of a documentation, of the flags
    and the input type of a variable, of a constant, and the link to a place in a file are parameters; a macro has the documentation that goes with
    the place of its definition.  [None]: the request is refused, because there is no link to some place (or, for a
    procedure without values, panics: there is none in a tree). *)
From Coq Require Import List Arith NArith Bool String.
From Verif Require Import Common.Text Objtree.Model Parse.Ast Lsp.Completion Lsp.Goto.
Import ListNotations.
Open Scope nat_scope.

Section HOVER.
Variables V D L : Type.
(** objtree.rs 88-101 TypeVar: the declaration (its flags, as shown, and the path of its type), the constant, the place, the documentation *)
Record hvar : Type := { h_decl : option (text * list text); h_const : option text; h_loc : L; h_docs : option text }.
(** ast.rs 1364-1372 Parameter: name, flags as shown, path of the type, input type as shown *)
Record hparam : Type := { q_name : text; q_flags : text; q_type : list text; q_as : option text }.
Variable t : objtree V D.
Variable hvars : nat -> list (text * hvar).
Variable value_params : V -> list hparam.
Variable value_loc : V -> L.
Variable value_docs : V -> option text.
Variable kind_name : D -> text.
Variable macro_docs : L -> option text.
Variable builtin : L -> bool.
Variable file_link : L -> option text.
(** what Lsp/Goto.v needs of them *)
Definition plain_vars (i : nat) : list (text * option (list text)) := map (fun e => (fst e, match h_decl (snd e) with Some (_, path) => Some path | None => None end)) (hvars i).
Definition plain_params (v : V) : list (text * list text) := map (fun q => (q_name q, q_type q)) (value_params v).

Definition NL : text := [10%N].
(** 363-371 *)
Definition location_link (l : L) : option text := if builtin l then Some [] else file_link l.
(** objtree.rs 173-179 *)
Definition pretty_path (j : nat) : text := match node_at t j with Some n => match n_path n with [] => lit "(global)" | p => p end | None => [] end.
(** objtree.rs 117-121 *)
Definition main_value (p : type_proc V D) : option V := last (map Some (p_values p)) None.
(** ast.rs 1410-1419, 1374-1382 *)
Definition show_type (flags : text) (path : list text) : text := flags ++ flat_map (fun w => w ++ lit "/") path.
Definition show_param (q : hparam) : text := show_type (q_flags q) (q_type q) ++ q_name q ++ match q_as q with Some a => lit " as " ++ a | None => [] end.
(** 1128-1138, 1638-1647 *)
Fixpoint push_params (first : bool) (message : text) (ps : list hparam) : text :=
  match ps with [] => message | q :: ps' => push_params false ((if first then message else message ++ lit ", ") ++ show_param q) ps' end.
Definition newer (docs old : option text) : option text := match docs with Some d => Some d | None => old end.
(** the types of the loops [while let Some(ty) = provided_tok] *)
Definition walk (rootless : bool) (o : option nat) : list nat :=
  match o with Some i => upwards V D t (if rootless then parent_without_root V D t else parent_type t) i | None => [] end.
Definition with_docs (results : list text) (docs : option text) : list text := match docs with Some d => results ++ [d] | None => results end.

(** 1103-1166: results, the link and the text of the definition (once there is a procedure), documentation *)
Definition proc_step (x : text) (s : option (list text * option (text * text) * option text)) (j : nat) : option (list text * option (text * text) * option text) :=
  match s with
  | None => None
  | Some (results, def, docs) =>
      match procs_of t j x with
      | None => s
      | Some p =>
          match main_value p with
          | None => None
          | Some v =>
              match (match def with
                     | Some d => Some d
                     | None => match location_link (value_loc v) with
                               | Some u => Some (lit "[" ++ pretty_path j ++ lit "](" ++ u ++ lit ")", push_params true (x ++ lit "(") (value_params v) ++ lit ")")
                               | None => None
                               end
                     end) with
              | None => None
              | Some (link, text) =>
                  let results := match p_decl p with Some d => results ++ [link ++ NL ++ lit "```dm" ++ NL ++ kind_name d ++ lit "/" ++ text ++ NL ++ lit "```"] | None => results end in
                  Some (results, Some (link, text), newer (value_docs v) docs)
              end
          end
      end
  end.
Definition construct_proc_hover (x : text) (o : option nat) (scoped : bool) : option (list text) :=
  match fold_left (proc_step x) (walk scoped o) (Some ([], None, None)) with Some (results, _, docs) => Some (with_docs results docs) | None => None end.

(** 1168-1213 *)
Definition var_step (x : text) (s : option (text * option text)) (j : nat) : option (text * option text) :=
  match s with
  | None => None
  | Some (infos, docs) =>
      match get x (hvars j) with
      | None => s
      | Some v =>
          match (match h_decl v with
                 | Some (flags, path) =>
                     match location_link (h_loc v) with
                     | Some u => Some ((infos ++ (lit "[" ++ pretty_path j ++ lit "](" ++ u ++ lit ")" ++ NL)) ++ (lit "```dm" ++ NL ++ lit "var/" ++ show_type flags path ++ x ++ NL ++ lit "```"))
                     | None => None
                     end
                 | None => Some infos
                 end) with
          | Some infos => Some (infos, newer (h_docs v) docs)
          | None => None
          end
      end
  end.
Definition construct_var_hover (x : text) (o : option nat) (scoped : bool) : option (list text) :=
  match fold_left (var_step x) (walk scoped o) (Some ([], None)) with
  | Some (infos, docs) => Some (with_docs (match infos with [] => [] | _ => [infos] end) docs)
  | None => None
  end.

(** 1571-1620: the list of the infos, to which the code adds in front *)
Definition var_page_step (x : text) (s : option (list text * option text)) (j : nat) : option (list text * option text) :=
  match s with
  | None => None
  | Some (infos, docs) =>
      match get x (hvars j) with
      | None => s
      | Some v =>
          match location_link (h_loc v) with
          | None => None
          | Some u =>
              let constant := match h_const v with Some c => NL ++ lit "```dm" ++ NL ++ lit "= " ++ c ++ NL ++ lit "```" | None => [] end in
              let infos := (lit "[" ++ pretty_path j ++ lit "](" ++ u ++ lit ")" ++ constant) :: infos in
              let infos := match h_decl v with Some (flags, path) => (lit "```dm" ++ NL ++ lit "var/" ++ show_type flags path ++ x ++ NL ++ lit "```") :: infos | None => infos end in
              Some (infos, newer (h_docs v) docs)
          end
      end
  end.
(** 1621-1676 *)
Definition proc_page_step (x : text) (s : option (list text * option text)) (j : nat) : option (list text * option text) :=
  match s with
  | None => None
  | Some (infos, docs) =>
      match procs_of t j x with
      | None => s
      | Some p =>
          match main_value p with
          | None => None
          | Some v =>
              match location_link (value_loc v) with
              | None => None
              | Some u =>
                  let message := push_params true (lit "[" ++ pretty_path j ++ lit "](" ++ u ++ lit ")  " ++ NL ++ lit "```dm" ++ NL ++ x ++ lit "(") (value_params v) ++ lit ")" ++ NL ++ lit "```" in
                  let infos := message :: infos in
                  let infos := match p_decl p with Some d => (lit "```dm" ++ NL ++ kind_name d ++ lit "/" ++ x ++ NL ++ lit "```") :: infos | None => infos end in
                  Some (infos, newer (value_docs v) docs)
              end
          end
      end
  end.
Fixpoint join (sep : text) (l : list text) : text := match l with [] => [] | [a] => a | a :: l' => a ++ sep ++ join sep l' end.
Definition page_of (s : option (list text * option text)) : option (list text) :=
  match s with Some (infos, docs) => Some (with_docs (match infos with [] => [] | _ => [join (NL ++ NL) infos] end) docs) | None => None end.

(** 1553-1727.  A variable is shown only if some type declares it (1683) *)
Definition hover_mark (marks : list (mark L)) (m : mark L) : option (list text) :=
  let notes := map as_note marks in
  let known := match symbol_at V D L t plain_vars plain_params marks with Some _ => true | None => false end in
  match m with
  | OnVariable path => match split_last path with Some (most, x) => page_of (fold_left (var_page_step x) (walk false (Some (enter V D t [lit "var"] 0 most))) (Some ([], None))) | None => Some [] end
  | OnHeader path _ => match split_last path with Some (most, x) => page_of (fold_left (proc_page_step x) (walk false (Some (enter V D t [lit "proc"; lit "verb"] 0 most))) (Some ([], None))) | None => Some [] end
  | OnName x =>
      if known then match unscoped_var V D L t plain_vars plain_params marks x with
        | Some (IsMember j) => match climb V D t false (with_var_decl plain_vars x) j with Some _ => construct_var_hover x (Some j) false | None => Some [] end
        | _ => Some []
        end else Some []
  | OnCall x => if known then construct_proc_hover x (Some (or_root (fst (find_type_context V D t notes)))) false else Some []
  | OnMethod priors x => if known then construct_proc_hover x (find_scoped_type V D t plain_vars plain_params notes priors) true else Some []
  | OnField priors x => if known then construct_var_hover x (find_scoped_type V D t plain_vars plain_params notes priors) true else Some []
  | OnMacro loc => match macro_docs loc with Some d => Some [d] | None => Some [] end
  | _ => Some []
  end.
Fixpoint hover_marks (marks todo : list (mark L)) : option (list text) :=
  match todo with
  | [] => Some []
  | m :: todo' => match hover_mark marks m with Some rs => match hover_marks marks todo' with Some rest => Some (rs ++ rest) | None => None end | None => None end
  end.
Definition hover (marks : list (mark L)) : option (option (list text)) :=
  match hover_marks marks marks with Some [] => Some None | Some results => Some (Some results) | None => None end.
End HOVER.
Arguments h_decl {L}. Arguments h_const {L}. Arguments h_loc {L}. Arguments h_docs {L}.
