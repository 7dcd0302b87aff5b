(** The outline of a file, the ranges that can be folded and the links in it.  Models crates/dm-langserver/src/main.rs (cited without file name):
    DocumentSymbolRequest 2115-2279, FoldingRangeRequest 2281-2310, DocumentLinkRequest 2358-2388, is_region_marker 2587-2600, is_constructor_name
    2633-2635, location_to_position, location_to_range and span_to_range 2637-2654; crates/dreammaker/src/ast.rs from_name 372-378, 409-416, 604-618.
    Annotations come out of the annotation tree of Loc/Model.v.

    Simplifications: of an annotation that is not used here only that it is there (AOther); the [tags] and [deprecated] of symbols are always None;
    a line number is not cut to 32 bits; [u16::MAX] columns and [u32::MAX] lines as in Loc/Model.v.  Results are [None] where the code panics. *)
From Coq Require Import List Arith NArith ZArith Bool String.
From Verif Require Import Common.Text Loc.Model.
From Verif Require Loc.Spec.
Import ListNotations.
Open Scope nat_scope.

(** annotation.rs 12-48 Annotation *)
Inductive ann : Type :=
  | ABlock (path : list text) | AVariable (path : list text) | ABody (path : list text) (idx : nat) | ALocal (ty : list text) (name : text)
  | AMacro (name : text) | AInclude (path : text) | AResource (path : text) | AOther.
(** a range of the annotation tree, with its last location, and its annotation *)
Definition item : Type := ((loc * loc) * ann)%type.

(** 2637-2654 *)
Definition position : Type := (Z * Z)%type.
Definition lsp_range : Type := (position * position)%type.
Definition location_to_position (l : loc) : position := (Z.max 0 (lline l - 1), Z.max 0 (lcol l - 1))%Z.
Definition location_to_range (l : loc) : lsp_range := (location_to_position l, location_to_position l).
Definition span_to_range (s e : loc) : lsp_range := (location_to_position s, location_to_position e).

Inductive kind : Type := KClass | KField | KFunction | KConstructor | KMethod | KVariable | KConstant.
(** lsp_types DocumentSymbol *)
Inductive sym : Type := Sym (name : text) (detail : option text) (k : kind) (range selection : lsp_range) (children : option (list sym)).

(** ast.rs 372-378, 409-416, 604-618: the names of which [from_name] makes something *)
Definition proc_decl_kind (x : text) : bool := text_eqb x (lit "proc") || text_eqb x (lit "verb").
Definition proc_flag (x : text) : bool := text_eqb x (lit "final").
Definition var_type_flag (x : text) : bool :=
  text_eqb x (lit "global") || text_eqb x (lit "static") || text_eqb x (lit "const") || text_eqb x (lit "tmp") || text_eqb x (lit "final")
  || text_eqb x (lit "SpacemanDMM_final") || text_eqb x (lit "SpacemanDMM_private") || text_eqb x (lit "SpacemanDMM_protected").
Fixpoint split_last {A : Type} (l : list A) : option (A * list A) :=
  match l with
  | [] => None
  | a :: l' => match split_last l' with Some (b, rest) => Some (b, a :: rest) | None => Some (a, []) end
  end.
(** 2119-2135 name_and_detail; [None]: split_last().unwrap() *)
Definition name_and_detail (path : list text) (skip_front : nat) : option (text * option text) :=
  match split_last path with
  | None => None
  | Some (name, rest) =>
      Some (name,
        if skip_front <=? List.length rest
        then List.find (fun x => negb (proc_decl_kind x) && negb (proc_flag x) && negb (var_type_flag x) && negb (text_eqb x (lit "var"))) (rev (skipn skip_front rest))
        else None)
  end.
(** 2633-2635 *)
Definition is_constructor_name (x : text) : bool := text_eqb x (lit "New") || text_eqb x (lit "init") || text_eqb x (lit "Initialize").
(** 2197-2203 *)
Definition body_kind (path : list text) (name : text) : kind :=
  if (List.length path =? 1) || ((List.length path =? 2) && match path with x :: _ => text_eqb x (lit "proc") | [] => false end) then KFunction
  else if is_constructor_name name then KConstructor else KMethod.

(** 2138-2242 find_document_symbols: the symbols and what is left of the iterator; every turn and every call takes an annotation, so the fuel is the
    number of annotations *)
Fixpoint find_document_symbols (fuel : nat) (items : list item) (section_end : loc) (skip_front : nat) : option (list sym * list item) :=
  match fuel with
  | 0 => None
  | S f =>
      match items with
      | [] => Some ([], [])
      | (s, e, a) :: rest =>
          if negb (Loc.Spec.beforeb s section_end) then Some ([], items)
          else
            let one (x : sym) :=
              match find_document_symbols f rest section_end skip_front with Some (more, left_) => Some (x :: more, left_) | None => None end in
            let inside (make : list sym -> sym) (skip : nat) :=
              match find_document_symbols f rest e skip with
              | Some (children, rest') =>
                  match find_document_symbols f rest' section_end skip_front with Some (more, left_) => Some (make children :: more, left_) | None => None end
              | None => None
              end in
            match a with
            | ABlock path =>
                match path with
                | [] => find_document_symbols f rest section_end skip_front
                | _ :: _ =>
                    match name_and_detail path skip_front with
                    | Some (name, detail) =>
                        inside (fun c => Sym name detail KClass (span_to_range s e) (location_to_range s) (Some c)) (List.length path)
                    | None => None
                    end
                end
            | AVariable path =>
                match name_and_detail path skip_front with
                | Some (name, detail) => one (Sym name detail KField (span_to_range s e) (location_to_range s) None)
                | None => None
                end
            | ABody path _ =>
                match path with
                | [] => find_document_symbols f rest section_end skip_front
                | _ :: _ =>
                    match name_and_detail path skip_front with
                    | Some (name, detail) =>
                        inside (fun c => Sym name detail (body_kind path name) (span_to_range s e) (location_to_range s) (Some c)) 0
                    | None => None
                    end
                end
            | ALocal _ name => one (Sym name None KVariable (span_to_range s e) (location_to_range s) None)
            | AMacro name => one (Sym name None KConstant (span_to_range s e) (location_to_range s) None)
            | _ => find_document_symbols f rest section_end skip_front
            end
      end
  end.

(** 2263-2273 sort_by_key, which is stable: by the start, the reverse of the end, and blocks first *)
Definition rank (a : ann) : nat := match a with ABlock _ => 0 | _ => 1 end.
Definition key_leb (x y : item) : bool :=
  let '(s1, e1, a1) := x in let '(s2, e2, a2) := y in
  Loc.Spec.beforeb s1 s2 || (negb (Loc.Spec.beforeb s2 s1) && (Loc.Spec.beforeb e2 e1 || (negb (Loc.Spec.beforeb e1 e2) && (rank a1 <=? rank a2)))).
Fixpoint sort_in (x : item) (l : list item) : list item :=
  match l with [] => [x] | y :: l' => if key_leb x y then x :: l else y :: sort_in x l' end.
Definition sort_items (l : list item) : list item := fold_right sort_in [] l.

(** 2244-2279 *)
Definition document_symbols (annotations : @annot ann) (file : Z) : option (option (list sym)) :=
  if alen annotations =? 0 then Some None
  else
    let end_ : loc := (file, (2 ^ 32 - 1, 2 ^ 16 - 1))%Z in
    match a_get_range annotations (file, (0, 0))%Z end_ with
    | Some items =>
        match find_document_symbols (S (List.length items)) (sort_items items) end_ 0 with Some (syms, _) => Some (Some syms) | None => None end
    | None => None
    end.

(** 2587-2600 is_region_marker *)
Definition strip_prefix (p t : text) : option text := if Text.starts_with p t then Some (skipn (List.length p) t) else None.
Definition is_region_marker (line marker : text) : bool :=
  match strip_prefix (lit "//") line with
  | None => false
  | Some comment =>
      let rest := match strip_prefix (lit " ") comment with Some r => r | None => comment end in
      match strip_prefix marker rest with
      | None => false
      | Some suffix => match suffix with [] => true | ch :: _ => is_whitespace ch end
      end
  end.
(** 2287-2307: [starts] is region_starts, its top first *)
Fixpoint folds (index : nat) (starts : list nat) (ls : list text) : list (nat * nat) :=
  match ls with
  | [] => []
  | l :: ls' =>
      let line := trim_start l in
      if is_region_marker line (lit "#region") then folds (S index) (index :: starts) ls'
      else if is_region_marker line (lit "#endregion") then
        match starts with
        | s :: starts' => (s, index) :: folds (S index) starts' ls'
        | [] => folds (S index) starts ls'
        end
      else folds (S index) starts ls'
  end.
(** 2281-2310 *)
Definition folding_ranges (content : text) : list (nat * nat) := folds 0 [] (lines content).

(** 2358-2388; [to_url] makes the path absolute and a URL of it, [Error] is an answer that says that this failed *)
Inductive answer (A : Type) : Type := Fine (a : A) | Error.
Arguments Fine {A} a. Arguments Error {A}.
Section LINKS.
Variable url : Type.
Variable to_url : text -> option url.
Fixpoint links (file : Z) (items : list item) : option (answer (list (lsp_range * url))) :=
  match items with
  | [] => Some (Fine [])
  | (s, e, a) :: rest =>
      if negb (lfile s =? file)%Z then links file rest
      else
        match a with
        | AInclude path | AResource path =>
            match add_columns e 1 with
            | None => None
            | Some e' =>
                match to_url path with
                | None => Some Error
                | Some u => match links file rest with Some (Fine l) => Some (Fine ((span_to_range s e', u) :: l)) | r => r end
                end
            end
        | _ => links file rest
        end
  end.
Definition document_links (annotations : @annot ann) (file : Z) : option (answer (option (list (lsp_range * url)))) :=
  if alen annotations =? 0 then Some (Fine None)
  else match a_iter annotations with
       | Some items => match links file items with Some (Fine l) => Some (Fine (Some l)) | Some Error => Some Error | None => None end
       | None => None
       end.
End LINKS.
