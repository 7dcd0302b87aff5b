(** Model of crates/dreammaker/src/error.rs (FileList, Location) and annotation.rs. *)
From Coq Require Import List ZArith Lia Bool.
From Verif Require Import Common.Order Itree.Model.
Import ListNotations.
Open Scope Z_scope.

(** error.rs:19-22 *)
Definition FILEID_BUILTINS : Z := 0x0000.
Definition FILEID_MIN : Z := 0x0001.
Definition FILEID_MAX : Z := 0xfffe.
Definition FILEID_BAD : Z := 0xffff.

(** ** FileList (error.rs:31-90) *)
Section FileList.
  (** [P] stands for [PathBuf] up to [PathBuf]'s own equality (component-wise). *)
  Context {P : Type} (P_eq_dec : forall x y : P, {x = y} + {x <> y}).

  (** error.rs:32-37; the HashMap is an association list, newest first *)
  Record file_list := { files : list P; reverse_files : list (P * Z) }.

  (** FileList::default() *)
  Definition fl_new : file_list := {| files := []; reverse_files := [] |}.

  (** HashMap::get *)
  Fixpoint rev_get (m : list (P * Z)) (p : P) : option Z :=
    match m with
    | [] => None
    | (q, id) :: m' => if P_eq_dec p q then Some id else rev_get m' p
    end.

  (** error.rs:54-68 register; [None] = panic "file limit exceeded".  The cast of [files.len()]
      to u16 is exact below the limit. *)
  Definition register (fl : file_list) (p : P) : option (file_list * Z) :=
    match rev_get (reverse_files fl) p with
    | Some id => Some (fl, id)
    | None =>
        if FILEID_MAX <? Z.of_nat (length (files fl)) then None
        else
          let id := Z.of_nat (length (files fl)) + FILEID_MIN in
          Some ({| files := files fl ++ [p]; reverse_files := (p, id) :: reverse_files fl |}, id)
    end.

  (** error.rs:71-73 get_id *)
  Definition get_id (fl : file_list) (p : P) : option Z := rev_get (reverse_files fl) p.

  (** error.rs:76-87 get_path; results: the builtins placeholder, "(unknown)", a path, or the
      out-of-bounds indexing panic of [files[idx]] *)
  Inductive path_result := PBuiltins | PUnknown | PPath (p : P) | PPanic.

  Definition get_path (fl : file_list) (file : Z) : path_result :=
    if file =? FILEID_BUILTINS then PBuiltins
    else
      let idx := file - FILEID_MIN in
      if Z.of_nat (length (files fl)) <? idx then PUnknown
      else match nth_error (files fl) (Z.to_nat idx) with
           | Some p => PPath p
           | None => PPanic
           end.

  (** error.rs:89-93 for_each: visits [files] in order *)
  Definition for_each (fl : file_list) : list P := files fl.

  (** A history of [register] calls, with the ids they returned. *)
  Fixpoint registers (fl : file_list) (ps : list P) : option (file_list * list Z) :=
    match ps with
    | [] => Some (fl, [])
    | p :: ps' =>
        match register fl p with
        | None => None
        | Some (fl', id) =>
            match registers fl' ps' with
            | None => None
            | Some (fl'', ids) => Some (fl'', id :: ids)
            end
        end
    end.
End FileList.
Arguments file_list : clear implicits.
Arguments path_result : clear implicits.

(** ** Location (error.rs:279-343) *)

(** error.rs:280-288; fields (file: u16, line: u32, column: u16), derived lexicographic order *)
Definition loc : Type := (Z * (Z * Z))%type.
Definition lfile (l : loc) : Z := fst l.
Definition lline (l : loc) : Z := fst (snd l).
Definition lcol (l : loc) : Z := snd (snd l).

(** The values the machine type can hold. *)
Definition loc_ok (l : loc) : Prop :=
  0 <= lfile l < 2 ^ 16 /\ 0 <= lline l < 2 ^ 32 /\ 0 <= lcol l < 2 ^ 16.

(** error.rs:300-302 pack *)
Definition pack (l : loc) : Z :=
  Z.lor (Z.lor (Z.shiftl (lfile l) 48) (Z.shiftl (lline l) 16)) (lcol l).

(** error.rs:305-331 pred; [None] = panic *)
Definition pred (l : loc) : option loc :=
  if negb (lcol l =? 0) then Some (lfile l, (lline l, lcol l - 1))
  else if negb (lline l =? 0) then Some (lfile l, (lline l - 1, 2 ^ 16 - 1))
  else if lfile l =? FILEID_BAD then Some l
  else if negb (lfile l =? 0) then Some (lfile l - 1, (2 ^ 32 - 1, 2 ^ 16 - 1))
  else None.

(** error.rs:333-336 add_columns; [None] = u16 overflow (panic in debug builds) *)
Definition add_columns (l : loc) (n : Z) : option loc :=
  if lcol l + n <? 2 ^ 16 then Some (lfile l, (lline l, lcol l + n)) else None.

(** ** AnnotationTree (annotation.rs:54-103) *)
Section Annot.
  Context {V : Type}.

  (** annotation.rs:54-58 *)
  Record annot := { atree : tree loc V; alen : nat }.

  (** annotation.rs:60-67 Default *)
  Definition a_new : annot := {| atree := Leaf; alen := 0 |}.

  (** annotation.rs:70-74 insert(place.start..place.end, value) *)
  Definition a_insert (a : annot) (s e : loc) (v : V) : option annot :=
    match pred e with
    | None => None
    | Some e' =>
        match insert (atree a) (s, e') v with
        | None => None
        | Some t => Some {| atree := t; alen := alen a + 1 |}
        end
    end.

  (** annotation.rs:76-79 merge *)
  Definition a_merge (a b : annot) : option annot :=
    match merge (atree a) (atree b) with
    | None => None
    | Some t => Some {| atree := t; alen := alen a + alen b |}
    end.

  (** annotation.rs:93-95 get_location *)
  Definition a_get_location (a : annot) (l : loc) : option (list ((loc * loc) * V)) :=
    match pred l with
    | None => None
    | Some l' => query (atree a) (l', l)
    end.

  (** annotation.rs:97-99 get_range *)
  Definition a_get_range (a : annot) (s e : loc) : option (list ((loc * loc) * V)) :=
    match pred e with
    | None => None
    | Some e' => query (atree a) (s, e')
    end.

  (** annotation.rs:101-103 get_range_raw *)
  Definition a_get_range_raw (a : annot) (q : loc * loc) : option (list ((loc * loc) * V)) :=
    query (atree a) q.

  (** annotation.rs:89-91 iter *)
  Definition a_iter (a : annot) : option (list ((loc * loc) * V)) := iter (atree a).

  (** How an annotation tree can be built through the API. *)
  Inductive build :=
  | BNew
  | BInsert (b : build) (s e : loc) (v : V)
  | BMerge (b1 b2 : build).

  Fixpoint run_build (b : build) : option annot :=
    match b with
    | BNew => Some a_new
    | BInsert b s e v =>
        match run_build b with Some a => a_insert a s e v | None => None end
    | BMerge b1 b2 =>
        match run_build b1, run_build b2 with
        | Some a1, Some a2 => a_merge a1 a2
        | _, _ => None
        end
    end.
End Annot.
Arguments annot : clear implicits.
Arguments build : clear implicits.
