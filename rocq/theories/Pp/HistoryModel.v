(** The define history: crates/dreammaker/src/preprocessor.rs, [finalize] and [DefineMap::from_history]. *)
From Coq Require Import List ZArith Bool.
From Verif Require Import Common.Text Common.Order Loc.Model Itree.Model.
From Verif Require Import Pp.Model.
Import ListNotations.
Open Scope Z_scope.

Section HIST.
Context {F : Type}.
Notation define := (@define F).
Notation define_map := (@define_map F).
Notation record := (((loc * loc) * (text * define))%type).

(** preprocessor.rs:502-506: the end of a definition that is never taken back; [i] is a u16 *)
Definition end_loc (i : Z) : loc := (FILEID_BAD, (2 ^ 32 - 1, i)).
(** the entries in the order in which [drain] and the vector yield them *)
Definition drained (order : define_map) : list (text * (loc * define)) :=
  flat_map (fun e => map (pair (fst e)) (rev (snd e))) order.
(** preprocessor.rs:497-510: the insertions; [None] = overflow of the counter *)
Fixpoint still_open (i : Z) (l : list (text * (loc * define))) : option (list record) :=
  match l with
  | [] => Some []
  | (n, (a, d)) :: r =>
      if 2 ^ 16 - 1 <? i + 1 then None
      else option_map (cons ((a, end_loc (i + 1)), (n, d))) (still_open (i + 1) r)
  end.
(** preprocessor.rs:494-516 finalize: the tree of the history.  [order] is the order in which the HashMap is drained;
    [h] are the records of move_to_history, newest first *)
Definition finalize (order : define_map) (h : list record) : option (tree loc (text * define)) :=
  match still_open 0 (drained order) with
  | None => None
  | Some l => Itree.Model.run Leaf (map (fun r => Insert (fst r) (snd r)) (rev h ++ l))
  end.
(** preprocessor.rs:238-245 from_history *)
Definition from_history (t : tree loc (text * define)) (q : loc) : option define_map :=
  match query t (q, q) with
  | None => None
  | Some res => Some (fold_left (fun m r => dm_insert m (fst (snd r)) (fst (fst r), snd (snd r))) res [])
  end.
(** preprocessor.rs:96-106 branch_at_file: the macros at the start of a file *)
Definition branch_at_file (t : tree loc (text * define)) (file : Z) : option define_map := from_history t (file, (0, 0)).
End HIST.
