(** C48: equality and hashing of constants and of map objects. *)
From Coq Require Import List NArith ZArith Bool String Lia Permutation Sorted.
From Verif Require Import Common.Text Const.Model Dmm.TgmModel.
Import ListNotations.
Open Scope nat_scope.

(** ** The model of hashing *)
(** What is fed to the hasher: discriminants and lengths, strings, and the bits of a number (OrderedFloat::hash) *)
Inductive word : Type := WNum (n : nat) | WText (t : text) | WFloat (n : N).
(** Ord for str, as in [sort_by_key] *)
Fixpoint text_leb (a b : text) : bool :=
  match a, b with
  | [], _ => true
  | _ :: _, [] => false
  | x :: a', y :: b' => (x <? y)%N || ((x =? y)%N && text_leb a' b')
  end.
(** slice::sort_by_key, for [|&(k, _)| k] *)
Fixpoint insert_by_key {A : Type} (x : text * A) (l : list (text * A)) : list (text * A) :=
  match l with
  | [] => [x]
  | y :: l' => if text_leb (fst x) (fst y) then x :: l else y :: insert_by_key x l'
  end.
Definition sort_by_key {A : Type} (l : list (text * A)) : list (text * A) := fold_right insert_by_key [] l.
(** Hash for str, slices, Option *)
Definition hash_text (t : text) : list word := [WText t].
Definition hash_list {A : Type} (h : A -> list word) (l : list A) : list word := WNum (List.length l) :: List.concat (map h l).
Definition hash_option {A : Type} (h : A -> list word) (o : option A) : list word :=
  match o with None => [WNum 0] | Some a => WNum 1 :: h a end.
(** 157: derived from the order of the variants *)
Definition fn_index (f : constfn) : nat :=
  match f with FnIcon => 0 | FnMatrix => 1 | FnNewlist => 2 | FnSound => 3 | FnFilter => 4 | FnFile => 5 | FnGenerator => 6 | FnVector => 7 end.
(** constants.rs:47-56 and dmm.rs:185-194, the loop over the sorted variables.  Here each value has been hashed before sorting,
    which makes no difference, because only the keys are compared. *)
Definition hash_vars (vs : list (text * list word)) : list word :=
  List.concat (map (fun e => hash_text (fst e) ++ snd e) (sort_by_key vs)).

Section HASH.
Variable F : Type.
Variable fl : f32 F.
Variable f_hash : F -> N.
Notation constant := (constant F).
Notation pop := (pop F).

(** constants.rs:117-131 Hash for Constant; 47-56 Hash for Pop *)
Fixpoint hash (c : constant) : list word :=
  let arg := fun x : constant * option constant => hash (fst x) ++ hash_option hash (snd x) in
  match c with
  | CNull p => WNum 0 :: hash_option (hash_list hash_text) p
  | CNew t a => WNum 1 :: hash_option hash_pop t ++ hash_option (hash_list arg) a
  | CList l => WNum 2 :: hash_list arg l
  | CCall f l => WNum 3 :: WNum (fn_index f) :: hash_list arg l
  | CPrefab p => WNum 4 :: hash_pop p
  | CString s => WNum 5 :: hash_text s
  | CResource s => WNum 6 :: hash_text s
  | CFloat f => [WNum 7; WFloat (f_hash f)]
  end
with hash_pop (p : pop) : list word :=
  match p with Pop path vars => hash_list hash_text path ++ hash_vars (map (fun e => (fst e, hash (snd e))) vars) end.
(** dmm.rs:177-181 PartialEq and 185-194 Hash for Prefab *)
Definition prefab_eqb (p q : prefab constant) : bool :=
  text_eqb (path p) (path q) && (List.length (vars p) =? List.length (vars q))
  && forallb (fun e => match map_get F (fst e) (vars q) with Some v => const_eqb F fl (snd e) v | None => false end) (vars p).
Definition hash_prefab (p : prefab constant) : list word :=
  hash_text (path p) ++ hash_vars (map (fun e => (fst e, hash (snd e))) (vars p)).

(** ** The specification *)
Inductive opt_rel {A : Type} (R : A -> A -> Prop) : option A -> option A -> Prop :=
  | opt_none : opt_rel R None None
  | opt_some a b : R a b -> opt_rel R (Some a) (Some b).
(** The same constant: built alike, from equal numbers; the variables of a type may be in another order. *)
Inductive same : constant -> constant -> Prop :=
  | same_null h : same (CNull h) (CNull h)
  | same_new t u x y : opt_rel same_pop t u ->
      opt_rel (Forall2 (fun a b => same (fst a) (fst b) /\ opt_rel same (snd a) (snd b))) x y -> same (CNew t x) (CNew u y)
  | same_list x y : Forall2 (fun a b => same (fst a) (fst b) /\ opt_rel same (snd a) (snd b)) x y -> same (CList x) (CList y)
  | same_call f x y : Forall2 (fun a b => same (fst a) (fst b) /\ opt_rel same (snd a) (snd b)) x y -> same (CCall f x) (CCall f y)
  | same_prefab p q : same_pop p q -> same (CPrefab p) (CPrefab q)
  | same_string s : same (CString s) (CString s)
  | same_resource s : same (CResource s) (CResource s)
  | same_float f g : f_eq F fl f g = true -> same (CFloat f) (CFloat g)
with same_pop : pop -> pop -> Prop :=
  | same_Pop path v w w' : Permutation w w' -> Forall2 (fun a b => fst a = fst b /\ same (snd a) (snd b)) v w' ->
      same_pop (Pop path v) (Pop path w).
Definition same_prefab_ (p q : prefab constant) : Prop :=
  path p = path q /\ exists w, Permutation (vars q) w /\ Forall2 (fun a b => fst a = fst b /\ same (snd a) (snd b)) (vars p) w.
(** No variable is set twice (an IndexMap has distinct keys), at any depth. *)
Inductive keyed : constant -> Prop :=
  | keyed_null h : keyed (CNull h)
  | keyed_new t x : (forall p, t = Some p -> keyed_pop p) -> (forall l, x = Some l -> Forall (fun a => keyed (fst a) /\ forall v, snd a = Some v -> keyed v) l) -> keyed (CNew t x)
  | keyed_list x : Forall (fun a => keyed (fst a) /\ forall v, snd a = Some v -> keyed v) x -> keyed (CList x)
  | keyed_call f x : Forall (fun a => keyed (fst a) /\ forall v, snd a = Some v -> keyed v) x -> keyed (CCall f x)
  | keyed_prefab p : keyed_pop p -> keyed (CPrefab p)
  | keyed_string s : keyed (CString s)
  | keyed_resource s : keyed (CResource s)
  | keyed_float f : keyed (CFloat f)
with keyed_pop : pop -> Prop :=
  | keyed_Pop path v : NoDup (map fst v) -> Forall (fun a => keyed (snd a)) v -> keyed_pop (Pop path v).

(** ** Induction *)
Section IND.
Variable P : constant -> Prop.
Variable Q : pop -> Prop.
Notation PA := (fun a : constant * option constant => P (fst a) /\ forall v, snd a = Some v -> P v).
Hypothesis Hnull : forall h, P (CNull h).
Hypothesis Hnew : forall t x, (forall p, t = Some p -> Q p) -> (forall l, x = Some l -> Forall PA l) -> P (CNew t x).
Hypothesis Hlist : forall x, Forall PA x -> P (CList x).
Hypothesis Hcall : forall f x, Forall PA x -> P (CCall f x).
Hypothesis Hprefab : forall p, Q p -> P (CPrefab p).
Hypothesis Hstring : forall s, P (CString s).
Hypothesis Hresource : forall s, P (CResource s).
Hypothesis Hfloat : forall f, P (CFloat f).
Hypothesis Hpop : forall path v, Forall (fun a => P (snd a)) v -> Q (Pop path v).
Fixpoint constant_deep (c : constant) : P c :=
  let arg := fun a : constant * option constant =>
    conj (constant_deep (fst a))
         (match snd a as o return (forall v, o = Some v -> P v) with
          | Some w => fun v (E : Some w = Some v) => match E in _ = o return match o with Some v => P v | None => True end with eq_refl => constant_deep w end
          | None => fun v (E : None = Some v) => match E in _ = o return match o with Some v => P v | None => True end with eq_refl => I end
          end) in
  let args := fix go (l : list (constant * option constant)) : Forall PA l :=
    match l with [] => Forall_nil PA | a :: l' => Forall_cons a (arg a) (go l') end in
  match c with
  | CNull h => Hnull h
  | CNew t x => Hnew t x
      (match t as o return (forall p, o = Some p -> Q p) with
       | Some w => fun p (E : Some w = Some p) => match E in _ = o return match o with Some p => Q p | None => True end with eq_refl => pop_deep w end
       | None => fun p (E : None = Some p) => match E in _ = o return match o with Some p => Q p | None => True end with eq_refl => I end
       end)
      (match x as o return (forall l, o = Some l -> Forall PA l) with
       | Some w => fun l (E : Some w = Some l) => match E in _ = o return match o with Some l => Forall PA l | None => True end with eq_refl => args w end
       | None => fun l (E : None = Some l) => match E in _ = o return match o with Some l => Forall PA l | None => True end with eq_refl => I end
       end)
  | CList x => Hlist x (args x)
  | CCall f x => Hcall f x (args x)
  | CPrefab p => Hprefab p (pop_deep p)
  | CString s => Hstring s
  | CResource s => Hresource s
  | CFloat f => Hfloat f
  end
with pop_deep (p : pop) : Q p :=
  match p with
  | Pop path v => Hpop path v
      ((fix go (l : list (text * constant)) : Forall (fun a => P (snd a)) l :=
          match l with [] => Forall_nil _ | a :: l' => Forall_cons a (constant_deep (snd a)) (go l') end) v)
  end.
Lemma constant_deep_both : (forall c, P c) /\ (forall p, Q p).
Proof using Hnull Hnew Hlist Hcall Hprefab Hstring Hresource Hfloat Hpop. split; [exact constant_deep|exact pop_deep]. Qed.
End IND.
End HASH.
