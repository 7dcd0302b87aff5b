(** What the search for symbols finds, and what the object tree explorer shows (C76).  Types are known by the components of their paths (Objtree/Spec.v);
    what a query means is said in Lsp/SymbolSearch.v ([meaning], C30). *)
From Coq Require Import List Arith NArith Bool String Sorted Permutation.
From Verif Require Import Common.Text Objtree.Ispath Objtree.Model Objtree.Spec Lsp.Explorer.
From Verif Require Lsp.SymbolSearch.
Import ListNotations.
Open Scope nat_scope.

Section SPEC.
Variables V D Loc Doc Url : Type.
Variables (lower : chr -> list chr) (alphanumeric : chr -> bool) (str_lower : text -> text).
Variable t : objtree V D.
Variable type_site : nat -> Loc * Doc.
Variable value_site : V -> Loc * Doc.
Variable decl_loc : D -> Loc.
Variable is_verb : D -> bool.
Variable vars : nat -> list (text * tvar Loc Doc).
Variable macros : list (Loc * text * Doc).
Variable builtin : Loc -> bool.
Variable hash : Doc -> option text.
Variable parse_url : text -> option Url.
Variable file_url : Loc -> option Url.

(** *** Where something is *)
(** In its file; or, if it is built in, in the reference: at the anchor its documentation names, or else at the one for its own path *)
Definition reference (docs : Doc) (own_path : text) : text :=
  lit "dm://docs/reference.dm#" ++ match hash docs with Some h => h | None => own_path end.
Definition placed (loc : Loc) (docs : Doc) (own_path : text) (u : Url) : Prop :=
  (builtin loc = true /\ parse_url (reference docs own_path) = Some u) \/ (builtin loc = false /\ file_url loc = Some u).
Definition shown_at (loc : Loc) (docs : Doc) (own_path : text) (o : option (Url * Loc)) : Prop :=
  match o with Some (u, l) => l = loc /\ placed loc docs own_path u | None => forall u, ~ placed loc docs own_path u end.

(** *** The symbols there are *)
(** the k-th macro, the i-th type, the j-th variable or procedure of the i-th type *)
Inductive subject : Type := SMacro (k : nat) | SType (i : nat) | SVar (i j : nat) | SProc (i j : nat).
(** what sort of symbol it is to a query; its name and its path; the icon; where it is, its documentation and its path in the reference; what it is in *)
Record about : Type := { a_kind : SymbolSearch.kind; a_name : text; a_path : text; a_icon : icon; a_loc : Loc; a_docs : Doc; a_ref : text; a_in : option text }.
Definition constructor_names : list text := map lit ["New"; "init"; "Initialize"]%string.
(** procedures of the root are functions *)
Inductive right_icon (cs : list text) (name : text) : icon -> Prop :=
  | icon_function : cs = [] -> right_icon cs name IFunction
  | icon_constructor : cs <> [] -> In name constructor_names -> right_icon cs name IConstructor
  | icon_method : cs <> [] -> ~ In name constructor_names -> right_icon cs name IMethod.
(** All macros; all types but the root; the variables and procedures that are declared where they are, not those that are only set or overridden *)
Inductive symbol_is : subject -> about -> Prop :=
  | is_macro k loc name docs : nth_error macros k = Some (loc, name, docs) ->
      symbol_is (SMacro k) {| a_kind := SymbolSearch.KDefine; a_name := name; a_path := name; a_icon := IConstant; a_loc := loc; a_docs := docs;
                              a_ref := lit "/DM/preprocessor/" ++ name; a_in := None |}
  | is_type i cs x loc docs : at_ t i (cs ++ [x]) -> type_site i = (loc, docs) ->
      symbol_is (SType i) {| a_kind := SymbolSearch.KType; a_name := x; a_path := render (cs ++ [x]); a_icon := IClass; a_loc := loc; a_docs := docs;
                             a_ref := render (cs ++ [x]); a_in := Some (render cs) |}
  | is_var i cs j name tv loc const : at_ t i cs -> nth_error (vars i) j = Some (name, tv) -> v_decl tv = Some (loc, const) ->
      symbol_is (SVar i j) {| a_kind := SymbolSearch.KVar; a_name := name; a_path := render cs; a_icon := IField; a_loc := loc; a_docs := snd (v_site tv);
                              a_ref := render cs ++ lit "/var/" ++ name; a_in := Some (render cs) |}
  | is_proc i cs n j name p d vs v ic : at_ t i cs -> nth_error (graph t) i = Some n -> nth_error (n_procs n) j = Some (name, p) -> p_decl p = Some d ->
      p_values p = vs ++ [v] -> right_icon cs name ic ->
      symbol_is (SProc i j) {| a_kind := SymbolSearch.KProc; a_name := name; a_path := render cs; a_icon := ic; a_loc := decl_loc d;
                               a_docs := snd (value_site v); a_ref := render cs ++ lit "/proc/" ++ name; a_in := Some (render cs) |}.
(** macros first; then type by type, each followed by its variables, then its procedures *)
Definition sooner (a b : subject) : Prop :=
  match a, b with
  | SMacro k, SMacro k' => k < k'
  | SMacro _, _ => True
  | _, SMacro _ => False
  | SType i, SType i' => i < i'
  | SType i, SVar i' _ => i <= i'
  | SType i, SProc i' _ => i <= i'
  | SVar i _, SType i' => i < i'
  | SVar i j, SVar i' j' => i < i' \/ (i = i' /\ j < j')
  | SVar i _, SProc i' _ => i <= i'
  | SProc i _, SType i' => i < i'
  | SProc i _, SVar i' _ => i < i'
  | SProc i j, SProc i' j' => i < i' \/ (i = i' /\ j < j')
  end.
(** what is sent *)
Definition sent (a : about) (s : symbol Loc Url) : Prop :=
  s_name s = a_name a /\ s_icon s = a_icon a /\ s_in s = a_in a /\ shown_at (a_loc a) (a_docs a) (a_ref a) (Some (s_place s)).

(** the characters that count *)
Definition essence (x : text) : text := filter alphanumeric (flat_map lower x).
(** what a query with this meaning is about, and that it is rejected (C30) *)
Definition wanted (ks : SymbolSearch.kind -> Prop) (q' : text) (by_path : bool) (a : about) : Prop :=
  ks (a_kind a) /\
  if by_path then exists l r, str_lower (a_path a) = l ++ str_lower q' ++ r
  else exists r, essence (a_name a) = essence (str_lower q') ++ r.
Definition rejected (ks : SymbolSearch.kind -> Prop) (q q' : text) (by_path : bool) : Prop :=
  essence q = [] \/ (by_path = false /\ ~ ks SymbolSearch.KDefine /\ essence q' = []).

(** *** What the explorer shows *)
(** of the type [/c1/c2/...], which is the i-th: the name, the place, and how many variables, procedures and types are in it *)
Definition last_name (cs : list text) (name : text) : Prop := (cs = [] /\ name = []) \/ exists ds, cs = ds ++ [name].
Definition heading (i : nat) (cs : list text) (e : etype Loc Url) : Prop :=
  last_name cs (et_name e) /\ shown_at (fst (type_site i)) (snd (type_site i)) (render cs) (et_place e) /\
  exists n xs, nth_error (graph t) i = Some n /\ NoDup xs /\ (forall x, In x xs <-> exists j, at_ t j (cs ++ [x])) /\
    et_counts e = (List.length (vars i), List.length (n_procs n), List.length xs).
(** its j-th variable *)
Definition var_shown (i : nat) (cs : list text) (j : nat) (r : evar Loc Url) : Prop :=
  exists tv, nth_error (vars i) j = Some (ev_name r, tv) /\ (ev_declared r = true <-> v_decl tv <> None) /\
    (ev_icon r = IConstant <-> exists loc, v_decl tv = Some (loc, true)) /\ (ev_icon r = IConstant \/ ev_icon r = IField) /\
    shown_at (fst (v_site tv)) (snd (v_site tv)) (render cs ++ lit "/var/" ++ ev_name r) (ev_place r).
(** the k-th value of its j-th procedure; whether it is a verb is said with the first value, if the procedure is declared here *)
Definition proc_shown (i : nat) (cs : list text) (jk : nat * nat) (r : eproc Loc Url) : Prop :=
  exists n p v, nth_error (graph t) i = Some n /\ nth_error (n_procs n) (fst jk) = Some (ep_name r, p) /\ nth_error (p_values p) (snd jk) = Some v /\
    right_icon cs (ep_name r) (ep_icon r) /\ shown_at (fst (value_site v)) (snd (value_site v)) (render cs ++ lit "/proc/" ++ ep_name r) (ep_place r) /\
    (forall b, ep_verb r = Some b <-> snd jk = 0 /\ exists d, p_decl p = Some d /\ is_verb d = b).
(** in the order of the dictionary *)
Definition by_name {A : Type} (key : A -> text) (l : list A) : Prop := StronglySorted (fun a b => key a = key b \/ before (key a) (key b)) l.
(** all its variables, each once; all values of its procedures, each once, those of one procedure in their order *)
Definition vars_shown (i : nat) (cs : list text) (l : list (evar Loc Url)) : Prop :=
  exists order, Permutation order (seq 0 (List.length (vars i))) /\ Forall2 (var_shown i cs) order l /\ by_name ev_name l.
Definition procs_shown (i : nat) (cs : list text) (l : list (eproc Loc Url)) : Prop :=
  exists order, NoDup order /\
    (forall j k, In (j, k) order <-> exists n name p, nth_error (graph t) i = Some n /\ nth_error (n_procs n) j = Some (name, p) /\ k < List.length (p_values p)) /\
    ForallOrdPairs (fun a b => fst a = fst b -> snd a < snd b) order /\ Forall2 (proc_shown i cs) order l /\ by_name ep_name l.
Definition type_shown (i : nat) (cs : list text) (e : etype Loc Url) : Prop := heading i cs e /\ vars_shown i cs (et_vars e) /\ procs_shown i cs (et_procs e).
(** a type of which only the heading is shown *)
Definition stub_shown (cs : list text) (e : etype Loc Url) : Prop :=
  exists i, at_ t i cs /\ heading i cs e /\ et_vars e = [] /\ et_procs e = [] /\ et_children e = [].
(** the names of the types in the type [/c1/c2/...], in the order of the dictionary *)
Definition names_in (cs xs : list text) : Prop := (forall x, In x xs <-> exists j, at_ t j (cs ++ [x])) /\ StronglySorted before xs.
(** a type with the types in it as stubs; a type with everything in it *)
Definition opened (cs : list text) (e : etype Loc Url) : Prop :=
  exists i xs, at_ t i cs /\ type_shown i cs e /\ names_in cs xs /\ Forall2 (fun x => stub_shown (cs ++ [x])) xs (et_children e).
Inductive whole : list text -> etype Loc Url -> Prop :=
  | whole_type cs i e xs : at_ t i cs -> type_shown i cs e -> names_in cs xs -> Forall2 (fun x => whole (cs ++ [x])) xs (et_children e) -> whole cs e.
(** the paths of all types in an entry, from the names alone; a type before those in it *)
Fixpoint paths_shown (cs : list text) (e : etype Loc Url) : list (list text) :=
  let '(EType _ _ _ _ _ _ kids _ _ _) := e in cs :: flat_map (fun k => paths_shown (cs ++ [et_name k]) k) kids.
End SPEC.
