(** C76: symbols are found by their names; a concrete workspace; and what is not so. *)
From Coq Require Import List Arith NArith Bool String Ascii Lia Sorted.
From Verif Require Import Common.Text Objtree.Ispath Objtree.Model Objtree.Spec Objtree.Demo Lsp.Explorer Lsp.ExplorerSpec Lsp.ExplorerProps.
From Verif Require Lsp.SymbolSearch.
Import ListNotations.
Open Scope nat_scope.

Section FOUND.
Variables V D Loc Doc Url : Type.
Variable t : objtree V D.
Variable type_site : nat -> Loc * Doc.
Variable value_site : V -> Loc * Doc.
Variable decl_loc : D -> Loc.
Variable vars : nat -> list (text * tvar Loc Doc).
Variable builtin : Loc -> bool.
Variable hash : Doc -> option text.
Variable parse_url : text -> option Url.
Variable file_url : Loc -> option Url.
Notation symbol_is := (symbol_is V D Loc Doc t type_site value_site decl_loc vars).
Notation sent := (sent Loc Doc Url builtin hash parse_url file_url).
Notation answer := (fun defines => workspace_symbol V D Loc Doc Url SymbolSearch.ascii_low SymbolSearch.ascii_alnum SymbolSearch.ascii_str_low t type_site value_site decl_loc vars defines builtin hash parse_url file_url).
(** Whatever symbol there is, a query with the beginning of its name finds it, unless the search is refused altogether. *)
Theorem C76_found : forall defines s a p r, tree t -> symbol_is (match defines with Some l => l | None => [] end) s a ->
  a_name _ _ a = p ++ r -> ~ In 47%N p -> (forall q, p <> 35%N :: q) -> essence SymbolSearch.ascii_low SymbolSearch.ascii_alnum p <> [] ->
  answer defines p = Refused \/ exists l x, answer defines p = Done (Some l) /\ In x l /\ sent a x.
Proof using Type.
  intros defines s a p r T Hs En H47 H35 Hp.
  assert (M : SymbolSearch.meaning p (fun _ => True) p false) by (constructor; [exact H35|exact H47]).
  destruct (C76_symbols V D Loc Doc Url SymbolSearch.ascii_low SymbolSearch.ascii_alnum SymbolSearch.ascii_str_low t type_site value_site decl_loc vars builtin hash parse_url file_url defines p _ p false T M) as [_ G].
  assert (NR : ~ rejected SymbolSearch.ascii_low SymbolSearch.ascii_alnum (fun _ => True) p p false) by (intros [Q|(_ & Q & _)]; [exact (Hp Q)|apply Q; exact I]).
  destruct (G NR) as (subjects & abouts & _ & I1 & F & [(l & E & F2)|(E & _)]); [right|left; exact E].
  assert (Hw : wanted Loc Doc SymbolSearch.ascii_low SymbolSearch.ascii_alnum SymbolSearch.ascii_str_low (fun _ => True) p false a).
  { split; [exact I|]. exists (essence SymbolSearch.ascii_low SymbolSearch.ascii_alnum r). unfold essence. rewrite En, SymbolSearch.ascii_low_idem, flat_map_app, filter_app. reflexivity. }
  assert (Hin : In s subjects) by (apply I1; exists a; auto). exists l.
  assert (Ha : In a abouts).
  { clear - F Hin Hs T. induction F as [|s' a' ss aa [H _] F IH]; [destruct Hin|]. destruct Hin as [->|Hin]; [left|right; auto].
    destruct (C76_subject V D Loc Doc t type_site value_site decl_loc vars _ s a' a T H Hs) as [-> _]. reflexivity. }
  clear - E F2 Ha. assert (K : exists x, In x l /\ sent a x).
  { clear E. induction F2 as [|a' x aa l H F IH]; [destruct Ha|]. destruct Ha as [->|Ha]; [exists x; split; [left; reflexivity|exact H]|]. destruct (IH Ha) as (y & Hy & Q). exists y. split; [right; exact Hy|exact Q]. }
  destruct K as (x & Hx & Q). exists x. auto.
Qed.
End FOUND.

(** ** A workspace: the tree of Objtree/Demo.v; what is before line 10 is built in *)
Definition type_site_demo (i : nat) : nat * option text := (if i =? 1 then 1 else 10 + i, None).
Definition value_site_demo (v : nat) : nat * option text := (v, if v =? 11 then Some (lit "/datum/proc/Use") else None).
Definition vars_demo (i : nat) : list (text * tvar nat (option text)) :=
  if i =? 9 then [(lit "hp", {| v_decl := Some (50, false); v_site := (50, None) |}); (lit "damage", {| v_decl := None; v_site := (51, None) |});
                  (lit "Sharp", {| v_decl := Some (52, true); v_site := (53, None) |})]
  else if i =? 0 then [(lit "world_hp", {| v_decl := Some (60, false); v_site := (60, None) |})] else [].
Definition defines_demo : list (nat * text * option text) := [(70, lit "HP_MAX", None); (2, lit "DM_VERSION", None)].
Definition file_demo (l : nat) : option text := if l =? 53 then None else Some (lit "code.dm").
Definition ask (file_url : nat -> option text) (q : string) : outcome (option (list (symbol nat text))) :=
  workspace_symbol nat nat nat (option text) text SymbolSearch.ascii_low SymbolSearch.ascii_alnum SymbolSearch.ascii_str_low demo type_site_demo value_site_demo (fun d => d) vars_demo
    (Some defines_demo) (fun l => l <? 10) (fun d => d) Some file_url (lit q).
Definition brief (o : outcome (option (list (symbol nat text)))) : option (list (text * icon * option text * nat)) :=
  match o with Done (Some l) => Some (map (fun s => (s_name s, s_icon s, s_in s, snd (s_place s))) l) | _ => None end.
Theorem C76_demo :
  brief (ask file_demo "hp") = Some [(lit "HP_MAX", IConstant, None, 70); (lit "hp", IField, Some (lit "/obj/item"), 50)] /\
  brief (ask file_demo "#dm") = Some [(lit "DM_VERSION", IConstant, None, 2)] /\
  brief (ask file_demo "it") = Some [(lit "item", IClass, Some (lit "/obj"), 19); (lit "item", IClass, Some [], 26)] /\
  brief (ask file_demo "/SWORD") = Some [(lit "sword", IClass, Some (lit "/obj/item"), 20); (lit "sword", IClass, Some (lit "/datum/odd"), 27)] /\
  brief (ask file_demo "proc/u") = Some [(lit "use", IMethod, Some (lit "/datum"), 1)] /\
  brief (ask file_demo "var/w") = Some [(lit "world_hp", IField, Some [], 60)] /\
  ask file_demo "proc/_" = Done None /\
  (exists s, ask file_demo "proc/use" = Done (Some [s]) /\ fst (s_place s) = lit "dm://docs/reference.dm#/datum/proc/Use") /\
  ask (fun _ => None) "hp" = Refused.
Proof.
  repeat (split; [vm_compute; reflexivity|]). split; [|vm_compute; reflexivity]. eexists. split; [vm_compute; reflexivity|]. vm_compute. reflexivity.
Qed.
Definition ask_type (path : string) : outcome (etype nat text) :=
  query_object_tree nat nat nat (option text) text demo type_site_demo value_site_demo (fun d => d =? 1) vars_demo (fun l => l <? 10) (fun d => d) Some file_demo (lit path).
Definition seen (e : etype nat text) :=
  (et_name e, et_counts e, map (fun v => (ev_name v, ev_icon v, ev_declared v)) (et_vars e), map (fun p => (ep_name p, option_map snd (ep_place p), ep_verb p)) (et_procs e),
   map (fun k => (et_name k, et_counts k)) (et_children e)).
Theorem C76_query_demo :
  match ask_type "/obj/item" with Done e => Some (seen e) | _ => None end =
    Some (lit "item", (3, 1, 3), [(lit "Sharp", IConstant, true); (lit "damage", IField, false); (lit "hp", IField, true)],
          [(lit "use", Some 20, None); (lit "use", Some 21, None)],
          [(lit "axe", (0, 0, 0)); (lit "hammer", (0, 0, 0)); (lit "sword", (0, 1, 0))]) /\
  match ask_type "/datum" with Done e => Some (map (fun p => (ep_name p, option_map snd (ep_place p), ep_verb p)) (et_procs e)) | _ => None end =
    Some [(lit "use", Some 10, Some true); (lit "use", Some 11, None)] /\
  ask_type "/obj/nothing" = Refused.
Proof. split; [vm_compute; reflexivity|]. split; vm_compute; reflexivity. Qed.
Definition all_demo (fuel : nat) (o2 o : bool) :=
  update_objtree nat nat nat (option text) text demo type_site_demo value_site_demo (fun d => d =? 1) vars_demo (fun l => l <? 10) (fun d => d) Some file_demo fuel o2 o.
Theorem C76_update_demo :
  match all_demo 20 false true with
  | Some [WholeTree e] => Some (map render (firstn 8 (paths_shown nat text [] e)), List.length (paths_shown nat text [] e))
  | _ => None
  end = Some (map lit [""; "/atom"; "/atom/movable"; "/client"; "/datum"; "/datum/bad"; "/datum/lost"; "/datum/odd"]%string, 19) /\
  all_demo 20 true true = Some [NewTree] /\ all_demo 20 false false = Some [].
Proof. split; [vm_compute; reflexivity|]. split; vm_compute; reflexivity. Qed.

(** ** What is not so *)
(** A symbol that the query is about and that has a place need not be sent: a single other one without a place and nothing is. *)
Theorem C76_all_refuted :
  exists file_url, (forall l, l <> 50 -> file_url l <> None) /\ ask file_url "hp" = Refused /\ brief (ask file_url "hpm") = Some [(lit "HP_MAX", IConstant, None, 70)].
Proof.
  exists (fun l => if l =? 50 then None else Some (lit "code.dm")). split; [|split; vm_compute; reflexivity]. intros l N. destruct (Nat.eqb_spec l 50); [contradiction|discriminate].
Qed.
(** A procedure is not found where it is overridden, nor a variable where it is only set; and not by its path. *)
Theorem C76_override_refuted :
  procs_of demo 10 (lit "use") <> None /\ brief (ask file_demo "use") = Some [(lit "use", IMethod, Some (lit "/datum"), 1)] /\
  brief (ask file_demo "damage") = Some [] /\ brief (ask file_demo "/datum/use") = Some [].
Proof. split; [vm_compute; discriminate|]. split; [vm_compute; reflexivity|]. split; vm_compute; reflexivity. Qed.
(** The place sent is that of the declaration, the documentation that of the last value: they need not belong together. *)
Theorem C76_docs_refuted :
  exists s, ask file_demo "proc/use" = Done (Some [s]) /\ snd (s_place s) = 1 /\ snd (value_site_demo 10) = None /\
    fst (s_place s) = lit "dm://docs/reference.dm#/datum/proc/Use".
Proof. eexists. split; [vm_compute; reflexivity|]. split; [vm_compute; reflexivity|]. split; vm_compute; reflexivity. Qed.
Print Assumptions C76_symbols. Print Assumptions C76_subject. Print Assumptions C76_found. Print Assumptions C76_query. Print Assumptions C76_update. Print Assumptions C76_once.
Print Assumptions C76_demo. Print Assumptions C76_query_demo. Print Assumptions C76_update_demo. Print Assumptions C76_all_refuted. Print Assumptions C76_override_refuted. Print Assumptions C76_docs_refuted.
