(** The theorems of Props on concrete files, from their text: through the lexer and the processor of indentation. *)
From Coq Require Import List NArith ZArith Bool String.
From Verif Require Import Common.Text Lexer.Punct Lexer.Model Indents.Model Indents.Props Parse.Ast Parse.Model Parse.Spec Parse.Props
  Stmt.Ast Stmt.Model Stmt.Spec Stmt.Props Tree.Ast Tree.Model Tree.Spec Tree.Sound2 Tree.Props.
Import ListNotations.
Open Scope nat_scope.

Notation F := text.
Notation P p := (TPunct F p).
Notation L := (N * N)%type.
Definition nl : string := String (Ascii.ascii_of_nat 10) EmptyString.
Definition raw (s : string) : list (L * token F) :=
  match lex F (fun t => Some t) (fun t => t) [] (lit s) with Lexer.Model.Ok (ts, _) => ts | _ => [] end.
Definition start : L := (1, 1)%N.
(** [outcome] of Indents/Props.v, in linear time *)
Fixpoint indented (inner : list (L * token F)) (s : ist L) : list (L * token F) * option (ist L) :=
  match inner with
  | [] => (closing F L s, Some (set_eof _ true (set_current _ None s)))
  | (l, t) :: inner' =>
      match real_next F L t (set_loc _ l s) with
      | None => ([], None)
      | Some (p, s') => let '(ts, r) := indented inner' s' in (p ++ ts, r)
      end
  end.
Lemma indented_eq inner : forall s, indented inner s = outcome F L inner s.
Proof.
  induction inner as [|[l t] inner IH]; intros s; [reflexivity|]. cbn [indented outcome]. destruct (real_next F L t (set_loc L l s)) as [[p s']|]; [|reflexivity].
  rewrite IH. destruct (outcome F L inner s'); reflexivity.
Qed.
Definition source (s : string) : list (token F) := map snd (fst (indented (raw s) (inew L start))).
Definition id (s : string) : expr F := Base (MIdent (lit s)) [].
Definition num (z : Z) : expr F := Base (MInt z) [].
Definition types (ev : list (event F)) : list (list text) := fresh [] (adds F ev).
Definition path (l : list string) : list text := map (fun s => lit s) l.
Definition vt (n : N) (l : list string) : vartype := {| v_flags := n; v_path := path l |}.
Definition gives (cf : bool) (s : string) (ts : list (list text)) (ms : list (list text * text * member F)) : Prop :=
  exists ev, reads_file F cf cf (source s) ev /\ types ev = ts /\ mems F ev = ms.
Definition view (cf : bool) (s : string) : option (list (list text) * list (list text * text * member F)) :=
  match parse_file F cf cf (source s) with
  | TOk _ s => match diags (t_pst F s), toks (t_pst F s) with [], [] => Some (types (t_events F s), mems F (t_events F s)) | _, _ => None end
  | _ => None
  end.
Lemma view_gives cf s ts ms : view cf s = Some (ts, ms) -> gives cf s ts ms.
Proof.
  unfold view, gives, reads_file. destruct (parse_file F cf cf (source s)) as [s'| | |]; try discriminate. destruct (diags (t_pst F s')) eqn:D; [|discriminate]. destruct (toks (t_pst F s')) eqn:T; [|discriminate].
  intros E. injection E as <- <-. exists (t_events F s'). split; [exists s'; auto|auto].
Qed.
Ltac gives_ := apply view_gives; vm_compute; reflexivity.
Definition fails (cf : bool) (s : string) : Prop := forall ev, ~ reads_file F cf cf (source s) ev.
Lemma view_fails cf s : view cf s = None -> fails cf s.
Proof. unfold view. intros V ev (s' & E & D & T & _). rewrite E, D, T in V. discriminate V. Qed.
Ltac fails_ := apply view_fails; vm_compute; reflexivity.

(** ** C57 *)
Definition small : string := "/obj/item" ++ nl ++ "	name = 1" ++ nl ++ "	var/tmp/list/x[3] = 2" ++ nl ++ "	proc/f(a, mob/b = 1 as num)" ++ nl ++ "		return a" ++ nl ++ "/mob" ++ nl.
Example C57_ex1 : gives false small [path ["obj"]; path ["obj"; "item"]; path ["mob"]]%string
  [ (path ["obj"; "item"]%string, lit "name", MSet (num 1));
    (path ["obj"; "item"]%string, lit "x", MVar (vt 8 ["list"; "list"]%string) None (Some (num 2)));
    (path ["obj"; "item"]%string, lit "f", MProc (Some {| d_verb := false; d_final := false |})
       [ {| q_type := vt 0 []; q_name := lit "a"; q_default := None; q_input := None; q_in := None |};
         {| q_type := vt 0 ["mob"]%string; q_name := lit "b"; q_default := Some (num 1); q_input := Some 8%N; q_in := None |} ] None
       [P PLBrace; TIdent F (lit "return") true; TIdent F (lit "a") false; P PRBrace]) ].
Proof. gives_. Qed.

Example C57_ex1_grammar : exists ds, file_at F false false ds (source small) /\ members_of F ds <> [].
Proof.
  destruct C57_ex1 as (ev & H & _ & M). destruct (C57_sound F _ _ _ _ H) as (ds & HD & B & _). exists ds. split; [exact HD|]. rewrite <- B, M. discriminate.
Qed.
(** the configuration wants absolute paths *)
Example C57_ex2 : fails true small.
Proof. fails_. Qed.
(** words in paths: a second [proc] or [var] makes those before it void *)
Example C57_ex3 : gives true "/obj/verb/final/proc/g(); /obj/var/const/mob/var/tmp/turf/x; /obj/var{y; z = 2}; /obj/var/proc/p"
  [path ["obj"]]%string
  [ (path ["obj"]%string, lit "g", MProc (Some {| d_verb := false; d_final := false |}) [] None [P PSemicolon]);
    (path ["obj"]%string, lit "x", MVar (vt 8 ["turf"]%string) None None);
    (path ["obj"]%string, lit "y", MVar (vt 0 []) None None);
    (path ["obj"]%string, lit "z", MVar (vt 0 []) None (Some (num 2)));
    (path ["obj"]%string, lit "p", MVar (vt 0 ["proc"]%string) None None) ].
Proof. gives_. Qed.
(** operators, return types *)
Example C57_ex4 : gives true "/v/operator+(x) return x; /v/operator[]=(i, y); /v/proc/h() as num|text; /v/proc/k() as /a/b {}"
  [path ["v"]]%string
  [ (path ["v"]%string, lit "operator+", MProc None [{| q_type := vt 0 []; q_name := lit "x"; q_default := None; q_input := None; q_in := None |}] None
       [TIdent F (lit "return") true; TIdent F (lit "x") false; P PSemicolon]);
    (path ["v"]%string, lit "operator[]=", MProc None [{| q_type := vt 0 []; q_name := lit "i"; q_default := None; q_input := None; q_in := None |};
       {| q_type := vt 0 []; q_name := lit "y"; q_default := None; q_input := None; q_in := None |}] None [P PSemicolon]);
    (path ["v"]%string, lit "h", MProc (Some {| d_verb := false; d_final := false |}) [] (Some (RInput 12)) [P PSemicolon]);
    (path ["v"]%string, lit "k", MProc (Some {| d_verb := false; d_final := false |}) [] (Some (RPath (path ["a"; "b"]%string))) [P PLBrace; P PRBrace]) ].
Proof. gives_. Qed.
Example C57_ex5 : fails false "/obj/proc/f".          (* no body *)
Proof. fails_. Qed.
Example C57_ex6 : fails false "/obj/var/static".      (* no effect *)
Proof. fails_. Qed.
Example C57_ex7 : fails false "/obj{/mob}".           (* an absolute path inside of a type *)
Proof. fails_. Qed.
Example C57_ex8 : fails false "/obj/proc/sub/f()".    (* a type among the procedures *)
Proof. fails_. Qed.
Example C57_ex9 : fails false "/obj/f() as num".      (* a return type on an override *)
Proof. fails_. Qed.
Example C57_ex10 : fails false "/obj/f(var/x)".
Proof. fails_. Qed.
Example C57_ex11 : fails false "/obj/x = ".
Proof. fails_. Qed.
(** the grammar does not say that sizes mean nothing after a procedure *)
Example C57_ex12 : gives true "/obj/var/x[3](){}" [path ["obj"]]%string [(path ["obj"]%string, lit "x", MProc None [] None [P PLBrace; P PRBrace])].
Proof. gives_. Qed.
(** the code of [f] in [small] *)
Example C57_code_ex : code_of F [P PLBrace; TIdent F (lit "return") true; TIdent F (lit "a") false; P PRBrace] = Some [Return (Some (id "a"))].
Proof. vm_compute. reflexivity. Qed.

(** ** C58 *)
Definition obj_item : list (token F) := [TIdent F (lit "obj") false; P PSlash; TIdent F (lit "item") false; P PSlash].
Definition name_1 : list (token F) := [TIdent F (lit "name") false; P PSemicolon].
Example C58_written : written F (path ["obj"; "item"]%string) obj_item.
Proof. repeat constructor. Qed.
Example C58_met : relative F name_1 /\ entry_at F true true (path ["obj"; "item"]%string) [DType F (path ["obj"; "item"; "name"]%string)] name_1 [P PSemicolon].
Proof.
  split; [repeat eexists|]. apply (E_type F true true (path ["obj"; "item"]%string) false [] (lit "name")).
  - exists (lit "name"), [P PSemicolon]. split; [|constructor; intros E; discriminate E]. constructor. apply (Na_last F (lit "name") false 0); intros ? ?; first [discriminate|congruence].
  - discriminate.
  - repeat constructor; discriminate.
  - repeat split; discriminate.
  - repeat split; intros ? ?; discriminate.
  - intros _ _ [_ []].
Qed.
Example C58_met_out : entry_at F true true [] [DType F (path ["obj"; "item"; "name"]%string)] (P PSlash :: obj_item ++ name_1) [P PSemicolon].
Proof. destruct C58_met as [HR H]. apply (C58_out_of_blocks F true true (path ["obj"; "item"]%string)); [exact C58_written|exact HR|exact H]. Qed.
Definition one_type : list (list text) := [path ["obj"]; path ["obj"; "a"]; path ["obj"; "a"; "b"]]%string.
Example C58_ex1 : gives false "/obj{a{b{x = 1}}}" one_type [(path ["obj"; "a"; "b"]%string, lit "x", MSet (num 1))].
Proof. gives_. Qed.
Example C58_ex2 : gives false "/obj/a/b/x = 1" one_type [(path ["obj"; "a"; "b"]%string, lit "x", MSet (num 1))].
Proof. gives_. Qed.

(** ** C59 *)
(** What C59 says: the parser does not panic, whatever is in the file. *)
Definition never_panics : Prop := forall (text : list N) out st,
  match lex F (fun t => Some t) (fun t => t) [] text with Lexer.Model.Ok (ts, _) => process F L start ts out (Some st) | _ => False end ->
  forall s, parse_file F false false (map snd out) <> TPanic F s.
Definition the_file : string := "/obj{proc/f(){return(})".
Theorem C59_refuted : ~ never_panics.
Proof.
  intros H. specialize (H (lit the_file)).
  set (x := lex F _ _ [] (lit the_file)) in H. vm_compute in x. subst x. cbv iota in H.
  set (ts := (_ :: _)) in H at 1. set (o := indented ts (inew L start)). assert (E : o = outcome F L ts (inew L start)) by apply indented_eq.
  vm_compute in o. unfold o in E. clear o. symmetry in E. apply (proj2 (process_iff F L start _ _ _)) in E. specialize (H _ _ E).
  match type of H with context [map snd ?l] => set (u := map snd l) in H end. vm_compute in u.
  assert (Q : exists s, parse_file F false false u = TPanic F s) by (vm_compute; eexists; reflexivity). destruct Q as [s Q]. exact (H s Q).
Qed.
(** the hypothesis of C59_open_block: [obj { x] up to the end *)
Definition open_file : list (token F) := [TIdent F (lit "obj") false; P PLBrace; TIdent F (lit "x") false].
Example C59_open_met : open_at F false false [DType F (path ["obj"; "x"]%string)] open_file.
Proof.
  assert (HN : forall w r, not_punct F PSlash r -> not_punct F PDot r -> not_punct F PColon r -> not_punct F PCloseColon r -> names_at F [w] (TIdent F w false :: r) r).
  { intros w r N1 N2 N3 N4. apply (Na_last F w false 0); auto. congruence. }
  apply (Open F false false false [] (lit "obj") root_place {| c_type := path ["obj"]%string; c_proc := None; c_var := None |} [] _ _ (skipn 1 open_file) [TIdent F (lit "x") false]).
  - exists (lit "obj"), (skipn 1 open_file). split; [|constructor; intros E; discriminate E]. constructor. apply HN; intros ? ?; discriminate.
  - apply (Le_type []). constructor.
  - apply Su_none. reflexivity.
  - apply (Le_type [lit "obj"]). repeat constructor; discriminate.
  - intros E; discriminate E.
  - apply (Es_entry F false false [lit "obj"] false [DType F (path ["obj"; "x"]%string)] [] _ [] []); [|constructor].
    apply (E_type F false false [lit "obj"] false [] (lit "x")).
    + exists (lit "x"), []. split; [|constructor; intros E; discriminate E]. constructor. apply HN; intros ? ?; discriminate.
    + discriminate.
    + repeat constructor; discriminate.
    + repeat split; discriminate.
    + repeat split; intros ? ?; discriminate.
    + intros E; discriminate E.
Qed.

Example C59_open : exists s, parse_file F false false open_file = TPanic F s.
Proof. exact (C59_open_block F false false open_file _ C59_open_met). Qed.

Print Assumptions C57_terminates.
Print Assumptions C57_sound.
Print Assumptions C57_complete.
Print Assumptions C57_unambiguous.
Print Assumptions C57_accepted.
Print Assumptions C57_code.
Print Assumptions C58_out_of_blocks.
Print Assumptions C58_nesting.
Print Assumptions C59_no_panic_partial.
Print Assumptions C59_panic_at_end.
Print Assumptions C59_open_block.
Print Assumptions C59_refuted.
