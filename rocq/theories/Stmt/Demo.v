(** The theorems of Props on concrete programs, from their text. *)
From Coq Require Import List NArith ZArith Bool String.
From Verif Require Import Common.Text Lexer.Punct Lexer.Model Parse.Ast Parse.Model Parse.Spec Parse.Props Stmt.Ast Stmt.Model Stmt.Spec Stmt.Props.
Import ListNotations.
Open Scope nat_scope.

Notation F := text.
Notation P p := (TPunct F p).
Definition tokens_of (s : string) : list (token F) :=
  match lex F (fun t => Some t) (fun t => t) [] (lit s) with Lexer.Model.Ok (ts, _) => map snd ts | _ => [] end.
Definition id (s : string) : expr F := Base (MIdent (lit s)) [].
Definition num (z : Z) : expr F := Base (MInt z) [].
Definition local (s : string) (o : option (expr F)) : vardecl F := {| v_type := {| v_flags := 0; v_path := [] |}; v_name := lit s; v_value := o |}.
Definition gives (s : string) (b : block F) : Prop := reads_body F (tokens_of s) b [P PNewline].
Definition fails (s : string) : Prop := forall b rest, ~ reads_body F (tokens_of s) b rest.
Ltac fails_ := intros e rest H; vm_compute in H; discriminate H.

Example C55_ex1 : gives "{x = 1; return x}" [Expr (Assign AAssign (id "x") (num 1)); Return (Some (id "x"))].
Proof. reflexivity. Qed.
Example C55_ex1_grammar : block_at F [Expr (Assign AAssign (id "x") (num 1)); Return (Some (id "x"))] (tokens_of "{x = 1; return x}") [P PNewline].
Proof. exact (proj1 (C55_parser_is_grammar F _ _ _) C55_ex1). Qed.
(** a dangling else; semicolons between the branches *)
Example C55_ex2 : gives "{if(a) if(b) c(); else d();}"
  [If [(id "a", [If [(id "b", [Expr (Base (MCall (lit "c") []) [])])] (Some [Expr (Base (MCall (lit "d") []) [])])])] None].
Proof. reflexivity. Qed.
Example C55_ex3 : gives "{if(a) {;} ; ; else if(b) {} else return}" [If [(id "a", []); (id "b", [])] (Some [Return None])].
Proof. reflexivity. Qed.
Example C55_ex4 : gives "{while(a) break; do {continue foo} while(b); spawn(5) del x; spawn return;}"
  [While (id "a") [Break None]; DoWhile [Continue (Some (lit "foo"))] (id "b"); Spawn (Some (num 5)) [Del (id "x")]; Spawn None [Return None]].
Proof. reflexivity. Qed.
(** variables *)
Example C55_ex5 : gives "{var/static/obj/x = 1, y[5]; var/list/z[][]}"
  [Vars [{| v_type := {| v_flags := 1; v_path := [lit "obj"] |}; v_name := lit "x"; v_value := Some (num 1) |};
         {| v_type := {| v_flags := 0; v_path := [lit "list"] |}; v_name := lit "y"; v_value := Some (Base (MNewPrefab [(PathSlash, lit "list")] [] (Some [num 5])) []) |}];
   Var {| v_type := {| v_flags := 0; v_path := [lit "list"; lit "list"] |}; v_name := lit "z"; v_value := None |}].
Proof. reflexivity. Qed.
(** a second [var] is taken for the type of the second variable *)
Example C55_ex6 : gives "{var/a, var/b}"
  [Vars [local "a" None; {| v_type := {| v_flags := 0; v_path := [lit "var"] |}; v_name := lit "b"; v_value := None |}]].
Proof. reflexivity. Qed.
(** loops *)
Example C55_ex7 : gives "{for() {} for(i = 1; i < 5; ++i) {} for(var/i = 1, i < 5, i++) {}}"
  [ForInfinite [];
   ForLoop (Some (Expr (Assign AAssign (id "i") (num 1)))) (Some (Bin BLess (id "i") (num 5))) (Some (Expr (Base (MIdent (lit "i")) [FUnary PreIncr]))) [];
   ForLoop (Some (Var (local "i" (Some (num 1))))) (Some (Bin BLess (id "i") (num 5))) (Some (Expr (Base (MIdent (lit "i")) [FUnary PostIncr]))) []].
Proof. reflexivity. Qed.
Example C55_ex8 : gives "{for(var/mob/m in L) {} for(x in 1 to 5) {} for(x = 1 to 5 step 2) {} for(var/x in 1 to 5) {} for(var/m) {} for(var/k, v in L) {}}"
  [ForList (Some {| v_flags := 0; v_path := [lit "mob"] |}) (lit "m") None (Some (id "L")) [];
   ForRange None (lit "x") (num 1) (num 5) None [];
   ForRange None (lit "x") (num 1) (num 5) (Some (num 2)) [];
   ForRange (Some {| v_flags := 0; v_path := [] |}) (lit "x") (num 1) (num 5) None [];
   ForList (Some {| v_flags := 0; v_path := [] |}) (lit "m") None None [];
   ForKeyValue (Some {| v_flags := 0; v_path := [] |}) (lit "k") None (lit "v") (Some (id "L")) []].
Proof. reflexivity. Qed.
(** switch, try, set, labels *)
Example C55_ex9 : gives "{switch(x) {if(1, 2 to 5,) a = 1; ; if(6) {} else return}}"
  [Switch (id "x") [([Exactly (num 1); Between (num 2) (num 5)], [Expr (Assign AAssign (id "a") (num 1))]); ([Exactly (num 6)], [])] (Some [Return None])].
Proof. reflexivity. Qed.
Example C55_ex10 : gives "{try {throw 1} catch(var/exception/e) {CRASH(e)}; set src in view(); set name = 1; goto out; out: {goto out}}"
  [TryCatch [Throw (num 1)] [[lit "var"; lit "exception"; lit "e"]] [Crash (Some (id "e"))];
   Setting (lit "src") SetIn (Base (MCall (lit "view") []) []); Setting (lit "name") SetAssign (num 1); Goto (lit "out"); Label (lit "out") [Goto (lit "out")]].
Proof. reflexivity. Qed.
(** a semicolon may come after a case, but not after the default *)
Example C55_ex11 : gives "{switch(x) {if(1) {} ; else {}}}" [Switch (id "x") [([Exactly (num 1)], [])] (Some [])].
Proof. reflexivity. Qed.
Example C55_ex12 : fails "{switch(x) {if(1) {} else {} ; }}".
Proof. fails_. Qed.
(** what stands after the block is not looked at *)
Example C55_ex13 : reads_body F (tokens_of "{return} ) ) (") [Return None] [P PRParen; P PRParen; P PLParen; P PNewline].
Proof. reflexivity. Qed.
Example C55_ex14 : fails "{return".
Proof. fails_. Qed.
Example C55_ex15 : fails "{if a return}".
Proof. fails_. Qed.
Example C55_ex16 : fails "{for(a + b in L) {}}".
Proof. fails_. Qed.
Example C55_ex17 : fails "{else return}".
Proof. fails_. Qed.
Example C55_ex18 : fails "{switch(x) {if() {}}}".
Proof. fails_. Qed.
Example C55_ex19 : fails "{var/tmp/x}".
Proof. fails_. Qed.

(** ** Filters *)
Example C56_ex1 : gives "{for(var/k as mob|obj, v in L) {}}" [ForKeyValue (Some {| v_flags := 0; v_path := [] |}) (lit "k") (Some 3%N) (lit "v") (Some (id "L")) []].
Proof. reflexivity. Qed.
Example C56_ex2 : gives "{for(var/m as mob|obj in L) {}}" [ForList (Some {| v_flags := 0; v_path := [] |}) (lit "m") None (Some (id "L")) []].
Proof. reflexivity. Qed.
(** also without [in] *)
Example C56_ex3 : gives "{for(m as mob) {}}" [ForList None (lit "m") None None []].
Proof. reflexivity. Qed.
(** [for(var/m as mob in L);] *)
Definition the_loop : list (token F) :=
  [TIdent F (lit "var") false; P PSlash; TIdent F (lit "m") true; TIdent F (lit "as") true; TIdent F (lit "mob") true; P PIn; TIdent F (lit "L") false; P PRParen; P PSemicolon].
Definition the_var : stmt F := Var (local "m" None).
Lemma the_parts : loop_var F the_var (Some {| v_flags := 0; v_path := [] |}) (lit "m") /\ simple_at F true the_var the_loop (skipn 3 the_loop) /\ itype_at F 1 (skipn 4 the_loop) (skipn 5 the_loop) /\ expr_at F (id "L") (skipn 6 the_loop) (skipn 7 the_loop) /\ block_at F [] (skipn 8 the_loop) [].
Proof.
  cbn [skipn the_loop]. split; [constructor|]. split; [|split; [|split]].
  - apply Si_var_for. apply (De_plain F [] (lit "m") 0 [] []) with (t1 := skipn 3 the_loop); cbn [skipn the_loop].
    + apply Pa_absolute. apply (Na_last F (lit "m") true 0); intros ? ?; try discriminate. congruence.
    + constructor. exact I.
    + constructor. intros ? ?; discriminate.
    + intros ? ?; discriminate.
  - exists [TIdent F (lit "mob") true]. eexists. split; [reflexivity|]. split; [apply Itype_names; constructor; reflexivity|]. reflexivity.
  - exists [TIdent F (lit "L") false]. exists (either F (follow_start F true false) (punct_in F [PLParen])). split; [reflexivity|]. split.
    + eapply S_group. apply (G F false [] [] (MIdent (lit "L")) true [TIdent F (lit "L") false] (punct_in F [PLParen]) [] []); constructor.
      intros H. vm_compute in H. intuition discriminate.
    + repeat split; intros H; try discriminate H; exfalso; apply H; reflexivity.
  - apply B_none. constructor.
Qed.
Theorem C56_refuted : ~ list_filters_recorded F.
Proof.
  intros H. destruct the_parts as (H1 & H2 & H3 & H4 & H5).
  specialize (H _ _ _ _ _ _ false _ _ _ _ _ _ H1 H2 H3 H4 H5).
  pose proof (C56_filter_of_list_lost F _ _ _ _ _ _ _ _ _ _ _ _ _ _ _ H1 H2 H3 H4 H5 H) as E. discriminate E.
Qed.
(** the hypotheses of C55_nearest_else: the derivation behind C55_ex2 *)
Example C55_nearest_else_met : exists ts t1 t2 t3 rest,
  parens_at F (id "a") ts (TIdent F (lit "if") false :: t1) /\ parens_at F (id "b") t1 t2 /\ stmt_at F (Return None) t2 (TIdent F (lit "else") true :: t3) /\ not_word F (lit "if") t3 /\ block_at F [Return None] t3 rest /\ not_punct F PSemicolon rest /\ not_word F (lit "else") rest.
Proof.
  set (nm := fun i (r : list (token F)) => TIdent F (lit i) false :: r).
  set (ret := TIdent F (lit "return") false).
  assert (PA : forall i r, ~ In (lit i) reserved -> parens_at F (id i) (P PLParen :: nm i (P PRParen :: r)) r).
  { intros i r Hi. constructor. exists [TIdent F (lit i) false]. exists (either F (follow_start F true false) (punct_in F [PLParen])). split; [reflexivity|]. split.
    - eapply S_group. apply (G F false [] [] (MIdent (lit i)) true [TIdent F (lit i) false] (punct_in F [PLParen]) [] []); constructor. exact Hi.
    - repeat split; intros H; try discriminate H; exfalso; apply H; reflexivity. }
  assert (RT : forall r, stmt_at F (Return None) (ret :: P PSemicolon :: r) r).
  { intros r. eapply X_simple; [|apply Si_return, Oe_none; reflexivity|apply En_semicolon].
    intros w. cbn [block_words In]. intros Hw ws q E. injection E as <- _ _. repeat (destruct Hw as [Hw|Hw]; [vm_compute in Hw; discriminate Hw|]). destruct Hw. }
  exists (P PLParen :: nm "a"%string (P PRParen :: nm "if"%string (P PLParen :: nm "b"%string (P PRParen :: ret :: P PSemicolon :: TIdent F (lit "else") true :: [ret; P PSemicolon])))),
    (P PLParen :: nm "b"%string (P PRParen :: ret :: P PSemicolon :: TIdent F (lit "else") true :: [ret; P PSemicolon])),
    (ret :: P PSemicolon :: TIdent F (lit "else") true :: [ret; P PSemicolon]), [ret; P PSemicolon], [].
  split; [|split; [|split; [|split; [|split; [|split]]]]].
  - apply (PA "a"%string). intros H. vm_compute in H. intuition discriminate.
  - apply (PA "b"%string). intros H. vm_compute in H. intuition discriminate.
  - apply RT.
  - intros ws q E. injection E as E _ _. vm_compute in E. discriminate E.
  - apply B_one, RT.
  - intros ? ?; discriminate.
  - intros ? ? ?; discriminate.
Qed.

Print Assumptions C55_terminates.
Print Assumptions C55_parser_is_grammar.
Print Assumptions C55_unambiguous.
Print Assumptions C55_unambiguous_statement.
Print Assumptions C55_nearest_else.
Print Assumptions C56_filter_of_keys_partial.
Print Assumptions C56_filter_of_list_lost.
Print Assumptions C56_filter_of_list_partial.
Print Assumptions C56_refuted.
