(** C41: preprocessing ends unless a file was marked with #pragma multiple. *)
From Coq Require Import List ZArith NArith Bool Lia Arith String.
From Verif Require Import Common.Text Loc.Model Lexer.Punct.
From Verif Require Lexer.Model.
From Verif Require Import Pp.Model Pp.Steps Pp.Flat Pp.Term Pp.Demo.
Import ListNotations.
Open Scope nat_scope.

(** C41: the file system has finitely many files; no state that the run passes through has a file marked by
    #pragma multiple.  Then the run ends - with its tokens or with a panic -, whatever the files include and the macros
    expand to. *)
Theorem C41_ends : forall (F P : Type) (W : @world F P) (files : list Z) env toks defs l0,
  (forall p content, w_open W p = Some content -> In (w_file_id W p) files) ->
  (forall s, visits W false (init env toks defs l0) s -> multiple_locations s = []) ->
  exists n r, r <> Stuck /\ forall fuel, n <= fuel -> run W fuel (init env toks defs l0) = r.
Proof.
  intros F P W files env toks defs l0 Hf V. destruct (run_ends W files Hf (init env toks defs l0)) as [n Hn].
  - constructor; cbn.
    + lia.
    + lia.
    + constructor.
    + intros x [].
  - reflexivity.
  - exact V.
  - exists n, (run W n (init env toks defs l0)). split; [exact Hn|]. intros fuel L. apply (run_mono W n fuel L). exact Hn.
Qed.

(** a file that includes itself: the hypotheses hold, and the run ends *)
Definition loop_files (pragma : list (list dtok)) : list (text * (Z * list (list dtok))) :=
  [(lit "a.dm", (2%Z, pragma ++ [[Pu PHash; Id "include"; Str "a.dm"]; [Id "X"]]))].
Definition loop_init : @state unit text := init (lit "env.dme") (file_toks 1 1 [[Pu PHash; Id "include"; Str "a.dm"]]) [] (0, (0, 0))%Z.
Example C41_demo : (forall p content, w_open (demo_world (loop_files [])) p = Some content -> In (w_file_id (demo_world (loop_files [])) p) [2%Z]) /\
  (forall s, visits (demo_world (loop_files [])) false loop_init s -> multiple_locations s = []) /\
  match run (demo_world (loop_files [])) 30 loop_init with Ok (ts, s) => errs s = [EDuplicateInclude] | _ => False end.
Proof.
  split; [|split; [|vm_compute; reflexivity]].
  - intros p content H. cbn [w_open w_file_id demo_world look loop_files app] in *. destruct (text_eqb (lit "a.dm") p); [left; reflexivity | discriminate].
  - intros s V. unfold loop_init in V.
    repeat (inversion V as [c0 s0 Ha Hb|c0 s0 l t s1 fuel s2 s' En Hnl Hr V' Ha Hb Hc|c0 s0 l s1 a s' En Hcond V' Ha Hb Hc]; subst; clear V;
      [reflexivity | vm_compute in En; first [discriminate En | injection En as <- <- <-; vm_compute in Hr; injection Hr as <-; clear fuel Hnl; rename V' into V; cbn in V] |
       exfalso; vm_compute in En; first [discriminate En | injection En as <- <-; destruct Hcond as (l1 & n1 & w1 & x1 & E1 & D); vm_compute in E1; first [discriminate E1 | injection E1 as <- <- <- <-; destruct D as [[D _]|[D _]]; vm_compute in D; discriminate D]]]).
Qed.
(** With #pragma multiple a file that includes itself is entered again and again: no fuel suffices. *)
Definition multi_world : @world unit text := demo_world (loop_files [[Pu PHash; Id "pragma"; Id "multiple"]]).
Definition multi_toks : list (loc * dtok) := file_toks 2 1 [[Pu PHash; Id "pragma"; Id "multiple"]; [Pu PHash; Id "include"; Str "a.dm"]; [Id "X"]].
Definition stuck_to (f : nat) (s : @state unit text) : Prop := forall f', f' <= f -> run multi_world f' s = Stuck.
Lemma stuck_tok : forall f s l t s1 s2, output s = [] -> inner_next s = (Some (l, t), s1) -> (forall ev, real_next multi_world ev t false (set_loc l s1) = Ok s2) -> stuck_to f s2 -> stuck_to (S f) s.
Proof. intros f s l t s1 s2 Ho En Hr H f' L. destruct f' as [|f']; [reflexivity|]. cbn [run]. rewrite Ho, En, Hr. cbn [bind]. apply H. lia. Qed.
Lemma stuck_out : forall f s t out, output s = t :: out -> stuck_to f (set_output out s) -> stuck_to (S f) s.
Proof. intros f s t out Ho H f' L. destruct f' as [|f']; [reflexivity|]. cbn [run]. rewrite Ho. rewrite (H f' ltac:(lia)). reflexivity. Qed.
Definition entered (e : text) l0 ml l ih h d m1 m2 m3 ii er rest : @state unit text :=
  {| env_file := e; stack := IFile (lit "a.dm") multi_toks :: rest; include_locations := [(2%Z, l0)]; multiple_locations := ml; last_input_loc := l; output := []; ifdef_stack := []; ifdef_history := ih;
     history := h; defines := d; maps := m1; skins := m2; scripts := m3; in_interp := ii; docs_in := []; errs := er |}.
Lemma multi_loop : forall f e l0 ml l ih h d m1 m2 m3 ii er rest, stuck_to f (entered e l0 ml l ih h d m1 m2 m3 ii er rest).
Proof.
  induction f as [|f IH]; intros e l0 ml l ih h d m1 m2 m3 ii er rest.
  - intros f' L. replace f' with 0 by lia. reflexivity.
  - assert (H : stuck_to (S (S (S (S (S (S f)))))) (entered e l0 ml l ih h d m1 m2 m3 ii er rest)); [|intros f' L; apply H; lia].
    eapply stuck_tok; [reflexivity | vm_compute; reflexivity | intro ev; vm_compute; reflexivity|]. eapply stuck_out; [reflexivity|].
    eapply stuck_tok; [reflexivity | vm_compute; reflexivity | intro ev; vm_compute; reflexivity|]. eapply stuck_out; [reflexivity|].
    eapply stuck_tok; [reflexivity | vm_compute; reflexivity | intro ev; vm_compute; reflexivity|]. eapply stuck_out; [reflexivity|].
    match goal with |- stuck_to _ ?s => let s' := eval vm_compute in s in change s with s' end. refine (IH _ _ _ _ _ _ _ _ _ _ _ _ _).
Qed.
Theorem C41_multiple_refuted : forall fuel, run multi_world fuel loop_init = Stuck.
Proof.
  intro fuel. assert (H : stuck_to (S (S fuel)) loop_init); [|apply H; lia].
  eapply stuck_tok; [reflexivity | reflexivity | intro ev; vm_compute; reflexivity|]. eapply stuck_out; [reflexivity|].
  apply multi_loop.
Qed.
Print Assumptions C41_ends.
Print Assumptions C41_multiple_refuted.

(** The end may be a panic: with [#define F(x, y) y] the call [F("a[b, c]d")] expands to the end of a string that was not
    begun, and the counter of open strings is decremented below zero (in builds with overflow checks). *)
Example C41_panic : exists n, forall fuel, n <= fuel ->
  run (demo_world []) fuel (init (lit "env.dme") (file_toks 1 1
    [[Pu PHash; Id "define"; Id "F"; Pu PLParen; Id "x"; Pu PComma; Id "y"; Pu PRParen; Id "y"];
     [Id "F"; Pu PLParen; Lexer.Model.TInterpBegin unit (lit "a"); Id "b"; Pu PComma; Id "c"; Lexer.Model.TInterpEnd unit (lit "d"); Pu PRParen]]) [] (0, (0, 0))%Z) = Panic.
Proof.
  exists 20. intros fuel L. rewrite (run_mono _ 20 fuel L); [vm_compute; reflexivity | vm_compute; discriminate].
Qed.
