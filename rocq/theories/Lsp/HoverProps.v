(** C77: what is shown of the name at a place. *)
From Coq Require Import List Arith NArith Bool String Lia Relations.
From Verif Require Import Common.Text Parse.Ast Objtree.Ispath Objtree.Model Objtree.Lemmas Objtree.Spec Objtree.Wf Objtree.Assign Objtree.Paths Objtree.Inherit Objtree.Calls.
From Verif Require Import Lsp.Completion Lsp.CompletionSpec Lsp.CompletionProps Lsp.Goto Lsp.GotoSpec Lsp.GotoProps Lsp.Hover Lsp.HoverSpec.
Import ListNotations.
Open Scope nat_scope.

(** ** Collecting *)
(** [None]: there is something, but not to be had *)
Fixpoint gather {A : Type} (f : nat -> option (option A)) (js : list nat) : option (list A) :=
  match js with
  | [] => Some []
  | j :: js' => match f j with
                | None => None
                | Some None => gather f js'
                | Some (Some a) => match gather f js' with Some l => Some (a :: l) | None => None end
                end
  end.
Lemma gather_iff {A : Type} (f : nat -> option (option A)) (needs : nat -> Prop) (R : nat -> A -> Prop) js : (forall j, f j = Some None <-> ~ needs j) -> (forall j a, f j = Some (Some a) <-> needs j /\ R j a) ->
  forall l, gather f js = Some l <-> collects needs R js l.
Proof.
  intros F1 F2. induction js as [|j js IH]; intro l; cbn [gather].
  - split; [intro Q; injection Q as <-; constructor|]. intro H. inversion H; reflexivity.
  - destruct (f j) as [[a|]|] eqn:E.
    + apply F2 in E. destruct E as [N Ra]. destruct (gather f js) as [l'|].
      * split; [intro Q; injection Q as <-; apply co_take; [exact N|exact Ra|apply IH; reflexivity]|]. intro H. inversion H as [|? a' ? l2 _ Ra' H'|? ? ? N' _]; subst; [|destruct (N' N)].
        apply IH in H'. injection H' as <-. assert (Q : f j = Some (Some a)) by (apply F2; auto). assert (Q' : f j = Some (Some a')) by (apply F2; auto). congruence.
      * split; [discriminate|]. intro H. inversion H as [|? a' ? l2 _ Ra' H'|? ? ? N' _]; subst; [|destruct (N' N)]. apply IH in H'. discriminate.
    + apply F1 in E. rewrite IH. split; [intro H; apply co_skip; assumption|]. intro H. inversion H as [|? a' ? l2 N Ra' H'|? ? ? N' H']; subst; [destruct (E N)|exact H'].
    + split; [discriminate|]. intro H. inversion H as [|? a' ? l2 N Ra' H'|? ? ? N' H']; subst.
      * assert (Q : f j = Some (Some a')) by (apply F2; auto). congruence.
      * apply F1 in N'. congruence.
Qed.
Lemma gather_app {A : Type} (f : nat -> option (option A)) js js' : gather f (js ++ js') = match gather f js, gather f js' with Some l, Some l' => Some (l ++ l') | _, _ => None end.
Proof.
  induction js as [|j js IH]; cbn [app gather]; [destruct (gather f js'); reflexivity|]. destruct (f j) as [[a|]|]; [|exact IH|reflexivity]. rewrite IH. destruct (gather f js) as [l|]; [|reflexivity]. destruct (gather f js'); reflexivity.
Qed.
(** what is there is always to be had *)
Definition sure {A : Type} (f : nat -> option A) (j : nat) : option (option A) := Some (f j).
Lemma sure_iff {A : Type} (f : nat -> option A) (R : nat -> A -> Prop) js : (forall j a, f j = Some a <-> R j a) -> forall l, gather (sure f) js = Some l <-> collects (some R) R js l.
Proof.
  intros H. apply gather_iff; unfold sure, some.
  - intro j. split; [intros Q (a & Ra); apply H in Ra; congruence|]. intro N. destruct (f j) as [a|] eqn:E; [|reflexivity]. destruct N. exists a. apply H. exact E.
  - intros j a. split; [intro Q; injection Q as Q; apply H in Q; eauto|]. intros [_ Ra]. apply H in Ra. congruence.
Qed.
Lemma sure_some {A : Type} (f : nat -> option A) js : exists l, gather (sure f) js = Some l.
Proof. induction js as [|j js (l & IH)]; cbn [gather]; [eauto|]. unfold sure at 1. destruct (f j); [rewrite IH|]; eauto. Qed.
(** the documentation of the topmost *)
Definition top (f : nat -> option text) (js : list nat) (d : option text) : option text := fold_left (fun s j => newer (f j) s) js d.
Definition listed_docs (d : option text) : list text := match d with Some d => [d] | None => [] end.
Lemma top_gather f js : forall d, match gather (sure f) js with Some l => top f js d = match rev l with [] => d | x :: _ => Some x end | None => False end.
Proof.
  induction js as [|j js IH]; intro d; cbn [gather]; [reflexivity|]. unfold sure at 1. unfold top. cbn [fold_left]. fold (top f js (newer (f j) d)). specialize (IH (newer (f j) d)). destruct (gather (sure f) js) as [l|]; [|destruct IH].
  destruct (f j) as [x|]; cbn [newer] in *; [|destruct (gather (sure f) js); exact IH]. rewrite IH. cbn [rev]. destruct (rev l) as [|y r]; reflexivity.
Qed.
Lemma top_iff f (R : nat -> text -> Prop) js ds : (forall j a, f j = Some a <-> R j a) -> ((exists docs, collects (some R) R js docs /\ top_docs docs ds) <-> ds = listed_docs (top f js None)).
Proof.
  intro H. destruct (sure_some f js) as (l & E). pose proof (top_gather f js None) as Tp. rewrite E in Tp. pose proof (sure_iff f R js H) as S. split.
  - intros (docs & C & Td). apply S in C. rewrite E in C. injection C as <-. rewrite Tp. destruct Td as [|docs d]; [reflexivity|]. rewrite rev_app_distr. reflexivity.
  - intros ->. exists l. split; [apply S; exact E|]. rewrite Tp. destruct (rev l) as [|x r] eqn:Q; cbn [listed_docs].
    + assert (l = []) by (rewrite <- (rev_involutive l), Q; reflexivity). subst l. constructor.
    + rewrite <- (rev_involutive l), Q. cbn [rev]. constructor.
Qed.
Lemma with_docs_app rs d : with_docs rs d = rs ++ listed_docs d.
Proof. destruct d; cbn [with_docs listed_docs]; [reflexivity|]. rewrite app_nil_r. reflexivity. Qed.
Lemma join_joined sep l : join sep l = joined sep l.
Proof. induction l as [|a [|b l] IH]; [reflexivity|reflexivity|]. cbn [join joined] in *. rewrite IH. reflexivity. Qed.

Section PROPS.
Variables V D L : Type.
Variable t : objtree V D.
Variable hvars : nat -> list (text * hvar L).
Variable value_params : V -> list hparam.
Variable value_loc : V -> L.
Variable value_docs : V -> option text.
Variable kind_name : D -> text.
Variable macro_docs : L -> option text.
Variable builtin : L -> bool.
Variable file_link : L -> option text.
Hypothesis T : tidy V D t.
Hypothesis AC : acyclic t.
Notation mark := (mark L). Notation pvars := (plain_vars L hvars). Notation pparams := (plain_params V value_params).
Notation location_link := (location_link L builtin file_link). Notation linked := (linked L builtin file_link). Notation titled := (titled V D L t builtin file_link). Notation pretty_path := (pretty_path V D t).
Notation header := (header V value_params). Notation value_at := (value_at V D t). Notation proc_at := (proc_at V D t). Notation var_at := (var_at L hvars).
Notation var_documented := (var_documented L hvars). Notation proc_documented := (proc_documented V D t value_docs).
Notation var_entry := (var_entry V D L t hvars builtin file_link). Notation proc_entry := (proc_entry V D L t value_params value_loc kind_name builtin file_link).
Notation var_use := (var_use V D L t hvars builtin file_link). Notation page := (page V D L t hvars value_params value_loc value_docs kind_name builtin file_link).
Notation subject := (subject V D L t hvars value_params macro_docs). Notation lineage := (lineage V D t). Notation walk := (walk V D t).
Local Lemma Wt : wf V D t. Proof using T. exact (td_wf V D t T). Qed.

(** ** The types above *)
Lemma line_lineage b fuel : forall i js, Model.line fuel (above V D t b) i = Some js -> lineage b i js.
Proof using Type.
  induction fuel as [|fuel IH]; intros i js; cbn [Model.line]; [discriminate|]. destruct (above V D t b i) as [p|] eqn:E.
  - destruct (Model.line fuel (above V D t b) p) as [js'|] eqn:E'; [|discriminate]. intro Q. injection Q as <-. apply above_iff in E. eapply li_on; [exact E|apply IH; exact E'].
  - intro Q. injection Q as <-. apply li_end. intros p Hp. apply above_iff in Hp. congruence.
Qed.
Lemma lineage_fun b i js : lineage b i js -> forall js', lineage b i js' -> js = js'.
Proof using Type.
  induction 1 as [i N|i p js U H IH]; intros js' H'; inversion H' as [i' N'|i' p' js2 U' H2]; subst; try reflexivity.
  - destruct (N p' U').
  - destruct (N' p U).
  - destruct U as [U _], U' as [U' _]. unfold inherits in U, U'. rewrite U in U'. injection U' as <-. f_equal. apply IH. exact H2.
Qed.
Lemma walk_lineage b i : lineage b i (walk b (Some i)).
Proof using T AC.
  unfold Hover.walk. change (if b then parent_without_root V D t else parent_type t) with (above V D t b). destruct (upwards_spec V D t T AC b i) as (l & E & _ & _ & rest & El). unfold upwards in *.
  destruct (Model.line (S (List.length (graph t))) (above V D t b) i) as [js|] eqn:Q; [exact (line_lineage _ _ _ _ Q)|]. subst l. discriminate El.
Qed.
Lemma lineage_walk b i js : lineage b i js -> js = walk b (Some i).
Proof using T AC. intro H. exact (lineage_fun b i js H _ (walk_lineage b i)). Qed.

(** ** Pieces *)
Lemma linked_iff loc u : location_link loc = Some u <-> linked loc u.
Proof using Type.
  unfold Hover.location_link, HoverSpec.linked. destruct (builtin loc); split.
  - intro Q. injection Q as <-. left. auto.
  - intros [[_ ->]|[Q _]]; [reflexivity|discriminate].
  - intro Q. right. auto.
  - intros [[Q _]|[_ Q]]; [discriminate|exact Q].
Qed.
Lemma pretty_at j cs : at_ t j cs -> pretty_path j = match cs with [] => lit "(global)" | _ => render cs end.
Proof using Type. intros (_ & n & E & P). unfold Hover.pretty_path, node_at. rewrite E, P. destruct cs as [|c cs]; [reflexivity|]. cbn [render]. reflexivity. Qed.
Lemma titled_iff j cs loc s : at_ t j cs -> (titled j loc s <-> exists u, location_link loc = Some u /\ s = lit "[" ++ pretty_path j ++ lit "](" ++ u ++ lit ")").
Proof using T.
  intro Hj. rewrite (pretty_at j cs Hj). split.
  - intros (cs' & u & Hj' & Hu & ->). rewrite (at_inj V D t _ _ _ Hj' Hj). exists u. split; [apply linked_iff; exact Hu|reflexivity].
  - intros (u & Hu & ->). exists cs, u. split; [exact Hj|]. split; [apply linked_iff; exact Hu|reflexivity].
Qed.
Lemma show_param_eq q : show_param q = parameter q.
Proof using Type. reflexivity. Qed.
Lemma push_params_eq ps : forall b m, push_params b m ps = m ++ match ps with [] => [] | _ => (if b then [] else lit ", ") ++ joined (lit ", ") (map parameter ps) end.
Proof using Type.
  induction ps as [|q ps IH]; intros b m; cbn [push_params]; [rewrite app_nil_r; reflexivity|]. rewrite IH. destruct ps as [|q' ps]; cbn [map joined].
  - rewrite app_nil_r. destruct b; rewrite <- ?app_assoc; reflexivity.
  - destruct b; rewrite <- ?app_assoc; reflexivity.
Qed.
Lemma header_eq m x v : push_params true (m ++ x ++ lit "(") (value_params v) ++ lit ")" = m ++ header x v.
Proof using Type.
  rewrite push_params_eq. unfold HoverSpec.header. destruct (value_params v) as [|q ps]; cbn [map joined]; rewrite <- ?app_assoc; reflexivity.
Qed.

(** ** Values *)
Lemma proc_node j x p : proc_at x j p -> exists cs, at_ t j cs.
Proof using T. unfold HoverSpec.proc_at, procs_of. destruct (node_at t j) as [n|] eqn:E; [|discriminate]. intros _. destruct (at_some V D t Wt j n E) as (cs & H). eauto. Qed.
Lemma value_iff j x p v : proc_at x j p -> (main_value V D p = Some v <-> value_at x j v).
Proof using T.
  intro E. unfold main_value. pose proof (CompletionProps.last_value V D p) as Lv. unfold HoverSpec.proc_at in E. destruct (last (map Some (p_values p)) None) as [w|].
  - destruct Lv as (vs & Ev). split.
    + intro Q. injection Q as <-. exists p, vs. auto.
    + intros (p' & vs' & E' & Ev'). unfold HoverSpec.proc_at in E'. rewrite E in E'. injection E' as <-. rewrite Ev in Ev'. apply app_inj_tail in Ev'. destruct Ev' as [_ ->]. reflexivity.
  - exfalso. unfold procs_of in E. destruct (node_at t j) as [n|] eqn:En; [|discriminate]. exact (wf_procs V D t Wt j n x p En E Lv).
Qed.
Lemma value_of j x p : proc_at x j p -> exists v, main_value V D p = Some v.
Proof using T.
  intro E. unfold main_value. pose proof (CompletionProps.last_value V D p) as Lv. destruct (last (map Some (p_values p)) None) as [v|]; [eauto|]. exfalso. unfold HoverSpec.proc_at, procs_of in E. destruct (node_at t j) as [n|] eqn:En; [|discriminate]. exact (wf_procs V D t Wt j n x p En E Lv).
Qed.
Definition var_docs (x : text) (j : nat) : option text := match get x (hvars j) with Some v => h_docs v | None => None end.
Lemma var_docs_iff x j d : var_docs x j = Some d <-> var_documented x j d.
Proof using Type.
  unfold var_docs, HoverSpec.var_documented, HoverSpec.var_at. destruct (get x (hvars j)) as [v|]; split; [eauto|intros (v' & Q & H); congruence|discriminate|intros (v' & Q & _); discriminate].
Qed.
Definition proc_docs (x : text) (j : nat) : option text := match procs_of t j x with Some p => match main_value V D p with Some v => value_docs v | None => None end | None => None end.
Lemma proc_docs_iff x j d : proc_docs x j = Some d <-> proc_documented x j d.
Proof using T.
  unfold proc_docs, HoverSpec.proc_documented. destruct (procs_of t j x) as [p|] eqn:E.
  - destruct (value_of j x p E) as (v & Ev). rewrite Ev. apply (value_iff j x p v E) in Ev. split; [eauto|]. intros (v' & Hv' & H). apply (value_iff j x p v' E) in Hv'. apply (value_iff j x p v E) in Ev. congruence.
  - split; [discriminate|]. intros (v & (p & vs & Q & _) & _). unfold HoverSpec.proc_at in Q. congruence.
Qed.
(** everything in the lineage of a type is a type *)
Definition types_in (js : list nat) : Prop := forall j, In j js -> exists cs, at_ t j cs.

(** ** The pages *)
Definition var_page_entry (x : text) (j : nat) : option (option (list text)) :=
  match get x (hvars j) with
  | None => Some None
  | Some v => match location_link (h_loc v) with
      | None => None
      | Some u => Some (Some (match h_decl v with Some (flags, path) => [var_declaration x flags path] | None => [] end ++
                              [(lit "[" ++ pretty_path j ++ lit "](" ++ u ++ lit ")") ++ match h_const v with Some c => [10%N] ++ code (lit "= " ++ c) | None => [] end]))
      end
  end.
Definition proc_page_entry (x : text) (j : nat) : option (option (list text)) :=
  match procs_of t j x with
  | None => Some None
  | Some p => match main_value V D p with None => None | Some v => match location_link (value_loc v) with
      | None => None
      | Some u => Some (Some (match p_decl p with Some d => [code (kind_name d ++ lit "/" ++ x)] | None => [] end ++
                              [(lit "[" ++ pretty_path j ++ lit "](" ++ u ++ lit ")") ++ lit "  " ++ [10%N] ++ code (header x v)]))
      end end
  end.
Notation var_page_step := (var_page_step V D L t hvars builtin file_link).
Notation proc_page_step := (proc_page_step V D L t value_params value_loc value_docs kind_name builtin file_link).
Lemma fold_none {S : Type} (f : option S -> nat -> option S) js : (forall j, f None j = None) -> fold_left f js None = None.
Proof using Type. intro H. induction js as [|j js IH]; cbn [fold_left]; [reflexivity|]. rewrite H. exact IH. Qed.
Lemma var_page_fold x js : forall infos docs, fold_left (var_page_step x) js (Some (infos, docs)) =
  match gather (var_page_entry x) js with Some es => Some (List.concat (rev es) ++ infos, top (var_docs x) js docs) | None => None end.
Proof using Type.
  induction js as [|j js IH]; intros infos docs; cbn [fold_left gather]; [reflexivity|]. unfold var_page_entry at 1. unfold Hover.var_page_step at 2. unfold top. cbn [fold_left]. fold (top (var_docs x) js (newer (var_docs x j) docs)). unfold var_docs at 2.
  destruct (get x (hvars j)) as [v|]; [|cbn [newer]; apply IH]. destruct (location_link (h_loc v)) as [u|]; [|apply fold_none; reflexivity]. cbv zeta.
  rewrite IH. destruct (gather (var_page_entry x) js) as [es|]; [|reflexivity]. f_equal. f_equal. cbn [rev]. rewrite concat_app, <- app_assoc. f_equal. cbn [List.concat]. rewrite app_nil_r, <- !app_assoc.
  unfold var_declaration, code, NL, show_type, typed. destruct (h_decl v) as [[flags path]|]; destruct (h_const v); cbn [app]; rewrite <- ?app_assoc; reflexivity.
Qed.
Lemma proc_page_fold x js : forall infos docs, fold_left (proc_page_step x) js (Some (infos, docs)) =
  match gather (proc_page_entry x) js with Some es => Some (List.concat (rev es) ++ infos, top (proc_docs x) js docs) | None => None end.
Proof using T.
  induction js as [|j js IH]; intros infos docs; cbn [fold_left gather]; [reflexivity|]. unfold proc_page_entry at 1. unfold Hover.proc_page_step at 2. unfold top. cbn [fold_left]. fold (top (proc_docs x) js (newer (proc_docs x j) docs)). unfold proc_docs at 2.
  destruct (procs_of t j x) as [p|] eqn:E; [|cbn [newer]; apply IH]. destruct (value_of j x p E) as (v & Ev). rewrite Ev. destruct (location_link (value_loc v)) as [u|]; [|apply fold_none; reflexivity]. cbv zeta.
  rewrite IH. destruct (gather (proc_page_entry x) js) as [es|]; [|reflexivity]. f_equal. f_equal. cbn [rev]. rewrite concat_app, <- app_assoc. f_equal. cbn [List.concat]. rewrite app_nil_r, <- !app_assoc. cbn [app]. unfold code.
  assert (Hh : forall m, push_params true (m ++ x ++ lit "(") (value_params v) ++ lit ")" = m ++ header x v) by (intro; apply header_eq).
  assert (Q : push_params true (lit "[" ++ pretty_path j ++ lit "](" ++ u ++ lit ")  " ++ NL ++ lit "```dm" ++ NL ++ x ++ lit "(") (value_params v) ++ lit ")" ++ NL ++ lit "```" =
              (lit "[" ++ pretty_path j ++ lit "](" ++ u ++ lit ")") ++ lit "  " ++ [10%N] ++ lit "```dm" ++ [10%N] ++ header x v ++ [10%N] ++ lit "```").
  { pose proof (Hh (lit "[" ++ pretty_path j ++ lit "](" ++ u ++ lit ")  " ++ NL ++ lit "```dm" ++ NL)) as H1. rewrite <- !app_assoc in H1. rewrite app_assoc, H1. change (lit ")  ") with (lit ")" ++ lit "  "). rewrite <- !app_assoc. reflexivity. }
  rewrite Q. destruct (p_decl p); cbn [app]; rewrite <- ?app_assoc; reflexivity.
Qed.

Notation construct_proc_hover := (construct_proc_hover V D L t value_params value_loc value_docs kind_name builtin file_link).
Notation construct_var_hover := (construct_var_hover V D L t hvars builtin file_link).
Definition var_use_entry (x : text) (j : nat) : option (option text) :=
  match get x (hvars j) with
  | None => Some None
  | Some v => match h_decl v with
      | None => Some None
      | Some (flags, path) => match location_link (h_loc v) with
          | None => None
          | Some u => Some (Some ((lit "[" ++ pretty_path j ++ lit "](" ++ u ++ lit ")") ++ [10%N] ++ var_declaration x flags path))
          end
      end
  end.
Lemma var_use_fold x js : forall infos docs, fold_left (var_step V D L t hvars builtin file_link x) js (Some (infos, docs)) =
  match gather (var_use_entry x) js with Some es => Some (infos ++ List.concat es, top (var_docs x) js docs) | None => None end.
Proof using Type.
  induction js as [|j js IH]; intros infos docs; cbn [fold_left gather]; [rewrite app_nil_r; reflexivity|]. unfold var_use_entry at 1. unfold Hover.var_step at 2. unfold top. cbn [fold_left]. fold (top (var_docs x) js (newer (var_docs x j) docs)). unfold var_docs at 2.
  destruct (get x (hvars j)) as [v|]; [|cbn [newer]; apply IH]. destruct (h_decl v) as [[flags path]|]; [|apply IH]. destruct (location_link (h_loc v)) as [u|]; [|apply fold_none; reflexivity].
  rewrite IH. destruct (gather (var_use_entry x) js) as [es|]; [|reflexivity]. f_equal. f_equal. cbn [List.concat]. unfold var_declaration, code, NL, show_type, typed. rewrite <- !app_assoc. reflexivity.
Qed.
Definition declaration (x : text) (j : nat) : option D := match procs_of t j x with Some p => p_decl p | None => None end.
Lemma declaration_iff x j d : declaration x j = Some d <-> proc_declared V D t x j d.
Proof using Type. unfold declaration, proc_declared, HoverSpec.proc_at. destruct (procs_of t j x) as [p|]; split; [eauto|intros (p' & Q & H); congruence|discriminate|intros (p' & Q & _); discriminate]. Qed.
Notation proc_step := (proc_step V D L t value_params value_loc value_docs kind_name builtin file_link).
Definition use_text (link body : text) (d : D) : text := link ++ [10%N] ++ code (kind_name d ++ lit "/" ++ body).
Lemma use_text_eq link body d : link ++ NL ++ lit "```dm" ++ NL ++ kind_name d ++ lit "/" ++ body ++ NL ++ lit "```" = use_text link body d.
Proof using Type. unfold use_text, code, NL. rewrite <- !app_assoc. reflexivity. Qed.
(** once there is a procedure *)
Lemma proc_fold x js : forall results link body docs, fold_left (proc_step x) js (Some (results, Some (link, body), docs)) =
  match gather (sure (declaration x)) js with Some ds => Some (results ++ map (use_text link body) ds, Some (link, body), top (proc_docs x) js docs) | None => None end.
Proof using T.
  induction js as [|j js IH]; intros results link body docs; cbn [fold_left gather]; [rewrite app_nil_r; reflexivity|]. unfold sure at 1. unfold declaration at 1. unfold Hover.proc_step at 2. unfold top. cbn [fold_left]. fold (top (proc_docs x) js (newer (proc_docs x j) docs)). unfold proc_docs at 2.
  destruct (procs_of t j x) as [p|] eqn:E; [|cbn [newer]; apply IH]. destruct (value_of j x p E) as (v & Ev). rewrite Ev. cbv zeta. rewrite IH. destruct (gather (sure (declaration x)) js) as [ds|]; destruct (p_decl p); try reflexivity. rewrite use_text_eq, <- app_assoc. reflexivity.
Qed.
(** before that, nothing *)
Lemma proc_fold_none x js : (forall j, In j js -> procs_of t j x = None) -> forall s, fold_left (proc_step x) js (Some s) = Some s.
Proof using Type.
  induction js as [|j js IH]; intros H [[r d] o]; cbn [fold_left]; [reflexivity|]. unfold Hover.proc_step at 2. rewrite (H j (or_introl eq_refl)). apply IH. intros k Hk. apply H. right. exact Hk.
Qed.
Lemma top_none f js js' d : (forall j, In j js -> f j = None) -> top f (js ++ js') d = top f js' d.
Proof using Type. intro H. unfold top. rewrite fold_left_app. f_equal. induction js as [|j js IH]; cbn [fold_left]; [reflexivity|]. rewrite (H j (or_introl eq_refl)). cbn [newer]. apply IH. intros k Hk. apply H. right. exact Hk. Qed.
Lemma gather_none {A : Type} (f : nat -> option A) js js' : (forall j, In j js -> f j = None) -> gather (sure f) (js ++ js') = gather (sure f) js'.
Proof using Type. induction js as [|j js IH]; intro H; [reflexivity|]. cbn [app gather]. unfold sure at 1. rewrite (H j (or_introl eq_refl)). apply IH. intros k Hk. apply H. right. exact Hk. Qed.

(** ** Pages are what the code makes *)
Notation VarPage := HoverSpec.VarPage. Notation ProcPage := HoverSpec.ProcPage. Notation OneVar := HoverSpec.OneVar. Notation OneProc := HoverSpec.OneProc.
(** whatever has a variable is a type *)
Hypothesis Hv : forall j x v, get x (hvars j) = Some v -> exists cs, at_ t j cs.
Lemma var_page_gather x js l : gather (var_page_entry x) js = Some l <-> collects (HoverSpec.some (var_at x)) (var_entry x) js l.
Proof using T Hv.
  apply gather_iff; unfold var_page_entry.
  - intro j. unfold HoverSpec.some, HoverSpec.var_at. destruct (get x (hvars j)) as [v|]; [|split; [intros _ (v & Q); discriminate|reflexivity]]. split; [destruct (location_link (h_loc v)); discriminate|]. intro N. destruct N. eauto.
  - intros j s. unfold HoverSpec.some, HoverSpec.var_entry, HoverSpec.var_at. destruct (get x (hvars j)) as [v|] eqn:E.
    + destruct (Hv j x v E) as (cs & Hj). pose proof (titled_iff j cs (h_loc v)) as Ti. destruct (location_link (h_loc v)) as [u|] eqn:El; split.
      * intro Q. injection Q as <-. split; [eauto|]. exists v, (lit "[" ++ pretty_path j ++ lit "](" ++ u ++ lit ")"). split; [reflexivity|]. split; [apply (Ti _ Hj); eauto|reflexivity].
      * intros [_ (v' & title & Q & H & ->)]. injection Q as <-. apply (Ti _ Hj) in H. destruct H as (u' & Q & ->). injection Q as <-. reflexivity.
      * discriminate.
      * intros [_ (v' & title & Q & H & _)]. injection Q as <-. apply (Ti _ Hj) in H. destruct H as (u' & Q & _). discriminate.
    + split; [discriminate|]. intros [(v & Q) _]. discriminate.
Qed.
Lemma proc_page_gather x js l : gather (proc_page_entry x) js = Some l <-> collects (HoverSpec.some (proc_at x)) (proc_entry x) js l.
Proof using T.
  apply gather_iff; unfold proc_page_entry.
  - intro j. unfold HoverSpec.some. destruct (procs_of t j x) as [p|] eqn:E; [|split; [intros _ (p & Q); unfold HoverSpec.proc_at in Q; congruence|reflexivity]]. destruct (value_of j x p E) as (v & ->). split; [destruct (location_link (value_loc v)); discriminate|]. intro N. destruct N. exists p. exact E.
  - intros j s. unfold HoverSpec.some, HoverSpec.proc_entry. destruct (procs_of t j x) as [p|] eqn:E.
    + destruct (value_of j x p E) as (v & Ev). rewrite Ev. pose proof (proj1 (value_iff j x p v E) Ev) as Ha. destruct (proc_node j x p E) as (cs & Hj). pose proof (titled_iff j cs (value_loc v)) as Ti.
      assert (Same : forall p' v', proc_at x j p' -> value_at x j v' -> p' = p /\ v' = v).
      { intros p' v' Hp Hv'. apply (value_iff j x p v' E) in Hv'. unfold HoverSpec.proc_at in Hp. rewrite E in Hp. rewrite Ev in Hv'. split; congruence. }
      destruct (location_link (value_loc v)) as [u|] eqn:El; split.
      * intro Q. injection Q as <-. split; [exists p; exact E|]. exists p, v, (lit "[" ++ pretty_path j ++ lit "](" ++ u ++ lit ")"). split; [exact E|]. split; [exact Ha|]. split; [apply (Ti _ Hj); eauto|reflexivity].
      * intros [_ (p' & v' & title & Hp & Hv' & H & ->)]. destruct (Same p' v' Hp Hv') as [-> ->]. apply (Ti _ Hj) in H. destruct H as (u' & Q & ->). injection Q as <-. reflexivity.
      * discriminate.
      * intros [_ (p' & v' & title & Hp & Hv' & H & _)]. destruct (Same p' v' Hp Hv') as [-> ->]. apply (Ti _ Hj) in H. destruct H as (u' & Q & _). discriminate.
    + split; [discriminate|]. intros [(p & Q) _]. unfold HoverSpec.proc_at in Q. congruence.
Qed.
Lemma var_use_gather x js l : gather (var_use_entry x) js = Some l <-> collects (var_declared L hvars x) (var_use x) js l.
Proof using T Hv.
  apply gather_iff; unfold var_use_entry.
  - intro j. unfold var_declared, HoverSpec.var_at. destruct (get x (hvars j)) as [v|]; [|split; [intros _ (v & d & Q & _); discriminate|reflexivity]]. destruct (h_decl v) as [[flags path]|] eqn:Ed.
    + split; [destruct (location_link (h_loc v)); discriminate|]. intro N. destruct N. eauto.
    + split; [intros _ (v' & d & Q & Qd)|reflexivity]. congruence.
  - intros j s. unfold var_declared, HoverSpec.var_use, HoverSpec.var_at. destruct (get x (hvars j)) as [v|] eqn:E; [|split; [discriminate|intros [(v & d & Q & _) _]; discriminate]].
    destruct (h_decl v) as [[flags path]|] eqn:Ed; [|split; [discriminate|intros [(v' & d & Q & Qd) _]; congruence]].
    destruct (Hv j x v E) as (cs & Hj). pose proof (titled_iff j cs (h_loc v)) as Ti. destruct (location_link (h_loc v)) as [u|] eqn:El; split.
    + intro Q. injection Q as <-. split; [eauto|]. exists v, flags, path, (lit "[" ++ pretty_path j ++ lit "](" ++ u ++ lit ")"). split; [reflexivity|]. split; [exact Ed|]. split; [apply (Ti _ Hj); eauto|reflexivity].
    + intros [_ (v' & f' & p' & title & Q & Qd & H & ->)]. injection Q as <-. rewrite Ed in Qd. injection Qd as <- <-. apply (Ti _ Hj) in H. destruct H as (u' & Q & ->). injection Q as <-. reflexivity.
    + discriminate.
    + intros [_ (v' & f' & p' & title & Q & Qd & H & _)]. injection Q as <-. apply (Ti _ Hj) in H. destruct H as (u' & Q & _). discriminate.
Qed.
Lemma concat_nil (l : list (list text)) : (forall s, In s l -> s <> []) -> List.concat l = [] -> l = [].
Proof using Type. destruct l as [|s l]; [reflexivity|]. intros H Q. cbn [List.concat] in Q. apply app_eq_nil in Q. destruct Q as [Q _]. destruct (H s (or_introl eq_refl) Q). Qed.
Lemma sections_eq (es : list (list text)) s : (forall e, In e es -> e <> []) ->
  (sections es s <-> s = match List.concat (rev es) with [] => [] | _ => [join (NL ++ NL) (List.concat (rev es))] end).
Proof using Type.
  intro H. assert (E : List.concat (rev es) = [] -> es = []).
  { intro Q. apply concat_nil in Q; [rewrite <- (rev_involutive es), Q; reflexivity|]. intros e He. apply H. apply in_rev. exact He. }
  unfold sections. destruct (List.concat (rev es)) as [|a l] eqn:Q.
  - rewrite (E eq_refl). split; [intros [[_ ->]|[N _]]; [reflexivity|destruct (N eq_refl)]|auto].
  - split; [intros [[-> _]|[_ ->]]; [discriminate Q|reflexivity]|]. intros ->. right. split; [intros ->; discriminate Q|reflexivity].
Qed.
Lemma collects_in {A : Type} (needs : nat -> Prop) (R : nat -> A -> Prop) js l a : collects needs R js l -> In a l -> exists j, In j js /\ R j a.
Proof using Type. induction 1 as [|j b js l N Rb H IH|j js l N H IH]; intro Q; [destruct Q| |destruct (IH Q) as (k & K & Rk); exists k; split; [right; exact K|exact Rk]]. destruct Q as [<-|Q]; [exists j; split; [left; reflexivity|exact Rb]|]. destruct (IH Q) as (k & K & Rk). exists k. split; [right; exact K|exact Rk]. Qed.
Lemma var_page_iff i x rs : page_of (fold_left (var_page_step x) (walk false (Some i)) (Some ([], None))) = Some rs <-> page (VarPage i x) rs.
Proof using T AC Hv.
  rewrite var_page_fold. pose proof (var_page_gather x (walk false (Some i))) as G. pose proof (fun ds => top_iff (var_docs x) (var_documented x) (walk false (Some i)) ds (var_docs_iff x)) as Td. split.
  - destruct (gather (var_page_entry x) (walk false (Some i))) as [es|]; [|discriminate]. cbn [page_of]. rewrite with_docs_app, app_nil_r. intro Q. injection Q as <-. destruct (proj2 (Td _) eq_refl) as (docs & C & Tp). pose proof (proj1 (G es) eq_refl) as Ce.
    eapply pg_var; [apply walk_lineage|exact Ce|exact C| |exact Tp]. apply sections_eq; [|reflexivity]. intros e He. destruct (collects_in _ _ _ _ _ Ce He) as (j & _ & v & title & _ & _ & ->). intro Q. apply app_eq_nil in Q. destruct Q; discriminate.
  - intro H. inversion H as [? ? js es docs s ds Hl Ce Cd Hs Tp| | | | |]; subst. rewrite (lineage_walk _ _ _ Hl) in Ce, Cd. pose proof (proj1 (Td ds) (ex_intro _ docs (conj Cd Tp))) as ->. rewrite (proj2 (G es) Ce). cbn [page_of]. rewrite with_docs_app, app_nil_r.
    apply sections_eq in Hs; [rewrite Hs; reflexivity|]. intros e He. destruct (collects_in _ _ _ _ _ Ce He) as (j & _ & v & title & _ & _ & ->). intro Q. apply app_eq_nil in Q. destruct Q; discriminate.
Qed.
Lemma proc_page_iff i x rs : page_of (fold_left (proc_page_step x) (walk false (Some i)) (Some ([], None))) = Some rs <-> page (ProcPage i x) rs.
Proof using T AC.
  rewrite proc_page_fold. pose proof (proc_page_gather x (walk false (Some i))) as G. pose proof (fun ds => top_iff (proc_docs x) (proc_documented x) (walk false (Some i)) ds (proc_docs_iff x)) as Td. split.
  - destruct (gather (proc_page_entry x) (walk false (Some i))) as [es|]; [|discriminate]. cbn [page_of]. rewrite with_docs_app, app_nil_r. intro Q. injection Q as <-. destruct (proj2 (Td _) eq_refl) as (docs & C & Tp). pose proof (proj1 (G es) eq_refl) as Ce.
    eapply pg_proc; [apply walk_lineage|exact Ce|exact C| |exact Tp]. apply sections_eq; [|reflexivity]. intros e He. destruct (collects_in _ _ _ _ _ Ce He) as (j & _ & p & v & title & _ & _ & _ & ->). intro Q. apply app_eq_nil in Q. destruct Q; discriminate.
  - intro H. inversion H as [|? ? js es docs s ds Hl Ce Cd Hs Tp| | | |]; subst. rewrite (lineage_walk _ _ _ Hl) in Ce, Cd. pose proof (proj1 (Td ds) (ex_intro _ docs (conj Cd Tp))) as ->. rewrite (proj2 (G es) Ce). cbn [page_of]. rewrite with_docs_app, app_nil_r.
    apply sections_eq in Hs; [rewrite Hs; reflexivity|]. intros e He. destruct (collects_in _ _ _ _ _ Ce He) as (j & _ & p & v & title & _ & _ & _ & ->). intro Q. apply app_eq_nil in Q. destruct Q; discriminate.
Qed.
Lemma var_hover_iff b i x rs : construct_var_hover x (Some i) b = Some rs <-> page (OneVar b i x) rs.
Proof using T AC Hv.
  unfold Hover.construct_var_hover. rewrite var_use_fold. pose proof (var_use_gather x (walk b (Some i))) as G. pose proof (fun ds => top_iff (var_docs x) (var_documented x) (walk b (Some i)) ds (var_docs_iff x)) as Td.
  assert (Em : forall es, collects (var_declared L hvars x) (var_use x) (walk b (Some i)) es -> match es with [] => [] | _ => [List.concat es] end = match List.concat es with [] => [] | _ => [List.concat es] end).
  { intros [|e es] C; [reflexivity|]. destruct (collects_in _ _ _ _ e C (or_introl eq_refl)) as (j & _ & v & flags & path & title & _ & _ & (cs & u & _ & _ & ->) & ->). reflexivity. }
  split.
  - destruct (gather (var_use_entry x) (walk b (Some i))) as [es|]; [|discriminate]. cbn [app]. rewrite with_docs_app. intro Q. injection Q as <-. destruct (proj2 (Td _) eq_refl) as (docs & C & Tp). pose proof (proj1 (G es) eq_refl) as Ce.
    refine (eq_ind _ (fun z => page (OneVar b i x) (z ++ _)) _ _ (Em es Ce)). eapply pg_one_var; [apply walk_lineage|exact Ce|exact C|exact Tp].
  - intro H. inversion H as [| |? ? ? js es docs ds Hl Ce Cd Tp| | |]; subst. rewrite (lineage_walk _ _ _ Hl) in Ce, Cd. pose proof (proj1 (Td ds) (ex_intro _ docs (conj Cd Tp))) as ->. rewrite (proj2 (G es) Ce). cbn [app]. rewrite with_docs_app. f_equal. exact (f_equal (fun z => z ++ _) (eq_sym (Em es Ce))).
Qed.
Lemma proc_hover_iff b i x rs : construct_proc_hover x (Some i) b = Some rs <-> page (OneProc b i x) rs.
Proof using T AC.
  unfold Hover.construct_proc_hover. pose proof (fun ds => top_iff (proc_docs x) (proc_documented x) (walk b (Some i)) ds (proc_docs_iff x)) as Td.
  pose proof (nearest_iff V D t T AC b (has_proc V D t x) i) as Ni. change (upwards V D t (above V D t b) i) with (walk b (Some i)) in Ni.
  destruct (Goto.first_some (with_proc V D t x) (walk b (Some i))) as [j|] eqn:F.
  - apply first_some_iff in F. destruct F as (pre & k & post & E & Fk & Np). pose proof (with_proc_some V D t x k j Fk) as ->.
    assert (Npre : forall k', In k' pre -> procs_of t k' x = None). { intros k' Hk. specialize (Np k' Hk). unfold with_proc in Np. destruct (procs_of t k' x); congruence. }
    assert (exists p, procs_of t k x = Some p) as (p & Ep). { unfold with_proc in Fk. destruct (procs_of t k x); [eauto|discriminate]. }
    assert (N : nearest_with V D t b (has_proc V D t x) i k). { apply Ni. exists pre, post. split; [exact E|]. unfold has_proc. split; [congruence|]. intros k' Hk Q. exact (Q (Npre k' Hk)). }
    assert (Nu : forall k', nearest_with V D t b (has_proc V D t x) i k' -> k' = k). { intros k' N'. apply (up_proc V D t T AC) in N. apply (up_proc V D t T AC) in N'. congruence. }
    destruct (value_of k x p Ep) as (v & Ev). pose proof (proj1 (value_iff k x p v Ep) Ev) as Ha. destruct (proc_node k x p Ep) as (cs & Hk). pose proof (titled_iff k cs (value_loc v)) as Ti.
    destruct (sure_some (declaration x) (walk b (Some i))) as (decls & Gd). pose proof (sure_iff (declaration x) (proc_declared V D t x) (walk b (Some i)) (declaration_iff x)) as Gi.
    assert (Fold : fold_left (proc_step x) (walk b (Some i)) (Some ([], None, None)) =
      match location_link (value_loc v) with
      | Some u => let link := lit "[" ++ pretty_path k ++ lit "](" ++ u ++ lit ")" in Some (map (use_text link (header x v)) decls, Some (link, header x v), top (proc_docs x) (walk b (Some i)) None)
      | None => None
      end).
    { rewrite E in Gd |- *. rewrite fold_left_app, (proc_fold_none x pre Npre). rewrite top_none by (intros k' Hk'; unfold proc_docs; rewrite (Npre k' Hk'); reflexivity). rewrite gather_none in Gd by (intros k' Hk'; unfold declaration; rewrite (Npre k' Hk'); reflexivity).
      cbn [fold_left]. unfold Hover.proc_step at 2. rewrite Ep, Ev. cbn [gather] in Gd. unfold sure at 1 in Gd. unfold declaration at 1 in Gd. rewrite Ep in Gd. unfold top. cbn [fold_left]. fold (top (proc_docs x) post (newer (proc_docs x k) None)). unfold proc_docs at 2. rewrite Ep, Ev.
      destruct (location_link (value_loc v)) as [u|]; [|apply fold_none; reflexivity]. cbv zeta. rewrite (header_eq [] x v : push_params true (x ++ lit "(") (value_params v) ++ lit ")" = header x v). rewrite proc_fold.
      destruct (p_decl p) as [d|]; destruct (gather (sure (declaration x)) post) as [ds|]; try discriminate; injection Gd as <-; rewrite ?use_text_eq; reflexivity. }
    rewrite Fold. split.
    + destruct (location_link (value_loc v)) as [u|] eqn:El; [|discriminate]. cbv beta iota zeta. rewrite with_docs_app. intro Q. injection Q as <-. destruct (proj2 (Td _) eq_refl) as (docs & C & Tp).
      refine (pg_one_proc V D L t hvars value_params value_loc value_docs kind_name builtin file_link b i x _ k v _ decls docs _ (walk_lineage b i) N Ha _ _ C Tp); [apply (Ti _ Hk); eauto|apply Gi; exact Gd].
    + intro H. inversion H as [| | |? ? ? js Hl Hn|? ? ? js k' v' title ds' docs ds Hl Hn Hv' Ht Cd Cc Tp|]; subst.
      * destruct (Hn k p); [|exact Ep]. rewrite (lineage_walk _ _ _ Hl), E. apply in_elt.
      * rewrite (lineage_walk _ _ _ Hl) in Cd, Cc. apply Nu in Hn. subst k'. apply (value_iff k x p v' Ep) in Hv'. rewrite Ev in Hv'. injection Hv' as <-. apply (Ti _ Hk) in Ht. destruct Ht as (u & -> & ->). cbv beta iota zeta. rewrite with_docs_app. pose proof (proj1 (Td ds) (ex_intro _ docs (conj Cc Tp))) as ->. apply Gi in Cd. rewrite Gd in Cd. injection Cd as <-. reflexivity.
  - assert (Nn : forall j, In j (walk b (Some i)) -> procs_of t j x = None). { intros j Hj. pose proof (proj1 (first_some_none _ _) F j Hj) as Q. unfold with_proc in Q. destruct (procs_of t j x); congruence. }
    rewrite (proc_fold_none x _ Nn). cbn [with_docs]. split.
    + intro Q. injection Q as <-. eapply pg_no_proc; [apply walk_lineage|]. intros j p Hj Hp. unfold HoverSpec.proc_at in Hp. rewrite (Nn j Hj) in Hp. discriminate.
    + intro H. inversion H as [| | |? ? ? js Hl Hn|? ? ? js k' v' title ds' docs ds Hl Hn Hv' Ht Cd Cc Tp|]; subst; [reflexivity|]. exfalso. apply Ni in Hn. destruct Hn as (pre & post & E & Hp & _). apply Hp. apply Nn. rewrite E. apply in_elt.
Qed.

(** ** What an annotation is about *)
Notation hover_mark := (hover_mark V D L t hvars value_params value_loc value_docs kind_name macro_docs builtin file_link).
Notation part := (part V D L t hvars value_params value_loc value_docs kind_name macro_docs builtin file_link). Notation known := (known V D L t hvars value_params).
Lemma part_about marks m a0 rs : (forall a, subject marks m a <-> a = a0) -> (part marks m rs <-> page a0 rs).
Proof using Type. intro H. unfold HoverSpec.part. split; [intros [(a & Ha & P)|[N _]]; [apply H in Ha; subst a; exact P|destruct (N a0); apply H; reflexivity]|]. intro P. left. exists a0. split; [apply H; reflexivity|exact P]. Qed.
Lemma part_none marks m rs : (forall a, ~ subject marks m a) -> (part marks m rs <-> rs = []).
Proof using Type. intro H. unfold HoverSpec.part. split; [intros [(a & Ha & _)|[_ ->]]; [destruct (H a Ha)|reflexivity]|auto]. Qed.
Lemma known_iff marks : known marks <-> symbol_at V D L t pvars pparams marks <> None.
Proof using T AC.
  pose proof (symbol_iff V D L t pvars pparams T AC marks) as S. unfold HoverSpec.known. destruct (symbol_at V D L t pvars pparams marks) as [s|]; split; [discriminate|intros _; exists s; apply S; reflexivity|intros (s & H); apply S in H; discriminate|intro Q; destruct (Q eq_refl)].
Qed.
Lemma some_nil (rs : list text) : Some [] = Some rs <-> rs = [].
Proof using Type. split; [intro Q; injection Q as <-; reflexivity|intros ->; reflexivity]. Qed.
Lemma entered ws most cs i : enters V D t ws [] most cs /\ at_ t i cs -> i = enter V D t ws 0 most.
Proof using T. intros [H Hi]. exact (enter_root V D t T ws most i cs H Hi). Qed.
Lemma enters_here ws most : exists cs, enters V D t ws [] most cs /\ at_ t (enter V D t ws 0 most) cs.
Proof using T. destruct (enter_some V D t T ws most 0 [] (CompletionProps.root_at V D t T)) as (cs & H). exists cs. split; [apply (enter_iff V D t T ws most 0 [] cs (CompletionProps.root_at V D t T)); exact H|exact H]. Qed.
Lemma mark_iff marks m rs : hover_mark marks m = Some rs <-> part marks m rs.
Proof using T AC Hv.
  pose proof (known_iff marks) as K. pose proof (fun x th => unscoped_iff V D L t pvars pparams T AC marks x th) as Un. pose proof (fun ps i => scoped_some V D L t pvars pparams T AC marks ps i) as Sc.
  destruct m as [path|absolute parts|parts|path|path idx|path idx|loc lty name|x|x|priors x|priors x| |idx|loc|priors x idx|idx|]; cbn [Hover.hover_mark]; cbv zeta.
  all: try (rewrite some_nil, part_none; [reflexivity|intros a H; inversion H]; fail).
  - destruct (split_last path) as [[most x]|] eqn:E.
    + apply split_last_some in E. subst path. rewrite var_page_iff. symmetry. apply part_about. intro a. split.
      * intro H. remember (OnVariable (most ++ [x])) as m eqn:Em. destruct H as [most' x' cs i He Hi| | | | | |]; try discriminate Em. injection Em as Em. apply app_inj_tail in Em. destruct Em as [-> ->]. rewrite (entered _ _ _ _ (conj He Hi)). reflexivity.
      * intros ->. destruct (enters_here [lit "var"] most) as (cs & He & Hi). eapply su_variable; eauto.
    + apply split_last_none in E. subst path. rewrite some_nil, part_none; [reflexivity|]. intros a H. remember (OnVariable []) as m eqn:Em. destruct H; try discriminate Em. injection Em as Em. destruct most; discriminate.
  - destruct (split_last path) as [[most x]|] eqn:E.
    + apply split_last_some in E. subst path. rewrite proc_page_iff. symmetry. apply part_about. intro a. split.
      * intro H. remember (OnHeader (most ++ [x]) idx) as m eqn:Em. destruct H as [|most' x' idx' cs i He Hi| | | | |]; try discriminate Em. injection Em as Em _. apply app_inj_tail in Em. destruct Em as [-> ->]. rewrite (entered _ _ _ _ (conj He Hi)). reflexivity.
      * intros ->. destruct (enters_here [lit "proc"; lit "verb"] most) as (cs & He & Hi). eapply su_header; eauto.
    + apply split_last_none in E. subst path. rewrite some_nil, part_none; [reflexivity|]. intros a H. remember (OnHeader [] idx) as m eqn:Em. destruct H; try discriminate Em. injection Em as Em _. destruct most; discriminate.
  - destruct (symbol_at V D L t pvars pparams marks) as [s|].
    2: { rewrite some_nil, part_none; [reflexivity|]. intros a H. inversion H as [| | |? ? Hk _| | |]; subst. apply K in Hk. destruct (Hk eq_refl). }
    assert (Kn : known marks) by (apply K; discriminate). rewrite proc_hover_iff. symmetry. apply part_about.
    pose proof (around_iff V D L t T marks) as C. destruct (find_type_context V D t (map as_note marks)) as [ty pn]. cbn [fst]. destruct C as (_ & _ & Hh). intro a. split.
    + intro H. inversion H as [| | |? i _ Hi| | |]; subst. apply Hh in Hi. subst i. reflexivity.
    + intros ->. apply su_call; [exact Kn|apply Hh; reflexivity].
  - destruct (symbol_at V D L t pvars pparams marks) as [s|].
    2: { rewrite some_nil, part_none; [reflexivity|]. intros a H. inversion H as [| |? ? ? Hk _ _| | | |]; subst. apply K in Hk. destruct (Hk eq_refl). }
    assert (Kn : known marks) by (apply K; discriminate). specialize (Un x). destruct (unscoped_var V D L t pvars pparams marks x) as [[loc ty|i proc idx k ty|i]|].
    1,2,4: rewrite some_nil, part_none; [reflexivity|]; intros a H; inversion H as [| |? j k' _ Hs _| | | |]; subst; apply Un in Hs; discriminate.
    pose proof (up_declares V D t pvars T AC false x i) as Ud. destruct (climb V D t false (with_var_decl pvars x) i) as [[k path]|].
    + rewrite var_hover_iff. symmetry. apply part_about. intro a. split.
      * intro H. inversion H as [| |? j k' _ Hs _| | | |]; subst. apply Un in Hs. injection Hs as ->. reflexivity.
      * intros ->. eapply su_name; [exact Kn|apply Un; reflexivity|apply (Ud k); eauto].
    + rewrite some_nil, part_none; [reflexivity|]. intros a H. inversion H as [| |? j k' _ Hs Hn| | | |]; subst. apply Un in Hs. injection Hs as ->. apply Ud in Hn. destruct Hn as (p & Q). discriminate.
  - destruct (symbol_at V D L t pvars pparams marks) as [s|].
    2: { rewrite some_nil, part_none; [reflexivity|]. intros a H. inversion H as [| | | |? ? ? Hk _| |]; subst. apply K in Hk. destruct (Hk eq_refl). }
    assert (Kn : known marks) by (apply K; discriminate). specialize (Sc priors). destruct (find_scoped_type V D t pvars pparams (map as_note marks) priors) as [i|].
    + rewrite proc_hover_iff. symmetry. apply part_about. intro a. split.
      * intro H. inversion H as [| | | |? ? j _ Hs| |]; subst. apply Sc in Hs. injection Hs as ->. reflexivity.
      * intros ->. apply su_method; [exact Kn|apply Sc; reflexivity].
    + unfold Hover.construct_proc_hover. cbn [Hover.walk fold_left with_docs]. rewrite some_nil, part_none; [reflexivity|]. intros a H. inversion H as [| | | |? ? j _ Hs| |]; subst. apply Sc in Hs. discriminate.
  - destruct (symbol_at V D L t pvars pparams marks) as [s|].
    2: { rewrite some_nil, part_none; [reflexivity|]. intros a H. inversion H as [| | | | |? ? ? Hk _|]; subst. apply K in Hk. destruct (Hk eq_refl). }
    assert (Kn : known marks) by (apply K; discriminate). specialize (Sc priors). destruct (find_scoped_type V D t pvars pparams (map as_note marks) priors) as [i|].
    + rewrite var_hover_iff. symmetry. apply part_about. intro a. split.
      * intro H. inversion H as [| | | | |? ? j _ Hs|]; subst. apply Sc in Hs. injection Hs as ->. reflexivity.
      * intros ->. apply su_field; [exact Kn|apply Sc; reflexivity].
    + unfold Hover.construct_var_hover. cbn [Hover.walk fold_left with_docs]. rewrite some_nil, part_none; [reflexivity|]. intros a H. inversion H as [| | | | |? ? j _ Hs|]; subst. apply Sc in Hs. discriminate.
  - destruct (macro_docs loc) as [d|] eqn:E.
    + rewrite (part_about marks _ (MacroDocs d)). 2: { intro a. split; [intro H; inversion H; subst; congruence|intros ->; constructor; exact E]. }
      split; [intro Q; injection Q as <-; constructor|]. intro H. inversion H; subst. reflexivity.
    + rewrite some_nil, part_none; [reflexivity|]. intros a H. inversion H; subst. congruence.
Qed.
Lemma subject_fun marks m a b : subject marks m a -> subject marks m b -> a = b.
Proof using T AC.
  intros Ha Hb. destruct Ha as [most x cs i He Hi|most x idx cs i He Hi|x i j Kn Hs Hn|x i Kn Hi|priors x i Kn Hs|priors x i Kn Hs|loc d E].
  - remember (OnVariable (most ++ [x])) as m eqn:Em. destruct Hb as [most' x' cs' i' He' Hi'| | | | | |]; try discriminate Em. injection Em as Em. apply app_inj_tail in Em. destruct Em as [-> ->]. rewrite (entered _ _ _ _ (conj He Hi)), (entered _ _ _ _ (conj He' Hi')). reflexivity.
  - remember (OnHeader (most ++ [x]) idx) as m eqn:Em. destruct Hb as [|most' x' idx' cs' i' He' Hi'| | | | |]; try discriminate Em. injection Em as Em _. apply app_inj_tail in Em. destruct Em as [-> ->]. rewrite (entered _ _ _ _ (conj He Hi)), (entered _ _ _ _ (conj He' Hi')). reflexivity.
  - inversion Hb as [| |? i' j' _ Hs' _| | | |]; subst. apply (unscoped_iff V D L t pvars pparams T AC) in Hs, Hs'. rewrite Hs in Hs'. injection Hs' as ->. reflexivity.
  - inversion Hb as [| | |? i' _ Hi'| | |]; subst. pose proof (around_iff V D L t T marks) as C. destruct (find_type_context V D t (map as_note marks)) as [ty pn]. destruct C as (_ & _ & Hh). apply Hh in Hi, Hi'. congruence.
  - inversion Hb as [| | | |? ? i' _ Hs'| |]; subst. apply (scoped_some V D L t pvars pparams T AC) in Hs, Hs'. rewrite Hs in Hs'. injection Hs' as ->. reflexivity.
  - inversion Hb as [| | | | |? ? i' _ Hs'|]; subst. apply (scoped_some V D L t pvars pparams T AC) in Hs, Hs'. rewrite Hs in Hs'. injection Hs' as ->. reflexivity.
  - inversion Hb; subst. congruence.
Qed.
Notation hover_marks := (hover_marks V D L t hvars value_params value_loc value_docs kind_name macro_docs builtin file_link).
Lemma marks_iff marks todo : forall rs, hover_marks marks todo = Some rs <-> exists parts, Forall2 (part marks) todo parts /\ rs = List.concat parts.
Proof using T AC Hv.
  induction todo as [|m todo IH]; intro rs; cbn [Hover.hover_marks].
  - split; [intro Q; injection Q as <-; exists []; split; [constructor|reflexivity]|]. intros (parts & F & ->). inversion F. reflexivity.
  - pose proof (mark_iff marks m) as M. destruct (hover_mark marks m) as [p|].
    + destruct (hover_marks marks todo) as [rest|].
      * split; [intro Q; injection Q as <-; destruct (proj1 (IH rest) eq_refl) as (parts & F & ->); exists (p :: parts); split; [constructor; [apply M; reflexivity|exact F]|reflexivity]|]. intros (parts & F & ->). inversion F as [|? p' ? parts' Hp F']; subst. apply M in Hp. injection Hp as <-.
        assert (Q : Some rest = Some (List.concat parts')) by (apply IH; eauto). injection Q as ->. reflexivity.
      * split; [discriminate|]. intros (parts & F & ->). inversion F as [|? p' ? parts' Hp F']; subst. assert (Q : None = Some (List.concat parts')) by (apply IH; eauto). discriminate.
    + split; [discriminate|]. intros (parts & F & ->). inversion F as [|? p' ? parts' Hp F']; subst. apply M in Hp. discriminate.
Qed.
Lemma hover_iff marks r : hover V D L t hvars value_params value_loc value_docs kind_name macro_docs builtin file_link marks = Some r <-> shown V D L t hvars value_params value_loc value_docs kind_name macro_docs builtin file_link marks r.
Proof using T AC Hv.
  unfold hover, shown. pose proof (marks_iff marks marks) as M. destruct (hover_marks marks marks) as [rs|].
  - destruct (proj1 (M rs) eq_refl) as (parts & F & ->). split.
    + intro Q. exists parts. split; [exact F|]. destruct (List.concat parts); injection Q as <-; reflexivity.
    + intros (parts' & F' & ->). assert (Q : Some (List.concat parts) = Some (List.concat parts')) by (apply M; eauto). injection Q as ->. destruct (List.concat parts'); reflexivity.
  - split; [discriminate|]. intros (parts & F & _). assert (Q : None = Some (List.concat parts)) by (apply M; eauto). discriminate.
Qed.
Lemma refused_iff marks : hover V D L t hvars value_params value_loc value_docs kind_name macro_docs builtin file_link marks = None <-> exists m a, In m marks /\ subject marks m a /\ forall rs, ~ page a rs.
Proof using T AC Hv.
  assert (G : forall todo, hover_marks marks todo = None <-> exists m a, In m todo /\ subject marks m a /\ forall rs, ~ page a rs).
  { induction todo as [|m todo IH]; cbn [Hover.hover_marks]; [split; [discriminate|intros (m & a & [] & _)]|]. pose proof (mark_iff marks m) as M. destruct (hover_mark marks m) as [p|] eqn:E.
    - assert (Gm : forall a, subject marks m a -> (forall rs, ~ page a rs) -> False).
      { intros a Ha Np. destruct (proj1 (M p) eq_refl) as [(a' & Ha' & P)|[N _]]; [|exact (N a Ha)]. rewrite (subject_fun _ _ _ _ Ha Ha') in Np. exact (Np p P). }
      destruct (hover_marks marks todo) as [rest|].
      + split; [discriminate|]. intros (m' & a & [<-|Hm] & Ha & Np); [destruct (Gm a Ha Np)|]. assert (Q : Some rest = None) by (apply IH; eauto). discriminate.
      + split; [|reflexivity]. intros _. destruct (proj1 IH eq_refl) as (m' & a & Hm & R). exists m', a. split; [right; exact Hm|exact R].
    - split; [|reflexivity]. intros _. assert (Ex : forall a, subject marks m a -> forall rs, ~ page a rs).
      { intros a Ha rs P. assert (Q : None = Some rs) by (apply M; left; eauto). discriminate. }
      destruct m as [path|absolute parts|parts|path|path idx|path idx|loc lty name|x|x|priors x|priors x| |idx|loc|priors x idx|idx|]; cbn [Hover.hover_mark] in E; cbv zeta in E; try discriminate E.
      + destruct (split_last path) as [[most x]|] eqn:Es; [|discriminate]. apply split_last_some in Es. subst path. destruct (enters_here [lit "var"] most) as (cs & He & Hi). eexists _, _. split; [left; reflexivity|]. split; [eapply su_variable; eauto|]. apply Ex. eapply su_variable; eauto.
      + destruct (split_last path) as [[most x]|] eqn:Es; [|discriminate]. apply split_last_some in Es. subst path. destruct (enters_here [lit "proc"; lit "verb"] most) as (cs & He & Hi). eexists _, _. split; [left; reflexivity|]. split; [eapply su_header; eauto|]. apply Ex. eapply su_header; eauto.
      + destruct (symbol_at V D L t pvars pparams marks) as [s|] eqn:Ek; [|discriminate]. assert (Kn : known marks) by (apply known_iff; congruence). pose proof (around_iff V D L t T marks) as C. destruct (find_type_context V D t (map as_note marks)) as [ty pn]. destruct C as (_ & _ & Hh).
        assert (Hs : subject marks (OnCall x) (OneProc false (or_root ty) x)) by (apply su_call; [exact Kn|apply Hh; reflexivity]). eexists _, _. split; [left; reflexivity|]. split; [exact Hs|exact (Ex _ Hs)].
      + destruct (symbol_at V D L t pvars pparams marks) as [s|] eqn:Ek; [|discriminate]. assert (Kn : known marks) by (apply known_iff; congruence). destruct (unscoped_var V D L t pvars pparams marks x) as [[loc ty|i proc idx k ty|i]|] eqn:Eu; try discriminate. apply (unscoped_iff V D L t pvars pparams T AC) in Eu.
        destruct (climb V D t false (with_var_decl pvars x) i) as [[k path]|] eqn:Ec; [|discriminate]. assert (Hs : subject marks (OnName x) (OneVar false i x)) by (eapply su_name; [exact Kn|exact Eu|apply (up_declares V D t pvars T AC); eauto]). eexists _, _. split; [left; reflexivity|]. split; [exact Hs|exact (Ex _ Hs)].
      + destruct (symbol_at V D L t pvars pparams marks) as [s|] eqn:Ek; [|discriminate]. assert (Kn : known marks) by (apply known_iff; congruence). destruct (find_scoped_type V D t pvars pparams (map as_note marks) priors) as [i|] eqn:Es; [|discriminate E]. apply (scoped_some V D L t pvars pparams T AC) in Es.
        assert (Hs : subject marks (OnMethod priors x) (OneProc true i x)) by (apply su_method; assumption). eexists _, _. split; [left; reflexivity|]. split; [exact Hs|exact (Ex _ Hs)].
      + destruct (symbol_at V D L t pvars pparams marks) as [s|] eqn:Ek; [|discriminate]. assert (Kn : known marks) by (apply known_iff; congruence). destruct (find_scoped_type V D t pvars pparams (map as_note marks) priors) as [i|] eqn:Es; [|discriminate E]. apply (scoped_some V D L t pvars pparams T AC) in Es.
        assert (Hs : subject marks (OnField priors x) (OneVar true i x)) by (apply su_field; assumption). eexists _, _. split; [left; reflexivity|]. split; [exact Hs|exact (Ex _ Hs)].
      + destruct (macro_docs loc); discriminate E. }
  unfold hover. specialize (G marks). destruct (hover_marks marks marks) as [[|r rs]|]; [split; [discriminate|intro H; apply G in H; discriminate]|split; [discriminate|intro H; apply G in H; discriminate]|split; [intros _; apply G; reflexivity|reflexivity]].
Qed.
(** ** With a link to every place there is an answer *)
Lemma gather_all {A : Type} (f : nat -> option (option A)) js : (forall j, f j <> None) -> exists l, gather f js = Some l.
Proof using Type. intro H. induction js as [|j js (l & IH)]; cbn [gather]; [eauto|]. specialize (H j). destruct (f j) as [[a|]|]; [rewrite IH; eauto|eauto|congruence]. Qed.
Lemma page_all a : (forall loc, exists u, linked loc u) -> exists rs, page a rs.
Proof using T AC Hv.
  intro Hl. assert (Lk : forall loc, exists u, location_link loc = Some u) by (intro loc; destruct (Hl loc) as (u & H); exists u; apply linked_iff; exact H).
  destruct a as [i x|i x|b i x|b i x|d].
  - destruct (gather_all (var_page_entry x) (walk false (Some i))) as (es & E).
    { intro j. unfold var_page_entry. destruct (get x (hvars j)) as [v|]; [|discriminate]. destruct (Lk (h_loc v)) as (u & ->). discriminate. }
    assert (Q : exists rs, page_of (fold_left (var_page_step x) (walk false (Some i)) (Some ([], None))) = Some rs) by (rewrite var_page_fold, E; cbn [page_of]; eauto). destruct Q as (rs & Q). exists rs. apply var_page_iff. exact Q.
  - destruct (gather_all (proc_page_entry x) (walk false (Some i))) as (es & E).
    { intro j. unfold proc_page_entry. destruct (procs_of t j x) as [p|] eqn:Ep; [|discriminate]. destruct (value_of j x p Ep) as (v & ->). destruct (Lk (value_loc v)) as (u & ->). discriminate. }
    assert (Q : exists rs, page_of (fold_left (proc_page_step x) (walk false (Some i)) (Some ([], None))) = Some rs) by (rewrite proc_page_fold, E; cbn [page_of]; eauto). destruct Q as (rs & Q). exists rs. apply proc_page_iff. exact Q.
  - destruct (gather_all (var_use_entry x) (walk b (Some i))) as (es & E).
    { intro j. unfold var_use_entry. destruct (get x (hvars j)) as [v|]; [|discriminate]. destruct (h_decl v) as [[flags path]|]; [|discriminate]. destruct (Lk (h_loc v)) as (u & ->). discriminate. }
    assert (Q : exists rs, construct_var_hover x (Some i) b = Some rs) by (unfold Hover.construct_var_hover; rewrite var_use_fold, E; eauto). destruct Q as (rs & Q). exists rs. apply var_hover_iff. exact Q.
  - assert (Q : forall js s, fold_left (proc_step x) js (Some s) <> None).
    { induction js as [|j js IH]; intros [[r d] o]; cbn [fold_left]; [discriminate|]. unfold Hover.proc_step at 2. destruct (procs_of t j x) as [p|] eqn:Ep; [|apply IH]. destruct (value_of j x p Ep) as (v & ->). destruct d as [[link body]|]; [apply IH|]. destruct (Lk (value_loc v)) as (u & ->). apply IH. }
    specialize (Q (walk b (Some i)) ([], None, None)). assert (Q2 : exists rs, construct_proc_hover x (Some i) b = Some rs) by (unfold Hover.construct_proc_hover; destruct (fold_left _ _ _) as [[[r d] o]|]; [eauto|congruence]). destruct Q2 as (rs & Q2). exists rs. apply proc_hover_iff. exact Q2.
  - eexists. constructor.
Qed.
(** ** Calls *)
Lemma call_page marks x j k rs : known marks -> goes V D L t pvars pparams marks (OnCall x) (ToProc (j, x, k)) -> part marks (OnCall x) rs ->
  exists p v title decls ds, proc_at x j p /\ nth_error (p_values p) k = Some v /\ titled j (value_loc v) title /\ List.length ds <= 1 /\
    rs = map (fun d => title ++ [10%N] ++ code (kind_name d ++ lit "/" ++ header x v)) decls ++ ds.
Proof using T AC.
  intros Kn Hg Hp. remember (ToProc (j, x, k)) as tg eqn:Et. remember (OnCall x) as m eqn:Em. destruct Hg as [| | | |y i j' r Hh Hn Hl| | | | | | | |]; try discriminate Em. injection Em as ->. injection Et as ->.
  pose proof (su_call V D L t hvars value_params macro_docs marks x i Kn Hh) as Hs. destruct Hp as [(a & Ha & P)|[N _]]; [|destruct (N _ Hs)]. rewrite (subject_fun _ _ _ _ Ha Hs) in P.
  destruct Hl as (p & vs & v & Ep & Ev & Q). injection Q as -> ->. inversion P as [| | |? ? ? js Hl Hno|? ? ? js j2 v' title decls docs ds Hl Hn2 Hv2 Ht Cd Cc Tp|]; subst.
  - exfalso. apply (nearest_iff V D t T AC) in Hn. destruct Hn as (pre & post & E & _). change (upwards V D t (above V D t false) i) with (walk false (Some i)) in E. rewrite (lineage_walk _ _ _ Hl), E in Hno. exact (Hno j' p (in_elt _ _ _) Ep).
  - apply (up_proc V D t T AC) in Hn, Hn2. rewrite Hn in Hn2. injection Hn2 as <-. destruct Hv2 as (p' & vs' & Ep' & Ev'). unfold HoverSpec.proc_at in Ep'. rewrite Ep in Ep'. injection Ep' as <-. rewrite Ev in Ev'. apply app_inj_tail in Ev'. destruct Ev' as [_ <-].
    exists p, v, title, decls, ds. split; [exact Ep|]. split; [rewrite Ev, nth_error_app2, Nat.sub_diag; [reflexivity|apply Nat.le_refl]|]. split; [exact Ht|]. split; [destruct Tp; cbn [List.length]; lia|reflexivity].
Qed.
End PROPS.

(** ** The theorems *)
Section THEOREMS.
Variables V D L : Type.
Variable t : objtree V D.
Variable hvars : nat -> list (text * hvar L).
Variable value_params : V -> list hparam.
Variable value_loc : V -> L.
Variable value_docs : V -> option text.
Variable kind_name : D -> text.
Variable macro_docs : L -> option text.
Variable builtin : L -> bool.
Variable file_link : L -> option text.
Notation answer := (hover V D L t hvars value_params value_loc value_docs kind_name macro_docs builtin file_link).
Notation part := (part V D L t hvars value_params value_loc value_docs kind_name macro_docs builtin file_link).
Notation subject := (subject V D L t hvars value_params macro_docs). Notation page := (page V D L t hvars value_params value_loc value_docs kind_name builtin file_link).
(** only types have variables *)
Definition of_types : Prop := forall j x v, get x (hvars j) = Some v -> exists cs, at_ t j cs.
(** The answer is exactly the pages of what the annotations are about. *)
Theorem C77_hover : forall out (marks : list (mark L)) r, finished t out -> acyclic t -> of_types ->
  (answer marks = Some r <-> shown V D L t hvars value_params value_loc value_docs kind_name macro_docs builtin file_link marks r).
Proof using Type. intros out marks r F AC Hv. apply hover_iff; [exact (finished_tidy V D t out F)|exact AC|exact Hv]. Qed.
(** It is refused exactly if one of the pages cannot be made ... *)
Theorem C77_refused : forall out (marks : list (mark L)), finished t out -> acyclic t -> of_types -> (answer marks = None <-> exists m a, In m marks /\ subject marks m a /\ forall rs, ~ page a rs).
Proof using Type. intros out marks F AC Hv. apply refused_iff; [exact (finished_tidy V D t out F)|exact AC|exact Hv]. Qed.
(** ... which is not so, if there is a link to every place. *)
Theorem C77_answered : forall out (marks : list (mark L)), finished t out -> acyclic t -> of_types -> (forall loc, exists u, linked L builtin file_link loc u) -> exists r, answer marks = Some r.
Proof using Type.
  intros out marks F AC Hv Hl. destruct (answer marks) as [r|] eqn:E; [eauto|]. exfalso. apply (refused_iff V D L t hvars value_params value_loc value_docs kind_name macro_docs builtin file_link (finished_tidy V D t out F) AC Hv) in E.
  destruct E as (m & a & _ & _ & N). destruct (page_all V D L t hvars value_params value_loc value_docs kind_name builtin file_link (finished_tidy V D t out F) AC Hv a Hl) as (rs & P). exact (N rs P).
Qed.
(** Each annotation is about one thing at most. *)
Theorem C77_subject : forall out (marks : list (mark L)) m a b, finished t out -> acyclic t -> subject marks m a -> subject marks m b -> a = b.
Proof using Type. intros out marks m a b F AC. apply subject_fun; [exact (finished_tidy V D t out F)|exact AC]. Qed.
(** What is shown of a call is the procedure that going to the definition leads to: its type, its place, its parameters. *)
Theorem C77_call : forall out (marks : list (mark L)) x j k rs, finished t out -> acyclic t -> known V D L t hvars value_params marks ->
  goes V D L t (plain_vars L hvars) (plain_params V value_params) marks (OnCall x) (ToProc (j, x, k)) -> part marks (OnCall x) rs ->
  exists p v title decls ds, procs_of t j x = Some p /\ nth_error (p_values p) k = Some v /\ titled V D L t builtin file_link j (value_loc v) title /\ List.length ds <= 1 /\
    rs = map (fun d => title ++ [10%N] ++ code (kind_name d ++ lit "/" ++ header V value_params x v)) decls ++ ds.
Proof using Type. intros out marks x j k rs F AC. apply call_page; [exact (finished_tidy V D t out F)|exact AC]. Qed.
End THEOREMS.
Print Assumptions C77_hover.
Print Assumptions C77_refused.
Print Assumptions C77_answered.
Print Assumptions C77_subject.
Print Assumptions C77_call.
