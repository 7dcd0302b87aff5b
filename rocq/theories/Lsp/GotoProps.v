(** C74: where the names at a place lead. *)
From Coq Require Import List Arith NArith Bool String Lia Relations.
From Verif Require Import Common.Text Parse.Ast Objtree.Ispath Objtree.Model Objtree.Lemmas Objtree.Spec Objtree.Wf Objtree.Assign Objtree.Paths Objtree.Inherit Objtree.Calls.
From Verif Require Import Lsp.Completion Lsp.CompletionSpec Lsp.CompletionProps Lsp.Goto Lsp.GotoSpec.
Import ListNotations.
Open Scope nat_scope.

(** ** Lists *)
Lemma first_some_iff {A B : Type} (f : A -> option B) l b : Goto.first_some f l = Some b <-> exists pre a post, l = pre ++ a :: post /\ f a = Some b /\ forall k, In k pre -> f k = None.
Proof.
  induction l as [|a l IH]; cbn [Goto.first_some].
  - split; [discriminate|]. intros (pre & a & post & Q & _). destruct pre; discriminate.
  - destruct (f a) as [b'|] eqn:E.
    + split; [intro Q; injection Q as ->; exists [], a, l; split; [reflexivity|]; split; [exact E|intros k []]|]. intros (pre & a' & post & Q & F & N). destruct pre as [|c pre]; injection Q as <- Q; [congruence|]. rewrite (N a (or_introl eq_refl)) in E. discriminate.
    + rewrite IH. split.
      * intros (pre & a' & post & -> & F & N). exists (a :: pre), a', post. split; [reflexivity|]. split; [exact F|]. intros k [<-|Hk]; auto.
      * intros (pre & a' & post & Q & F & N). destruct pre as [|c pre]; injection Q as <- Q; [congruence|]. exists pre, a', post. split; [exact Q|]. split; [exact F|]. intros k Hk. apply N. right. exact Hk.
Qed.
Lemma first_some_none {A B : Type} (f : A -> option B) l : Goto.first_some f l = None <-> forall a, In a l -> f a = None.
Proof.
  induction l as [|a l IH]; cbn [Goto.first_some]; [split; [intros _ a []|reflexivity]|]. destruct (f a) as [b|] eqn:E.
  - split; [discriminate|]. intro H. rewrite (H a (or_introl eq_refl)) in E. discriminate.
  - rewrite IH. split; [intros H k [<-|Hk]; auto|intros H k Hk; apply H; right; exact Hk].
Qed.
Lemma last_some_iff {A B : Type} (f : A -> option B) l : forall so b, last_some f l so = Some b <-> (exists pre a post, l = pre ++ a :: post /\ f a = Some b /\ forall k, In k post -> f k = None) \/ so = Some b /\ forall a, In a l -> f a = None.
Proof.
  induction l as [|a l IH]; intros so b; cbn [last_some].
  - split; [intros ->; right; split; [reflexivity|intros a []]|]. intros [(pre & a & post & Q & _)|[Q _]]; [destruct pre; discriminate|exact Q].
  - rewrite IH. split.
    + intros [(pre & a' & post & -> & F & N)|[Q N]]; [left; exists (a :: pre), a', post; auto|]. destruct (f a) as [b'|] eqn:E; [left; exists [], a, l; split; [reflexivity|]; split; [congruence|exact N]|]. right. split; [exact Q|]. intros k [<-|Hk]; auto.
    + intros [(pre & a' & post & Q & F & N)|[Q N]].
      * destruct pre as [|c pre]; injection Q as <- Q; [subst post; right; rewrite F; auto|]. left. exists pre, a', post. auto.
      * right. rewrite (N a (or_introl eq_refl)). split; [exact Q|]. intros k Hk. apply N. right. exact Hk.
Qed.
Lemma numbered_spec (x : text) ps : forall k, match numbered k x ps with
  | Some (n, ty) => exists pre post, ps = pre ++ (x, ty) :: post /\ ~ In x (map fst pre) /\ n = k + List.length pre | None => ~ In x (map fst ps) end.
Proof.
  induction ps as [|[y ty] ps IH]; intro k; cbn [numbered]; [intros []|]. destruct (text_eqb_spec y x) as [->|N].
  - exists [], ps. split; [reflexivity|]. split; [intros []|cbn [List.length]; lia].
  - specialize (IH (S k)). destruct (numbered (S k) x ps) as [[n ty']|].
    + destruct IH as (pre & post & -> & H & ->). exists ((y, ty) :: pre), post. split; [reflexivity|]. split; [cbn [map In fst]; intros [Q|Q]; auto|cbn [List.length]; lia].
    + cbn [map In fst]. intros [Q|Q]; auto.
Qed.
Lemma numbered_iff (x : text) ps n ty : numbered 0 x ps = Some (n, ty) <-> exists pre post, ps = pre ++ (x, ty) :: post /\ ~ In x (map fst pre) /\ n = List.length pre.
Proof.
  pose proof (numbered_spec x ps 0) as S. split; [intro E; rewrite E in S; exact S|]. intros (pre & post & E & H & ->). destruct (numbered 0 x ps) as [[n' ty']|].
  - destruct S as (pre' & post' & E' & H' & ->). assert (Q : pre = pre' /\ ty = ty').
    { rewrite E in E'. clear E. revert pre' E' H'. induction pre as [|e pre IH]; intros [|e' pre'] E' H'; cbn [app] in E'; injection E' as E1 E2.
      - auto.
      - destruct H'. subst e'. left. reflexivity.
      - destruct H. subst e. left. reflexivity.
      - subst e'. destruct (IH (fun Q => H (or_intror Q)) pre' E2 (fun Q => H' (or_intror Q))) as [-> ->]. auto. }
    destruct Q as [-> ->]. reflexivity.
  - destruct S. rewrite E, map_app. apply in_or_app. right. left. reflexivity.
Qed.
Section MARKS.
Variable L : Type.
Lemma mark_first {B : Type} (f : mark L -> option B) (P : mark L -> Prop) (b : B) marks : (forall m, P m <-> f m <> None) ->
  (Goto.first_some f marks = Some b <-> exists m, first_mark L P marks m /\ f m = Some b).
Proof using Type.
  intro HP. rewrite first_some_iff. unfold first_mark. split.
  - intros (pre & m & post & E & F & N). exists m. split; [|exact F]. exists pre, post. split; [exact E|]. split; [apply HP; congruence|]. intros k Hk Q. apply HP in Q. rewrite (N k Hk) in Q. congruence.
  - intros (m & (pre & post & E & _ & N) & F). exists pre, m, post. split; [exact E|]. split; [exact F|]. intros k Hk. destruct (f k) eqn:Q; [|reflexivity]. destruct (N k Hk). apply HP. congruence.
Qed.
Lemma mark_none {B : Type} (f : mark L -> option B) (P : mark L -> Prop) marks : (forall m, P m <-> f m <> None) -> (Goto.first_some f marks = None <-> forall m, In m marks -> ~ P m).
Proof using Type.
  intro HP. rewrite first_some_none. split; intros H m Hm; specialize (H m Hm).
  - intro Q. apply HP in Q. congruence.
  - destruct (f m) eqn:E; [|reflexivity]. destruct H. apply HP. congruence.
Qed.
Lemma first_mark_fun (P : mark L -> Prop) marks m m' : first_mark L P marks m -> first_mark L P marks m' -> m = m'.
Proof using Type.
  intros (a & b & E & Hn & Ha) (a' & b' & E' & Hn' & Ha'). subst marks. revert a' E' Ha'. induction a as [|x a IH]; intros [|y a'] E' Ha'.
  - injection E' as -> _. reflexivity.
  - injection E' as -> _. destruct (Ha' y (or_introl eq_refl) Hn).
  - injection E' as -> _. destruct (Ha m' (or_introl eq_refl) Hn').
  - injection E' as -> E'. apply (IH (fun k Hk => Ha k (or_intror Hk)) a' E' (fun k Hk => Ha' k (or_intror Hk))).
Qed.
Lemma local_called_iff x m : is_local L x m <-> local_called L x m <> None.
Proof using Type.
  unfold is_local, local_called. split.
  - intros (loc & ty & ->). rewrite text_eqb_refl. discriminate.
  - destruct m; intro H; try congruence. revert H. destruct (text_eqb_spec name x) as [->|N]; [eauto|congruence].
Qed.
Lemma local_called_some x m th : local_called L x m = Some th -> exists loc ty, m = OnLocal loc ty x /\ th = IsLocal loc ty.
Proof using Type.
  unfold local_called. destruct m; try discriminate. destruct (text_eqb_spec name x) as [->|]; [|discriminate]. intro Q. injection Q as <-. eauto.
Qed.
Lemma arguments_iff m : is_arguments L m <-> arguments_mark L m <> None.
Proof using Type. unfold is_arguments, arguments_mark. split; [intros (a & b & c & ->); discriminate|destruct m; intro H; try congruence; eauto]. Qed.
Lemma argument_iff m : is_argument L m <-> argument_mark L m <> None.
Proof using Type. unfold is_argument, argument_mark. split; [intros (c & ->); discriminate|destruct m; intro H; try congruence; eauto]. Qed.
End MARKS.

(** ** The text of a signature *)
Lemma write_type_eq ty : forall sep label : text, write_type sep label ty = label ++ sep ++ flat_map (fun w => w ++ lit "/") ty.
Proof.
  induction ty as [|w ty IH]; intros sep label; cbn [write_type flat_map]; [rewrite app_nil_r; reflexivity|]. rewrite IH, <- !app_assoc. reflexivity.
Qed.
Lemma joined_slash (x : text) ty : joined (lit "/") (ty ++ [x]) = flat_map (fun w => w ++ lit "/") ty ++ x.
Proof.
  induction ty as [|w ty IH]; [reflexivity|]. cbn [flat_map]. rewrite <- !app_assoc, <- IH. change ((w :: ty) ++ [x]) with (w :: (ty ++ [x])). destruct (ty ++ [x]) as [|a l] eqn:E; [destruct ty; discriminate|]. reflexivity.
Qed.
Lemma write_params_spec ps : forall sep label : text, let '(label', spans) := write_params sep label ps in
  label' = label ++ match ps with [] => [] | _ => sep ++ joined (lit ", ") (map written ps) end /\ List.length spans = List.length ps /\
  forall k y ty, nth_error ps k = Some (y, ty) -> exists before after, label' = before ++ y ++ after /\ nth_error spans k = Some (List.length before, List.length before + List.length y) /\
    before = label ++ sep ++ flat_map (fun e => written e ++ lit ", ") (firstn k ps) ++ flat_map (fun w => w ++ lit "/") ty.
Proof.
  induction ps as [|[x tyx] ps IH]; intros sep label; cbn [write_params].
  - rewrite app_nil_r. split; [reflexivity|]. split; [reflexivity|]. intros [|k] y ty Q; discriminate.
  - specialize (IH (lit ", ") (write_type sep label tyx ++ x)). destruct (write_params (lit ", ") (write_type sep label tyx ++ x) ps) as [label' spans]. destruct IH as (E & Hl & H).
    assert (Wx : write_type sep label tyx ++ x = label ++ sep ++ written (x, tyx)) by (unfold written; cbn [fst snd]; rewrite write_type_eq, joined_slash, <- !app_assoc; reflexivity).
    split; [|split].
    + rewrite E, Wx. cbn [map]. destruct ps as [|e ps]; [cbn [map joined]; rewrite app_nil_r; reflexivity|]. cbn [map]. set (r := map written ps). cbn [joined]. rewrite <- !app_assoc. reflexivity.
    + cbn [List.length]. rewrite Hl. reflexivity.
    + intros [|k] y ty Q; cbn [nth_error] in Q.
      * injection Q as <- <-. exists (write_type sep label tyx), (match ps with [] => [] | _ => lit ", " ++ joined (lit ", ") (map written ps) end). split; [rewrite E, <- app_assoc; reflexivity|]. split; [cbn [nth_error]; rewrite app_length; reflexivity|]. rewrite write_type_eq. reflexivity.
      * destruct (H k y ty Q) as (before & after & E1 & E2 & E3). exists before, after. split; [exact E1|]. split; [exact E2|]. rewrite E3, Wx. cbn [firstn flat_map]. rewrite <- !app_assoc. reflexivity.
Qed.
Lemma signature_of_fun path x ps l s l' s' : signature_of path x ps l s -> signature_of path x ps l' s' -> l = l' /\ s = s'.
Proof.
  intros (-> & Hn & H) (-> & Hn' & H'). split; [reflexivity|]. clear - Hn Hn' H H'.
  assert (G : forall k, nth_error s k = nth_error s' k).
  { intro k. destruct (nth_error ps k) as [[y ty]|] eqn:E.
    - destruct (H k y ty E) as (b & a & _ & -> & ->). destruct (H' k y ty E) as (b' & a' & _ & -> & ->). reflexivity.
    - apply nth_error_None in E. rewrite (proj2 (nth_error_None s k)), (proj2 (nth_error_None s' k)) by lia. reflexivity. }
  clear - G. revert s' G. induction s as [|a s IH]; intros [|b s'] G; [reflexivity|discriminate (G 0)|discriminate (G 0)|]. pose proof (G 0) as Q. injection Q as ->. f_equal. apply IH. intro k. exact (G (S k)).
Qed.

Section PROPS.
Variables V D L : Type.
Variable t : objtree V D.
Variable vars : nat -> list (text * option (list text)).
Variable params : V -> list (text * list text).
Hypothesis T : tidy V D t.
Hypothesis AC : acyclic t.
Notation size := (S (List.length (graph t))).
Notation mark := (mark L). Notation thing := (thing L). Notation target := (target L).
Notation listed := (listed V D t). Notation reach := (reach V D t). Notation around := (around V D t). Notation here := (here V D t). Notation scoped := (scoped V D t vars params).
Notation parameters_here := (parameters_here V D t params). Notation leads := (leads V D t).
Notation climb := (climb V D t). Notation nearest_with := (nearest_with V D t). Notation has_proc := (has_proc V D t). Notation declares_proc := (declares_proc V D t).
Notation has_var := (has_var vars). Notation declares_var := (declares_var vars). Notation last_value := (GotoSpec.last_value V D t).
Notation with_proc := (with_proc V D t). Notation with_proc_decl := (with_proc_decl V D t). Notation with_var := (with_var vars). Notation with_var_decl := (with_var_decl vars).
Notation find_type_context := (find_type_context V D t). Notation find_scoped_type := (find_scoped_type V D t vars params).
Notation stands := (stands V D L t vars params). Notation unscoped_var := (unscoped_var V D L t vars params).
Notation goes := (goes V D L t vars params). Notation goto_mark := (goto_mark V D L t vars params).
Local Lemma W : wf V D t. Proof using T. exact (td_wf V D t T). Qed.

(** ** Going up *)
Lemma nearest_iff rootless (P : nat -> Prop) i j : nearest_with rootless P i j <-> exists pre post, upwards V D t (above V D t rootless) i = pre ++ j :: post /\ P j /\ forall k, In k pre -> ~ P k.
Proof using T AC.
  destruct (upwards_spec V D t T AC rootless i) as (l & -> & N & S & rest & Hl). split.
  - intros (R & H & M). apply (S [] i rest Hl) in R. rewrite <- Hl in R. apply in_split in R. destruct R as (pre & post & E). exists pre, post. split; [exact E|]. split; [exact H|]. intros k Hk Hx.
    assert (R : reach rootless j k) by (apply M; [|exact Hx]; apply (S [] i rest Hl); rewrite <- Hl, E; apply in_or_app; left; exact Hk). apply (S pre j post E) in R. rewrite E in N. clear - Hk R N. induction pre as [|a pre IH]; [destruct Hk|]. cbn [app] in N. inversion N as [|? ? N1 N2]; subst. destruct Hk as [<-|Hk]; [apply N1, in_or_app; right; exact R|auto].
  - intros (pre & post & E & H & M). split; [apply (S [] i rest Hl); rewrite <- Hl, E; apply in_or_app; right; left; reflexivity|]. split; [exact H|]. intros k R Hx. apply (S [] i rest Hl) in R. rewrite <- Hl, E in R. apply in_app_or in R. destruct R as [R|R]; [destruct (M k R Hx)|]. apply (S pre j post E). exact R.
Qed.
Lemma climb_iff {A : Type} rootless (f : nat -> option A) (P : nat -> Prop) i a : (forall j, P j <-> f j <> None) ->
  (climb rootless f i = Some a <-> exists j, nearest_with rootless P i j /\ f j = Some a).
Proof using T AC.
  intro HP. unfold Goto.climb. change (if rootless then parent_without_root V D t else parent_type t) with (above V D t rootless). rewrite first_some_iff. split.
  - intros (pre & j & post & E & F & N). exists j. split; [|exact F]. apply nearest_iff. exists pre, post. split; [exact E|]. split; [apply HP; congruence|]. intros k Hk Q. apply HP in Q. rewrite (N k Hk) in Q. congruence.
  - intros (j & Hj & F). apply nearest_iff in Hj. destruct Hj as (pre & post & E & _ & N). exists pre, j, post. split; [exact E|]. split; [exact F|]. intros k Hk. destruct (f k) eqn:Q; [|reflexivity]. destruct (N k Hk). apply HP. congruence.
Qed.
Lemma with_proc_some x j k : with_proc x j = Some k -> k = j.
Proof using Type. unfold Goto.with_proc. destruct (procs_of t j x); congruence. Qed.
Lemma has_proc_iff x j : has_proc x j <-> with_proc x j <> None.
Proof using Type. unfold GotoSpec.has_proc, Goto.with_proc. destruct (procs_of t j x); split; congruence. Qed.
Lemma declares_proc_iff x j : declares_proc x j <-> with_proc_decl x j <> None.
Proof using Type.
  unfold GotoSpec.declares_proc, Goto.with_proc_decl. split.
  - intros (p & d & -> & ->). discriminate.
  - destruct (procs_of t j x) as [p|]; [|congruence]. destruct (p_decl p) as [d|] eqn:E; [|congruence]. intros _. exists p, d. auto.
Qed.
Lemma with_proc_decl_some x j k : with_proc_decl x j = Some k -> k = j.
Proof using Type. unfold Goto.with_proc_decl. destruct (procs_of t j x) as [p|]; [destruct (p_decl p)|]; congruence. Qed.
Lemma has_var_iff x j : has_var x j <-> with_var x j <> None.
Proof using Type. unfold GotoSpec.has_var, Goto.with_var. destruct (get x (vars j)); split; congruence. Qed.
Lemma with_var_some x j k : with_var x j = Some k -> k = j.
Proof using Type. unfold Goto.with_var. destruct (get x (vars j)); congruence. Qed.
Lemma declares_var_iff x j : declares_var x j <-> with_var_decl x j <> None.
Proof using Type.
  unfold GotoSpec.declares_var, Goto.with_var_decl. split.
  - intros (p & ->). discriminate.
  - destruct (get x (vars j)) as [[p|]|]; [|congruence|congruence]. eauto.
Qed.
Lemma with_var_decl_some x j k path : with_var_decl x j = Some (k, path) -> k = j /\ get x (vars j) = Some (Some path).
Proof using Type. unfold Goto.with_var_decl. destruct (get x (vars j)) as [[p|]|]; [|discriminate|discriminate]. intro Q. injection Q as <- <-. auto. Qed.
Lemma up_proc b x i j : climb b (with_proc x) i = Some j <-> nearest_with b (has_proc x) i j.
Proof using T AC.
  rewrite (climb_iff b (with_proc x) (has_proc x) i j (has_proc_iff x)). split.
  - intros (k & H & E). rewrite (with_proc_some _ _ _ E). exact H.
  - intro H. exists j. split; [exact H|]. destruct H as (_ & H & _). apply has_proc_iff in H. destruct (with_proc x j) as [k|] eqn:E; [rewrite (with_proc_some _ _ _ E); reflexivity|congruence].
Qed.
Lemma up_proc_decl b x i j : climb b (with_proc_decl x) i = Some j <-> nearest_with b (declares_proc x) i j.
Proof using T AC.
  rewrite (climb_iff b (with_proc_decl x) (declares_proc x) i j (declares_proc_iff x)). split.
  - intros (k & H & E). rewrite (with_proc_decl_some _ _ _ E). exact H.
  - intro H. exists j. split; [exact H|]. destruct H as (_ & H & _). apply declares_proc_iff in H. destruct (with_proc_decl x j) as [k|] eqn:E; [rewrite (with_proc_decl_some _ _ _ E); reflexivity|congruence].
Qed.
Lemma up_var b x i j : climb b (with_var x) i = Some j <-> nearest_with b (has_var x) i j.
Proof using T AC.
  rewrite (climb_iff b (with_var x) (has_var x) i j (has_var_iff x)). split.
  - intros (k & H & E). rewrite (with_var_some _ _ _ E). exact H.
  - intro H. exists j. split; [exact H|]. destruct H as (_ & H & _). apply has_var_iff in H. destruct (with_var x j) as [k|] eqn:E; [rewrite (with_var_some _ _ _ E); reflexivity|congruence].
Qed.
Lemma up_var_decl b x i j path : climb b (with_var_decl x) i = Some (j, path) <-> nearest_with b (declares_var x) i j /\ get x (vars j) = Some (Some path).
Proof using T AC.
  rewrite (climb_iff b (with_var_decl x) (declares_var x) i (j, path) (declares_var_iff x)). split.
  - intros (k & H & E). apply with_var_decl_some in E. destruct E as [-> E]. auto.
  - intros [H E]. exists j. split; [exact H|]. unfold Goto.with_var_decl. rewrite E. reflexivity.
Qed.
Lemma visible_iff j x r : visible t j x = Some r <-> last_value j x r.
Proof using T.
  unfold visible, GotoSpec.last_value. split.
  - destruct (procs_of t j x) as [p|] eqn:G; [|discriminate]. intro Q. injection Q as <-. destruct (p_values p) as [|v0 l] eqn:E using rev_ind.
    + exfalso. unfold procs_of, node_at in G. destruct (nth_error (graph t) j) as [n|] eqn:N; [|discriminate]. exact (wf_procs V D t W j n x p N G E).
    + exists p, l, v0. split; [reflexivity|]. split; [exact E|]. rewrite app_length. cbn [List.length]. f_equal. lia.
  - intros (p & vs & v & -> & -> & ->). rewrite app_length. cbn [List.length]. rewrite Nat.add_sub. reflexivity.
Qed.
Lemma last_value_has j x r : last_value j x r -> has_proc x j.
Proof using Type. intros (p & vs & v & E & _). unfold GotoSpec.has_proc. congruence. Qed.
Lemma newest_in x o (tg : target) : In tg (newest V D L t x o) <-> exists j r, o = Some j /\ last_value j x r /\ tg = ToProc r.
Proof using T.
  unfold newest. destruct o as [j|]; [|split; [intros []|intros (j & r & Q & _); discriminate]]. destruct (visible t j x) as [r|] eqn:E.
  - split; [intros [<-|[]]; exists j, r; split; [reflexivity|]; split; [apply visible_iff; exact E|reflexivity]|]. intros (j' & r' & Q & H & ->). injection Q as <-. apply visible_iff in H. rewrite E in H. injection H as ->. left. reflexivity.
  - split; [intros []|]. intros (j' & r' & Q & H & ->). injection Q as <-. apply visible_iff in H. congruence.
Qed.
Lemma up_from_iff {A : Type} (f : nat -> option A) b o a : up_from V D t o f b = Some a <-> exists i, o = Some i /\ climb b f i = Some a.
Proof using Type. unfold up_from. destruct o as [i|]; [split; [eauto|intros (i' & Q & H); injection Q as <-; exact H]|split; [discriminate|intros (i & Q & _); discriminate]]. Qed.
(** [get_proc] goes up in the same way. *)
Lemma search_line {A : Type} next (f : nat -> option A) fuel : forall i l, line fuel next i = Some l -> search fuel next f i = Some (Goto.first_some f l).
Proof using Type.
  induction fuel as [|fuel IH]; intros i l E; [discriminate|]. cbn [line] in E. cbn [search]. destruct (next i) as [p|].
  - destruct (line fuel next p) as [l'|] eqn:E'; [|discriminate]. injection E as <-. cbn [Goto.first_some]. destruct (f i); [reflexivity|]. apply IH. exact E'.
  - injection E as <-. cbn [Goto.first_some]. destruct (f i); reflexivity.
Qed.
Lemma get_proc_iff i x r : get_proc t size i x = Some (Some r) <-> exists j, nearest_with false (has_proc x) i j /\ last_value j x r.
Proof using T AC.
  assert (E : get_proc t size i x = Some (climb false (fun j => visible t j x) i)).
  { destruct (upwards_spec V D t T AC false i) as (l & E & _ & _ & rest & El). unfold get_proc, Goto.climb. cbn [above] in E. rewrite E. apply search_line. unfold upwards in E. change (above V D t false) with (parent_type t) in E. destruct (line size (parent_type t) i) as [l'|]; [congruence|subst; discriminate]. }
  rewrite E. clear E. assert (HP : forall j, has_proc x j <-> visible t j x <> None) by (intro j; unfold GotoSpec.has_proc, visible; destruct (procs_of t j x); split; congruence).
  pose proof (climb_iff false (fun j => visible t j x) (has_proc x) i r HP) as C. split.
  - intro Q. injection Q as Q. apply C in Q. destruct Q as (j & H & F). exists j. split; [exact H|]. apply visible_iff. exact F.
  - intros (j & H & F). f_equal. apply C. exists j. split; [exact H|]. apply visible_iff. exact F.
Qed.

(** ** Names *)
Lemma unscoped_iff marks x th : unscoped_var marks x = Some th <-> stands marks x th.
Proof using T AC.
  unfold Goto.unscoped_var. pose proof (context_spec V D t T (map as_note marks)) as C. pose proof (here_iff V D t T (map as_note marks)) as H. destruct (find_type_context (map as_note marks)) as [ty pn]. destruct C as [_ C]. cbn [fst] in H.
  change (match ty with Some j => j | None => 0 end) with (or_root ty) in H. set (i := or_root ty) in *.
  destruct (Goto.first_some (local_called L x) marks) as [th'|] eqn:F.
  - apply (mark_first L _ (is_local L x) th' marks (local_called_iff L x)) in F. destruct F as (m & F & Em). apply local_called_some in Em. destruct Em as (loc & lty & -> & ->).
    assert (Y : ~ no_local L marks x) by (destruct F as (pre & post & -> & Q & _); intro N; apply (N _ (in_elt _ _ _) Q)). split.
    + intro Q. injection Q as <-. constructor. exact F.
    + intros [loc' ty' F'|path name idx k p v pre pty post N _ _ _ _ _ _|k j N _ _ _]; [|destruct (Y N)|destruct (Y N)]. pose proof (first_mark_fun L _ _ _ _ F F') as Q. injection Q as <- <-. reflexivity.
  - pose proof (proj1 (mark_none L _ (is_local L x) marks (local_called_iff L x)) F) as F1. clear F. rename F1 into F. assert (Nl : forall loc lty, ~ first_mark L (is_local L x) marks (OnLocal loc lty x)) by (intros loc lty (pre & post & -> & Q & _); exact (F _ (in_elt _ _ _) Q)).
    assert (P : forall th', parameter_called V D L t params i pn x = Some th' <-> exists path name idx p v pre pty post, in_proc (map as_note marks) path name idx /\ procs_of t i name = Some p /\ nth_error (p_values p) idx = Some v /\
      params v = pre ++ (x, pty) :: post /\ ~ In x (map fst pre) /\ th' = IsParam i name idx (List.length pre) pty).
    { intro th'. unfold parameter_called. split.
      - destruct pn as [[name idx]|]; [|discriminate]. destruct (procs_of t i name) as [p|] eqn:Ep; [|discriminate]. destruct (nth_error (p_values p) idx) as [v|] eqn:Ev; [|discriminate]. destruct (numbered 0 x (params v)) as [[n pty]|] eqn:En; [|discriminate]. intro Q. injection Q as <-.
        apply numbered_iff in En. destruct En as (pre & post & E1 & E2 & ->). destruct (proj1 (C name idx) eq_refl) as (path & Hp). exists path, name, idx, p, v, pre, pty, post. auto 8.
      - intros (path & name & idx & p & v & pre & pty & post & Hp & Ep & Ev & E1 & E2 & ->). assert (E : pn = Some (name, idx)) by (apply C; eauto). rewrite E, Ep, Ev. assert (En : numbered 0 x (params v) = Some (List.length pre, pty)) by (apply numbered_iff; eauto). rewrite En. reflexivity. }
    destruct (parameter_called V D L t params i pn x) as [th'|].
    + destruct (proj1 (P th') eq_refl) as (path & name & idx & p & v & pre & pty & post & Hp & Ep & Ev & E1 & E2 & ->). split.
      * intro Q. injection Q as <-. eapply sn_param; eauto. apply H. reflexivity.
      * intros [loc' ty' F'|path' name' idx' k p' v' pre' pty' post' _ Hp' Hk Ep' Ev' E1' E2'|k j _ N _ _]; [destruct (Nl _ _ F')| |].
        -- apply H in Hk. subst k. apply P. exists path', name', idx', p', v', pre', pty', post'. auto 8.
        -- destruct (N (params v)); [|rewrite E1, map_app; apply in_or_app; right; left; reflexivity]. exists path, name, idx, i, p, v. split; [exact Hp|]. split; [apply H; reflexivity|auto].
    + assert (Np : forall ps, parameters_here (map as_note marks) ps -> ~ In x (map fst ps)).
      { intros ps (path & name & idx & k & p & v & Hp & Hk & Ep & Ev & ->) Hin. apply H in Hk. subst k. destruct (numbered 0 x (params v)) as [[n pty]|] eqn:En.
        - apply numbered_iff in En. destruct En as (pre & post & E1 & E2 & ->). assert (Q : None = Some (@IsParam L i name idx (List.length pre) pty)) by (apply P; exists path, name, idx, p, v, pre, pty, post; auto 8). discriminate.
        - pose proof (numbered_spec x (params v) 0) as S. rewrite En in S. exact (S Hin). }
      destruct (climb false (with_var x) i) as [j|] eqn:E.
      * apply up_var in E. split.
        -- intro Q. injection Q as <-. eapply sn_var; [exact F|exact Np|apply H; reflexivity|exact E].
        -- intros [loc' ty' F'|path' name' idx' k p' v' pre' pty' post' _ Hp' Hk Ep' Ev' E1' E2'|k j' _ _ Hk E']; [destruct (Nl _ _ F')| |].
           ++ apply H in Hk. subst k. assert (Q : None = Some (@IsParam L i name' idx' (List.length pre') pty')) by (apply P; exists path', name', idx', p', v', pre', pty', post'; auto 8). discriminate.
           ++ apply H in Hk. subst k. apply up_var in E, E'. congruence.
      * split; [discriminate|]. intros [loc' ty' F'|path' name' idx' k p' v' pre' pty' post' _ Hp' Hk Ep' Ev' E1' E2'|k j' _ _ Hk E']; [destruct (Nl _ _ F')| |].
        -- apply H in Hk. subst k. assert (Q : None = Some (@IsParam L i name' idx' (List.length pre') pty')) by (apply P; exists path', name', idx', p', v', pre', pty', post'; auto 8). discriminate.
        -- apply H in Hk. subst k. apply up_var in E'. congruence.
Qed.
Lemma scoped_some (marks : list mark) priors i : find_scoped_type (map as_note marks) priors = Some i <-> scoped (map as_note marks) priors i.
Proof using T AC. symmetry. apply scoped_iff; assumption. Qed.
Notation goto_definition := (goto_definition V D L t vars params). Notation has_type := (has_type V D L t vars params). Notation declared_path := (declared_path V D L t vars params).
Notation names := (GotoSpec.names V D L t vars params). Notation symbol_of := (symbol_of V D L t vars params). Notation enters := (enters V D t).

(** ** Definitions *)
Lemma proc_goes b x (o : option nat) (tg : target) : In tg (newest V D L t x (up_from V D t o (with_proc x) b)) <-> exists i j r, o = Some i /\ nearest_with b (has_proc x) i j /\ last_value j x r /\ tg = ToProc r.
Proof using T AC.
  rewrite newest_in. split.
  - intros (j & r & Q & Hl & ->). apply up_from_iff in Q. destruct Q as (i & -> & Q). apply up_proc in Q. exists i, j, r. auto.
  - intros (i & j & r & -> & N & Hl & ->). exists j, r. split; [|auto]. apply up_from_iff. exists i. split; [reflexivity|]. apply up_proc. exact N.
Qed.
Lemma word_kind w : word w <-> proc_kind w <> None.
Proof using Type.
  unfold word. destruct (proc_kind w) as [kind|] eqn:K.
  - apply (proc_kind_some) in K. split; [discriminate|]. intros _. destruct kind; auto.
  - apply (proc_kind_none) in K. destruct K as [K1 K2]. split; [intros [Q|Q]; congruence|congruence].
Qed.
Lemma type_path (marks : list mark) parts : match follow_type_path V D t (map as_note marks) parts with
  | Some (i, None) => exists left, leads (map as_note marks) parts i left /\ ~ at_word (lit "proc") left /\ ~ at_word (lit "verb") left
  | Some (i, Some (_, Some r)) => exists op w op' x rest, leads (map as_note marks) parts i ((op, w) :: (op', x) :: rest) /\ word w /\ get_proc t size i x = Some (Some r)
  | Some (i, Some (_, None)) => exists left, leads (map as_note marks) parts i left /\ (at_word (lit "proc") left \/ at_word (lit "verb") left) /\ forall op w op' x rest r, left = (op, w) :: (op', x) :: rest -> get_proc t size i x <> Some (Some r)
  | None => forall i left, ~ leads (map as_note marks) parts i left end.
Proof using T AC.
  pose proof (follow_path_spec V D t T (@map mark note as_note marks) parts) as S. destruct (follow_type_path V D t (map as_note marks) parts) as [[i o]|]; [|exact S]. destruct S as (i' & left & Hl & Q). injection Q as -> ->. unfold after_walk.
  destruct left as [|[op w] rest]; [exists []; split; [exact Hl|]; split; intros (o & r & Q); discriminate|]. destruct (proc_kind w) as [kind|] eqn:K.
  - assert (Hw : at_word (lit "proc") ((op, w) :: rest) \/ at_word (lit "verb") ((op, w) :: rest)) by (apply proc_kind_some in K; destruct kind; [right|left]; subst w; exists op, rest; reflexivity).
    destruct rest as [|[op' x] rest].
    + exists [(op, w)]. split; [exact Hl|]. split; [exact Hw|]. intros o1 w1 o2 x2 r2 r Q. discriminate.
    + destruct (get_proc t size i' x) as [[r|]|] eqn:G.
      * exists op, w, op', x, rest. split; [exact Hl|]. split; [apply word_kind; congruence|exact G].
      * exists ((op, w) :: (op', x) :: rest). split; [exact Hl|]. split; [exact Hw|]. intros o1 w1 o2 x2 r2 r Q. injection Q as <- <- <- <- <-. congruence.
      * exists ((op, w) :: (op', x) :: rest). split; [exact Hl|]. split; [exact Hw|]. intros o1 w1 o2 x2 r2 r Q. injection Q as <- <- <- <- <-. congruence.
  - apply proc_kind_none in K. destruct K as [K1 K2]. exists ((op, w) :: rest). split; [exact Hl|]. split; intros (o & r & Q); injection Q as _ Q _; [exact (K1 Q)|exact (K2 Q)].
Qed.
Lemma word_at op w rest : word w -> at_word (lit "proc") ((op, w) :: rest) \/ at_word (lit "verb") ((op, w) :: rest).
Proof using Type. intros [-> | ->]; [left|right]; exists op, rest; reflexivity. Qed.
Lemma around_iff (marks : list mark) : let '(ty, pn) := find_type_context (map as_note marks) in
  (forall i, ty = Some i <-> around (map as_note marks) i) /\ (forall name idx, pn = Some (name, idx) <-> exists path, in_proc (map as_note marks) path name idx) /\ (forall i, here (map as_note marks) i <-> i = or_root ty).
Proof using T.
  pose proof (context_spec V D t T (map as_note marks)) as C. pose proof (here_iff V D t T (map as_note marks)) as H. destruct (find_type_context (map as_note marks)) as [ty pn]. destruct C as [C1 C2]. auto.
Qed.
Lemma goto_iff (marks : list mark) m tg : In tg (goto_mark marks m) <-> goes marks m tg.
Proof using T AC.
  destruct m as [path|absolute parts|parts|path|path idx|path idx|loc lty name|x|x|priors x|priors x| |idx|loc|priors x idx|idx|]; cbn [Goto.goto_mark]; cbv zeta.
  1,4,5,6,7,13,15,16,17: split; [intros []|intro H; inversion H].
  - (* a path of a definition *)
    set (full := combine_tree_path (map as_note marks) absolute parts). assert (Hf : full_path (map as_note marks) absolute parts full) by (apply full_path_iff; reflexivity).
    assert (Uf : forall f, full_path (map as_note marks) absolute parts f -> f = full) by (intros f Q; apply full_path_iff in Q; exact Q). clearbody full.
    destruct (type_by_path t full) as [i|] eqn:E.
    + apply (listed_iff V D t T) in E. split; [intros [<-|[]]; eapply go_path; eauto|]. intro H. inversion H as [a p f k Hp Hl|a p pre x k q j r Hp Nl Hl _ _ _| | | | | | | | | | |]; subst.
      * apply Uf in Hp. subst f. rewrite (listed_fun V D t T full i k E Hl). left. reflexivity.
      * apply Uf in Hp. rewrite Hp in Nl. destruct (Nl i E).
    + assert (Nl : forall k, ~ listed full k) by (intros k Q; apply (listed_iff V D t T) in Q; congruence). destruct (split_last full) as [[pre x]|] eqn:S.
      * apply split_last_some in S. subst full. rewrite proc_goes. split.
        -- intros (p & j & r & Q & N & Hl & ->). destruct (type_by_path t pre) as [i|] eqn:Ep; [|discriminate]. apply (listed_iff V D t T) in Ep. eapply go_override; eauto.
        -- intro H. inversion H as [a p f k Hp Hl|a p pre' x' k q j r Hp _ Hl Hi N Hv| | | | | | | | | | |]; subst; [apply Uf in Hp; subst f; destruct (Nl k Hl)|]. apply Uf in Hp. apply app_inj_tail in Hp. destruct Hp as [-> ->].
           exists q, j, r. rewrite (proj1 (listed_iff V D t T pre k) Hl). auto.
      * apply split_last_none in S. subst full. split; [intros []|]. intro H. inversion H as [a p f k Hp Hl|a p pre' x' k q j r Hp _ Hl Hi N Hv| | | | | | | | | | |]; subst; apply Uf in Hp; [subst f; destruct (Nl k Hl)|destruct pre'; discriminate].
  - (* a path of a type *)
    pose proof (type_path marks parts) as S. destruct (follow_type_path V D t (map as_note marks) parts) as [[i [[kd [r|]]|]]|].
    + destruct S as (op & w & op' & x & rest & Hl & Hw & G). pose proof (proj1 (get_proc_iff i x r) G) as (j & N & Hv). split; [intros [<-|[]]; eapply go_type_proc; eauto|]. intro H. inversion H as [| |p k lf Hl' N1 N2|p k o1 w1 o2 x2 rs j' r' Hl' Hw' N' Hv'| | | | | | | | |]; subst.
      * destruct (leads_fun V D t T _ _ _ _ _ _ Hl Hl') as [_ <-]. destruct (word_at op w ((op', x) :: rest) Hw) as [Q|Q]; tauto.
      * destruct (leads_fun V D t T _ _ _ _ _ _ Hl Hl') as [<- Q]. injection Q as <- <- <- <- <-. assert (G' : get_proc t size i x = Some (Some r')) by (apply (get_proc_iff); eauto). rewrite G in G'. injection G' as ->. left. reflexivity.
    + destruct S as (left & Hl & Hw & G). split; [intros []|]. intro H. inversion H as [| |p k lf Hl' N1 N2|p k o1 w1 o2 x2 rs j' r' Hl' Hw' N' Hv'| | | | | | | | |]; subst.
      * destruct (leads_fun V D t T _ _ _ _ _ _ Hl Hl') as [_ <-]. tauto.
      * destruct (leads_fun V D t T _ _ _ _ _ _ Hl Hl') as [<- Q]. apply (G _ _ _ _ _ r' Q). apply (get_proc_iff). eauto.
    + destruct S as (left & Hl & N1 & N2). split; [intros [<-|[]]; eapply go_type; eauto|]. intro H. inversion H as [| |p k lf Hl' _ _|p k o1 w1 o2 x2 rs j' r' Hl' Hw' N' Hv'| | | | | | | | |]; subst.
      * destruct (leads_fun V D t T _ _ _ _ _ _ Hl Hl') as [<- _]. constructor. reflexivity.
      * destruct (leads_fun V D t T _ _ _ _ _ _ Hl Hl') as [<- ->]. destruct (word_at o1 w1 ((o2, x2) :: rs) Hw') as [Q|Q]; tauto.
    + split; [intros []|]. intro H. inversion H as [| |p k lf Hl' _ _|p k o1 w1 o2 x2 rs j' r' Hl' Hw' N' Hv'| | | | | | | | |]; subst; destruct (S _ _ Hl').
  - (* a call *)
    pose proof (around_iff marks) as C. destruct (find_type_context (map as_note marks)) as [ty pn]. cbn [fst]. destruct C as (_ & _ & H). rewrite newest_in. split.
    + intros (j & r & Q & Hv & ->). apply (up_proc) in Q. eapply go_call; [apply H; reflexivity|exact Q|exact Hv].
    + intro G. inversion G as [| | | |y i j r Hi N Hv| | | | | | | |]; subst. apply H in Hi. subst i. exists j, r. split; [apply (up_proc); exact N|auto].
  - (* a name *)
    pose proof (unscoped_iff marks x) as U. destruct (unscoped_var marks x) as [[loc ty|i name idx k ty|j]|].
    + pose proof (proj1 (U _) eq_refl) as Hs. split; [intros [<-|[]]; eapply go_local; exact Hs|]. intro H. inversion H as [| | | | |y loc' ty' Hs'|y i' name' idx' k' ty' Hs'|y j' Hs'| | | | |]; subst; apply U in Hs'; try discriminate Hs'; injection Hs'; intros; subst; left; reflexivity.
    + pose proof (proj1 (U _) eq_refl) as Hs. split; [intros [<-|[]]; eapply go_param; exact Hs|]. intro H. inversion H as [| | | | |y loc' ty' Hs'|y i' name' idx' k' ty' Hs'|y j' Hs'| | | | |]; subst; apply U in Hs'; try discriminate Hs'; injection Hs'; intros; subst; left; reflexivity.
    + pose proof (proj1 (U _) eq_refl) as Hs. split; [intros [<-|[]]; eapply go_var; exact Hs|]. intro H. inversion H as [| | | | |y loc' ty' Hs'|y i' name' idx' k' ty' Hs'|y j' Hs'| | | | |]; subst; apply U in Hs'; try discriminate Hs'; injection Hs'; intros; subst; left; reflexivity.
    + split; [intros []|]. intro H. inversion H as [| | | | |y loc' ty' Hs'|y i' name' idx' k' ty' Hs'|y j' Hs'| | | | |]; subst; apply U in Hs'; discriminate.
  - (* a call of something *)
    rewrite proc_goes. split.
    + intros (i & j & r & Q & N & Hv & ->). apply scoped_some in Q. eapply go_method; eauto.
    + intro H. inversion H as [| | | | | | | |ps y i j r Hi N Hv| | | |]; subst. apply scoped_some in Hi. exists i, j, r. auto.
  - (* a variable of something *)
    destruct (up_from V D t (find_scoped_type (map as_note marks) priors) (with_var x) true) as [j|] eqn:E.
    + apply up_from_iff in E. destruct E as (i & Q & E). apply up_var in E. apply scoped_some in Q. split; [intros [<-|[]]; eapply go_field; eauto|]. intro H. inversion H as [| | | | | | | | |ps y i' j' Hi N| | |]; subst. apply scoped_some in Hi, Q. rewrite Q in Hi. injection Hi as <-. apply (up_var) in N, E. rewrite E in N. injection N as <-. left. reflexivity.
    + split; [intros []|]. intro H. inversion H as [| | | | | | | | |ps y i' j' Hi N| | |]; subst. apply scoped_some in Hi. apply (up_var) in N. assert (Q : up_from V D t (find_scoped_type (map as_note marks) priors) (with_var x) true = Some j') by (apply up_from_iff; eauto). congruence.
  - (* a call of the parent *)
    pose proof (around_iff marks) as C. destruct (find_type_context (map as_note marks)) as [ty pn]. destruct C as (C1 & C2 & _). split.
    + destruct ty as [i|]; [|intros []]. destruct pn as [[x [|k]]|]; [| |intros []].
      * intro Q. apply proc_goes in Q. destruct Q as (p & j & r & Q & N & Hv & ->). destruct (proj1 (C2 x 0) eq_refl) as (path & Hp). eapply go_parent; [apply C1; reflexivity|exact Hp|exact Q|exact N|exact Hv].
      * destruct (procs_of t i x) as [p|] eqn:Ep; [|intros []]. destruct (nth_error (p_values p) k) as [v|] eqn:Ev; [|intros []]. intros [<-|[]]. destruct (proj1 (C2 x (S k)) eq_refl) as (path & Hp). eapply go_previous; [apply C1; reflexivity|exact Hp|exact Ep|apply nth_error_Some; congruence].
    + intro H. inversion H as [| | | | | | | | | |path x i p j r Hi Hp Ih N Hv|path x k i p Hi Hp Ep Hk|]; subst.
      * apply C1 in Hi. subst ty. assert (E : pn = Some (x, 0)) by (apply C2; eauto). rewrite E. apply proc_goes. exists p, j, r. auto.
      * apply C1 in Hi. subst ty. assert (E : pn = Some (x, S k)) by (apply C2; eauto). rewrite E, Ep. destruct (nth_error (p_values p) k) as [v|] eqn:Ev; [left; reflexivity|]. apply nth_error_None in Ev. lia.
  - split; [intros [<-|[]]; constructor|]. intro H. inversion H. left. reflexivity.
Qed.
Lemma definition_iff (marks : list mark) tg : In tg (goto_definition marks) <-> exists m, In m marks /\ goes marks m tg.
Proof using T AC. unfold Goto.goto_definition. rewrite in_flat_map. split; intros (m & Hm & H); exists m; (split; [exact Hm|apply goto_iff; exact H]). Qed.

(** ** Types of variables *)
Lemma declared_path_iff (marks : list mark) m ty : declared_path marks m = Some ty <-> has_type marks m ty.
Proof using T AC.
  destruct m as [path|absolute parts|parts|path|path idx|path idx|loc lty name|x|x|priors x|priors x| |idx|loc|priors x idx|idx|]; cbn [Goto.declared_path];
    try (split; [discriminate|intro H; inversion H; fail]).
  - pose proof (unscoped_iff marks x) as U. destruct (unscoped_var marks x) as [[loc lty|i name idx k pty|j]|].
    + pose proof (proj1 (U _) eq_refl) as Hs. split; [intro Q; injection Q as <-; eapply ht_local; exact Hs|]. intro H. inversion H as [y loc' ty' Hs'|y i' name' idx' k' ty' Hs'|y j' k' ty' Hs' N G|]; subst; apply U in Hs'; congruence.
    + pose proof (proj1 (U _) eq_refl) as Hs. split; [intro Q; injection Q as <-; eapply ht_param; exact Hs|]. intro H. inversion H as [y loc' ty' Hs'|y i' name' idx' k' ty' Hs'|y j' k' ty' Hs' N G|]; subst; apply U in Hs'; congruence.
    + pose proof (proj1 (U _) eq_refl) as Hs. split.
      * destruct (climb false (with_var_decl x) j) as [[k path]|] eqn:E; [|discriminate]. cbn [option_map snd]. intro Q. injection Q as <-. apply up_var_decl in E. destruct E as [N G]. eapply ht_var; eauto.
      * intro H. inversion H as [y loc' ty' Hs'|y i' name' idx' k' ty' Hs'|y j' k' ty' Hs' N G|]; subst; apply U in Hs'; [congruence|congruence|]. injection Hs' as <-. rewrite (proj2 (up_var_decl false x j k' ty)) by auto. reflexivity.
    + split; [discriminate|]. intro H. inversion H as [y loc' ty' Hs'|y i' name' idx' k' ty' Hs'|y j' k' ty' Hs' N G|]; subst; apply U in Hs'; discriminate.
  - split.
    + destruct (up_from V D t (find_scoped_type (map as_note marks) priors) (with_var_decl x) true) as [[k path]|] eqn:E; [|discriminate]. cbn [option_map snd]. intro Q. injection Q as <-. apply up_from_iff in E. destruct E as (i & Q & E). apply up_var_decl in E. destruct E as [N G]. apply scoped_some in Q. eapply ht_field; eauto.
    + intro H. inversion H as [| | |ps y i k ty' Hi N G]; subst. apply scoped_some in Hi. assert (E : up_from V D t (find_scoped_type (map as_note marks) priors) (with_var_decl x) true = Some (k, ty)) by (apply up_from_iff; exists i; split; [exact Hi|apply up_var_decl; auto]). rewrite E. reflexivity.
Qed.
Lemma last_says {A : Type} (f : mark -> option A) (says : mark -> A -> Prop) marks a : (forall m b, f m = Some b <-> says m b) -> (last_some f marks None = Some a <-> says_last L says marks a).
Proof using Type.
  intro H. rewrite last_some_iff. unfold says_last. split.
  - intros [(pre & m & post & E & F & N)|[Q _]]; [|discriminate]. exists pre, m, post. split; [exact E|]. split; [apply H; exact F|]. intros m' b Hm Q. apply H in Q. rewrite (N m' Hm) in Q. discriminate.
  - intros (pre & m & post & E & F & N). left. exists pre, m, post. split; [exact E|]. split; [apply H; exact F|]. intros m' Hm. destruct (f m') as [b|] eqn:Q; [|reflexivity]. apply H in Q. destruct (N m' b Hm Q).
Qed.
Lemma type_definition_iff (marks : list mark) i : goto_type_definition V D L t vars params marks = Some i <-> exists path, says_last L (has_type marks) marks path /\ path <> [] /\ listed path i.
Proof using T AC.
  unfold goto_type_definition. pose proof (fun a => last_says (declared_path marks) (has_type marks) marks a (declared_path_iff marks)) as Ls. destruct (last_some (declared_path marks) marks None) as [path|].
  - split.
    + intro H. exists path. split; [apply Ls; reflexivity|]. destruct path as [|w path]; [discriminate|]. split; [discriminate|]. apply (listed_iff V D t T). exact H.
    + intros (p & S & N & Hl). apply Ls in S. injection S as <-. destruct path as [|w path]; [congruence|]. apply (listed_iff V D t T). exact Hl.
  - split; [discriminate|]. intros (p & S & _). apply Ls in S. discriminate.
Qed.

(** ** Symbols *)
Lemma enter_iff ws path : forall i cs ds, at_ t i cs -> (enters ws cs path ds <-> at_ t (enter V D t ws i path) ds).
Proof using T.
  induction path as [|w path IH]; intros i cs ds Hi; cbn [enter].
  - split; [intro H; inversion H; subst; exact Hi|]. intro H. rewrite <- (at_inj V D t _ _ _ Hi H). constructor.
  - destruct (existsb (text_eqb w) ws) eqn:M.
    + apply mem_iff in M. split.
      * intro H. inversion H as [|? ? ? _|? ? ? N _|? ? ? j ? N _ _]; subst; [exact Hi|destruct (N M)|destruct (N M)].
      * intro H. rewrite <- (at_inj V D t _ _ _ Hi H). constructor. exact M.
    + assert (Nm : ~ In w ws) by (intro Q; apply mem_iff in Q; congruence). destruct (child t i w) as [j|] eqn:E.
      * apply (at_child V D t W i cs w j Hi) in E. rewrite <- (IH j (cs ++ [w]) ds E). split.
        -- intro H. inversion H as [|? ? ? M'|? ? ? _ N|? ? ? j' ? _ Hj H']; subst; [destruct (Nm M')|destruct (N j E)|exact H'].
        -- intro H. eapply en_on; eauto.
      * pose proof (child_none V D t W i cs w Hi E) as N. split.
        -- intro H. inversion H as [|? ? ? M'|? ? ? _ _|? ? ? j' ? _ Hj H']; subst; [destruct (Nm M')|exact Hi|destruct (N j' Hj)].
        -- intro H. rewrite <- (at_inj V D t _ _ _ Hi H). apply en_stop; [exact Nm|exact N].
Qed.
Lemma enter_some ws path : forall i cs, at_ t i cs -> exists ds, at_ t (enter V D t ws i path) ds.
Proof using T.
  induction path as [|w path IH]; intros i cs Hi; cbn [enter]; [eauto|]. destruct (existsb (text_eqb w) ws); [eauto|]. destruct (child t i w) as [j|] eqn:E; [|eauto]. apply (at_child V D t W i cs w j Hi) in E. eapply IH. exact E.
Qed.
Lemma enter_root ws path i cs : enters ws [] path cs -> at_ t i cs -> i = enter V D t ws 0 path.
Proof using T. intros H Hi. apply (enter_iff ws path 0 [] cs (root_at V D t T)) in H. exact (at_fun V D t W _ _ _ Hi H). Qed.
Lemma var_symbol_iff x o s : var_symbol x o = Some s <-> exists j path, o = Some (j, path) /\ s = NameVar j x.
Proof using Type. unfold var_symbol. destruct o as [[j path]|]; [split; [intro Q; injection Q as <-; eauto|intros (j' & p' & Q & ->); congruence]|split; [discriminate|intros (j & p & Q & _); discriminate]]. Qed.
Lemma proc_symbol_iff x o s : proc_symbol x o = Some s <-> exists j, o = Some j /\ s = NameProc j x.
Proof using Type. unfold proc_symbol. destruct o as [j|]; [split; [intro Q; injection Q as <-; eauto|intros (j' & Q & ->); congruence]|split; [discriminate|intros (j & Q & _); discriminate]]. Qed.
Lemma up_declares b x i j : (exists path, climb b (with_var_decl x) i = Some (j, path)) <-> nearest_with b (declares_var x) i j.
Proof using T AC.
  split; [intros (p & H); apply up_var_decl in H; tauto|]. intro H. pose proof H as (_ & (path & G) & _). exists path. apply up_var_decl. auto.
Qed.
Lemma symbol_of_iff (marks : list mark) m s : symbol_of marks m = Some s <-> names marks m s.
Proof using T AC.
  destruct m as [path|absolute parts|parts|path|path idx|path idx|loc lty name|x|x|priors x|priors x| |idx|loc|priors x idx|idx|]; cbn [Goto.symbol_of]; cbv zeta;
    try (split; [discriminate|intro H; inversion H; fail]).
  - (* a path of a definition *)
    set (full := combine_tree_path (map as_note marks) absolute parts). split.
    + destruct (type_by_path t full) as [i|] eqn:E; [|discriminate]. intro Q. injection Q as <-. apply (listed_iff V D t T) in E. eapply nm_path; [apply full_path_iff; reflexivity|exact E].
    + intro H. inversion H as [| |a p f i Hp Hl| | | | | |]; subst. apply full_path_iff in Hp. fold full in Hp. subst f. rewrite (proj1 (listed_iff V D t T full i) Hl). reflexivity.
  - (* a path of a type *)
    pose proof (type_path marks parts) as S. destruct (follow_type_path V D t (map as_note marks) parts) as [[i [[kd [[[k y] n]|]]|]]|].
    + destruct S as (op & w & op' & x & rest & Hl & Hw & G). apply (get_proc_iff) in G. destruct G as (j0 & N0 & (p0 & vs0 & v0 & Ep0 & _ & Q)). injection Q; intros _ -> _. rewrite proc_symbol_iff. split.
      * intros (j & Q' & ->). apply (up_proc_decl) in Q'. eapply nm_type_proc; eauto.
      * intro H. inversion H as [| | |p i' lf Hl' N1 N2|p i' o1 w1 o2 x2 rs j Hl' Hw' N'| | | |]; subst.
        -- destruct (leads_fun V D t T _ _ _ _ _ _ Hl Hl') as [_ <-]. destruct (word_at op w ((op', x) :: rest) Hw) as [Q'|Q']; tauto.
        -- destruct (leads_fun V D t T _ _ _ _ _ _ Hl Hl') as [<- Q']. injection Q' as <- <- <- <- <-. exists j. split; [apply (up_proc_decl); exact N'|reflexivity].
    + destruct S as (left & Hl & Hw & G). split; [discriminate|]. intro H. inversion H as [| | |p i' lf Hl' N1 N2|p i' o1 w1 o2 x2 rs j Hl' Hw' N'| | | |]; subst.
      * destruct (leads_fun V D t T _ _ _ _ _ _ Hl Hl') as [_ <-]. tauto.
      * destruct (leads_fun V D t T _ _ _ _ _ _ Hl Hl') as [<- Q]. destruct N' as (R & (p0 & d0 & E0 & _) & _). destruct (search_fuel V D t T AC (fun j1 => visible t j1 x2) i size) as (r & E & Nr); [lia|]. destruct r as [r|].
        -- destruct (G _ _ _ _ _ r Q). exact E.
        -- pose proof (proj1 (get_proc_none V D t T AC i x2) E j) as Z. rewrite Z in E0; [discriminate|]. clear - R. induction R as [a b [R _]|a|a b c R1 IH1 R2 IH2]; [apply rt_step; exact R|apply rt_refl|eapply rt_trans; eauto].
    + destruct S as (left & Hl & N1 & N2). split; [intro Q; injection Q as <-; eapply nm_type; eauto|]. intro H. inversion H as [| | |p i' lf Hl' _ _|p i' o1 w1 o2 x2 rs j Hl' Hw' N'| | | |]; subst.
      * destruct (leads_fun V D t T _ _ _ _ _ _ Hl Hl') as [<- _]. reflexivity.
      * destruct (leads_fun V D t T _ _ _ _ _ _ Hl Hl') as [<- ->]. destruct (word_at o1 w1 ((o2, x2) :: rs) Hw') as [Q|Q]; tauto.
    + split; [discriminate|]. intro H. inversion H as [| | |p i' lf Hl' _ _|p i' o1 w1 o2 x2 rs j Hl' Hw' N'| | | |]; subst; destruct (S _ _ Hl').
  - (* the definition of a variable *)
    destruct (split_last path) as [[most x]|] eqn:S.
    + apply split_last_some in S. subst path. rewrite var_symbol_iff. destruct (enter_some [lit "var"] most 0 [] (root_at V D t T)) as (cs & Hcs). split.
      * intros (j & p & Q & ->). eapply nm_variable; [apply (enter_iff _ most 0 [] cs (root_at V D t T)); exact Hcs|exact Hcs|]. apply up_declares. eauto.
      * intro H. inversion H as [most' x' cs' i j He Hi N| | | | | | | |]; subst. apply app_inj_tail in H0. destruct H0 as [-> ->]. rewrite (enter_root _ _ _ _ He Hi) in N. apply up_declares in N. destruct N as (p & N). eauto.
    + apply split_last_none in S. subst path. split; [discriminate|]. intro H. inversion H. destruct most; discriminate.
  - (* the definition of a procedure *)
    destruct (split_last path) as [[most x]|] eqn:S.
    + apply split_last_some in S. subst path. rewrite proc_symbol_iff. destruct (enter_some [lit "proc"; lit "verb"] most 0 [] (root_at V D t T)) as (cs & Hcs). split.
      * intros (j & Q & ->). eapply nm_header; [apply (enter_iff _ most 0 [] cs (root_at V D t T)); exact Hcs|exact Hcs|]. apply (up_proc_decl). exact Q.
      * intro H. inversion H as [|most' x' idx' cs' i j He Hi N| | | | | | |]; subst. apply app_inj_tail in H0. destruct H0 as [-> ->]. rewrite (enter_root _ _ _ _ He Hi) in N. apply (up_proc_decl) in N. eauto.
    + apply split_last_none in S. subst path. split; [discriminate|]. intro H. inversion H. destruct most; discriminate.
  - (* a call *)
    pose proof (around_iff marks) as C. destruct (find_type_context (map as_note marks)) as [ty pn]. cbn [fst]. destruct C as (_ & _ & H). rewrite proc_symbol_iff. split.
    + intros (j & Q & ->). apply (up_proc_decl) in Q. eapply nm_call; [apply H; reflexivity|exact Q].
    + intro G. inversion G as [| | | | |y i j Hi N| | |]; subst. apply H in Hi. subst i. exists j. split; [apply (up_proc_decl); exact N|reflexivity].
  - (* a name *)
    pose proof (unscoped_iff marks x) as U. destruct (unscoped_var marks x) as [[loc lty|i name idx k pty|i]|];
      try (split; [discriminate|]; intro H; inversion H as [| | | | | |y i' j Hs N| |]; subst; apply U in Hs; discriminate).
    rewrite var_symbol_iff. split.
    + intros (j & p & Q & ->). eapply nm_var; [apply U; reflexivity|]. apply up_declares. eauto.
    + intro H. inversion H as [| | | | | |y i' j Hs N| |]; subst. apply U in Hs. injection Hs as <-. apply up_declares in N. destruct N as (p & N). eauto.
  - (* a call of something *)
    rewrite proc_symbol_iff. split.
    + intros (j & Q & ->). apply up_from_iff in Q. destruct Q as (i & Q & E). apply scoped_some in Q. apply (up_proc_decl) in E. eapply nm_method; eauto.
    + intro H. inversion H as [| | | | | | |ps y i j Hi N|]; subst. apply scoped_some in Hi. exists j. split; [|reflexivity]. apply up_from_iff. exists i. split; [exact Hi|]. apply (up_proc_decl). exact N.
  - (* a variable of something *)
    rewrite var_symbol_iff. split.
    + intros (j & p & Q & ->). apply up_from_iff in Q. destruct Q as (i & Q & E). apply scoped_some in Q. eapply nm_field; [exact Q|]. apply up_declares. eauto.
    + intro H. inversion H as [| | | | | | | |ps y i j Hi N]; subst. apply scoped_some in Hi. apply up_declares in N. destruct N as (p & N). exists j, p. split; [|reflexivity]. apply up_from_iff. eauto.
Qed.
Lemma symbol_iff (marks : list mark) s : symbol_at V D L t vars params marks = Some s <-> says_last L (names marks) marks s.
Proof using T AC. unfold symbol_at. apply last_says. intros m b. apply symbol_of_iff. Qed.

(** ** Signatures *)
Lemma signature_iff (marks : list mark) r : signature_help V D L t vars params marks = Some r <-> helps V D L t vars params marks r.
Proof using T AC.
  unfold signature_help. pose proof (fun b => mark_first L (arguments_mark L) (is_arguments L) b marks (arguments_iff L)) as Fa. destruct (Goto.first_some (arguments_mark L) marks) as [[[priors x] idx]|].
  2: { split; [discriminate|]. intros [ps y n idx' i j cs p vs v label spans F _ _ _ _ _ _ _]. assert (Q : None = Some (ps, y, n)) by (apply Fa; eexists; split; [exact F|reflexivity]). discriminate. }
  destruct (proj1 (Fa _) eq_refl) as (m & F & Em). assert (m = OnArguments priors x idx) by (destruct m; try discriminate Em; injection Em as -> -> ->; reflexivity). subst m. clear Fa Em.
  set (idx2 := match Goto.first_some (argument_mark L) marks with Some i => i | None => idx end).
  assert (Hidx : forall n, (first_mark L (is_argument L) marks (OnArgument n) \/ (forall m, In m marks -> ~ is_argument L m) /\ n = idx) <-> n = idx2).
  { intro n. unfold idx2. pose proof (fun b => mark_first L (argument_mark L) (is_argument L) b marks (argument_iff L)) as Fb. pose proof (mark_none L (argument_mark L) (is_argument L) marks (argument_iff L)) as Nb. destruct (Goto.first_some (argument_mark L) marks) as [k|].
    - destruct (proj1 (Fb _) eq_refl) as (m & G & Em). assert (m = OnArgument k) by (destruct m; try discriminate Em; injection Em as ->; reflexivity). subst m. split.
      + intros [G'|[N _]]; [pose proof (first_mark_fun L _ _ _ _ G G') as Q; injection Q as <-; reflexivity|]. destruct G as (pre & post & -> & Q & _). destruct (N _ (in_elt _ _ _) Q).
      + intros ->. left. exact G.
    - pose proof (proj1 Nb eq_refl) as N. split; [intros [G|[_ Q]]; [|exact Q]|intros ->; right; auto]. destruct G as (pre & post & -> & Q & _). destruct (N _ (in_elt _ _ _) Q). }
  set (b := match priors with [] => false | _ => true end). destruct (up_from V D t (find_scoped_type (map as_note marks) priors) (with_proc x) b) as [j|] eqn:U.
  - apply up_from_iff in U. destruct U as (i & Qi & U). apply (up_proc) in U. pose proof U as (_ & Hp & _). unfold GotoSpec.has_proc in Hp.
    destruct (procs_of t j x) as [p|] eqn:Ep; [|congruence]. assert (En : exists n, node_at t j = Some n) by (unfold procs_of in Ep; destruct (node_at t j) as [n|]; [eauto|discriminate]). destruct En as (n & En). rewrite En.
    destruct (at_some V D t W j n En) as (cs & Hcs). assert (Pn : n_path n = render cs) by (destruct Hcs as (_ & n' & Hn' & Pn'); unfold node_at in En; congruence).
    pose proof (CompletionProps.last_value V D p) as Lv. destruct (last (map Some (p_values p)) None) as [v|].
    2: { exfalso. unfold procs_of in Ep. rewrite En in Ep. exact (wf_procs V D t W j n x p En Ep Lv). }
    destruct Lv as (vs & Ev). pose proof (write_params_spec (params v) [] (n_path n ++ lit "/" ++ x ++ lit "(")) as Wp. destruct (write_params [] (n_path n ++ lit "/" ++ x ++ lit "(") (params v)) as [label spans]. destruct Wp as (E1 & E2 & E3).
    assert (S : signature_of (render cs) x (params v) (label ++ lit ")") spans).
    { rewrite Pn in E1, E3. split; [|split].
      - rewrite E1. destruct (params v); cbn [app map joined]; rewrite <- ?app_assoc; reflexivity.
      - exact E2.
      - intros k y ty Q. destruct (E3 k y ty Q) as (before & after & A1 & A2 & A3). exists before, (after ++ lit ")"). split; [rewrite A1, <- !app_assoc; reflexivity|]. split; [exact A2|]. rewrite A3. cbn [app]. rewrite <- !app_assoc. reflexivity. }
    split.
    + intro Q. injection Q as <-. econstructor; [exact F|apply Hidx; reflexivity|apply scoped_some; exact Qi|exact U|exact Hcs|exact Ep|exact Ev|exact S].
    + intros [ps y n' idx' i' j' cs' p' vs' v' label' spans' F' Hi Hs N Hc Ep' Ev' S']. pose proof (first_mark_fun L _ _ _ _ F F') as Q. injection Q as <- <- <-. apply Hidx in Hi. subst idx'. apply scoped_some in Hs. rewrite Qi in Hs. injection Hs as <-.
      apply (up_proc) in N, U. fold b in N. rewrite U in N. injection N as <-. rewrite Ep in Ep'. injection Ep' as <-. rewrite Ev in Ev'. apply app_inj_tail in Ev'. destruct Ev' as [_ <-]. rewrite (at_inj V D t _ _ _ Hc Hcs) in S'. destruct (signature_of_fun _ _ _ _ _ _ _ S S') as [<- <-]. reflexivity.
  - split; [discriminate|]. intros [ps y n' idx' i' j' cs' p' vs' v' label' spans' F' Hi Hs N Hc Ep' Ev' S']. pose proof (first_mark_fun L _ _ _ _ F F') as Q. injection Q as <- <- <-. apply scoped_some in Hs. apply (up_proc) in N.
    assert (Q : up_from V D t (find_scoped_type (map as_note marks) priors) (with_proc x) b = Some j') by (apply up_from_iff; eauto). congruence.
Qed.
End PROPS.

(** ** The theorems *)
Section THEOREMS.
Variables V D L : Type.
Variable t : objtree V D.
Variable vars : nat -> list (text * option (list text)).
Variable params : V -> list (text * list text).
Notation mark := (mark L).
Notation size := (S (List.length (graph t))).
(** Going to a definition leads to exactly the places that the names at the place stand for. *)
Theorem C74_definition : forall out (marks : list mark) tg, finished t out -> acyclic t ->
  (In tg (goto_definition V D L t vars params marks) <-> exists m, In m marks /\ goes V D L t vars params marks m tg).
Proof using Type. intros out marks tg F AC. apply definition_iff; [exact (finished_tidy V D t out F)|exact AC]. Qed.
(** One name leads to at most one place. *)
Theorem C74_one : forall out (marks : list mark) m tg tg', finished t out -> acyclic t -> goes V D L t vars params marks m tg -> goes V D L t vars params marks m tg' -> tg = tg'.
Proof using Type.
  intros out marks m tg tg' F AC H H'. pose proof (finished_tidy V D t out F) as T. apply goto_iff in H; [|exact T|exact AC]. apply goto_iff in H'; [|exact T|exact AC].
  assert (Nw : forall x o, List.length (newest V D L t x o) <= 1) by (intros x [j|]; cbn [newest]; [destruct (visible t j x)|]; cbn [List.length]; lia).
  assert (O : List.length (goto_mark V D L t vars params marks m) <= 1).
  { clear H H'. destruct m; cbn [goto_mark List.length]; cbv zeta; try lia; try apply Nw.
    - destruct (type_by_path t _); [cbn [List.length]; lia|]. destruct (split_last _) as [[pre x]|]; [apply Nw|cbn [List.length]; lia].
    - destruct (follow_type_path V D t _ _) as [[i [[kd [r|]]|]]|]; cbn [List.length]; lia.
    - destruct (unscoped_var V D L t vars params marks name) as [[loc ty|i p idx k ty|j]|]; cbn [List.length]; lia.
    - destruct (up_from _ _ _ _ _ _); cbn [List.length]; lia.
    - destruct (find_type_context V D t _) as [[i|] [[x [|k]]|]]; cbn [List.length]; try lia; [apply Nw|]. destruct (procs_of t i x) as [p|]; [|cbn [List.length]; lia]. destruct (nth_error (p_values p) k); cbn [List.length]; lia. }
  destruct (goto_mark V D L t vars params marks m) as [|a [|b l]]; [destruct H| |cbn [List.length] in O; lia]. destruct H as [<-|[]]. destruct H' as [<-|[]]. reflexivity.
Qed.
(** Going to the type of a variable leads to the type that its declaration names. *)
Theorem C74_type : forall out (marks : list mark) i, finished t out -> acyclic t ->
  (goto_type_definition V D L t vars params marks = Some i <-> exists path, says_last L (has_type V D L t vars params marks) marks path /\ path <> [] /\ listed V D t path i).
Proof using Type. intros out marks i F AC. apply type_definition_iff; [exact (finished_tidy V D t out F)|exact AC]. Qed.
(** Looking for references looks up the symbol that is declared by what the last name at the place stands for. *)
Theorem C74_symbol : forall out (marks : list mark) s, finished t out -> acyclic t ->
  (symbol_at V D L t vars params marks = Some s <-> says_last L (names V D L t vars params marks) marks s).
Proof using Type. intros out marks s F AC. apply symbol_iff; [exact (finished_tidy V D t out F)|exact AC]. Qed.
Theorem C74_references : forall out (A : Type) (table : name_of -> list A) (marks : list mark) a, finished t out -> acyclic t ->
  (In a (look_up V D L t vars params table marks) <-> exists s, says_last L (names V D L t vars params marks) marks s /\ In a (table s)).
Proof using Type.
  intros out A table marks a F AC. pose proof (fun s => C74_symbol out marks s F AC) as S. unfold look_up. destruct (symbol_at V D L t vars params marks) as [s|].
  - split; [intro H; exists s; split; [apply S; reflexivity|exact H]|]. intros (s' & H & Ha). apply S in H. injection H as ->. exact Ha.
  - split; [intros []|]. intros (s' & H & _). apply S in H. discriminate.
Qed.
(** The help for a call shows the parameters of the procedure that is called. *)
Theorem C74_signature : forall out (marks : list mark) r, finished t out -> acyclic t -> (signature_help V D L t vars params marks = Some r <-> helps V D L t vars params marks r).
Proof using Type. intros out marks r F AC. apply signature_iff; [exact (finished_tidy V D t out F)|exact AC]. Qed.
(** [..] leads to the value that is called by [..()] there. *)
Theorem C74_parent : forall out (marks : list mark) path x idx i p tg, finished t out -> acyclic t ->
  around V D t (map as_note marks) i -> in_proc (map as_note marks) path x idx -> procs_of t i x = Some p -> idx < List.length (p_values p) ->
  (goes V D L t vars params marks OnParent tg <-> exists r, tg = ToProc r /\ parent_proc t size (i, x, idx) = Some (Some r)).
Proof using Type.
  intros out marks path x idx i p tg F AC Hi Hp Ep Hk. pose proof (finished_tidy V D t out F) as T. pose proof (around_iff V D L t T marks) as C. destruct (find_type_context V D t (map as_note marks)) as [ty pn]. destruct C as (C1 & C2 & _).
  assert (Ui : forall j, around V D t (map as_note marks) j -> j = i) by (intros j H; apply C1 in H, Hi; congruence).
  assert (Ux : forall q y n, in_proc (map as_note marks) q y n -> y = x /\ n = idx).
  { intros q y n H. assert (E : pn = Some (y, n)) by (apply C2; eauto). assert (E' : pn = Some (x, idx)) by (apply C2; eauto). rewrite E in E'. injection E' as -> ->. auto. }
  split.
  - intro H. inversion H as [| | | | | | | | | |q y j p' k r Hj Hq Ih N Hv|q y k j p' Hj Hq Ep' Hk'|]; subst; apply Ui in Hj; subst j; destruct (Ux _ _ _ Hq) as [-> E]; subst idx.
    + exists r. split; [reflexivity|]. cbn [parent_proc]. unfold inherits in Ih. rewrite Ih. apply (get_proc_iff V D t T AC). eauto.
    + exists (i, x, k). split; [reflexivity|]. reflexivity.
  - intros (r & -> & E). destruct idx as [|k]; cbn [parent_proc] in E.
    + destruct (parent_type t i) as [q|] eqn:Eq; [|discriminate]. apply (get_proc_iff V D t T AC) in E. destruct E as (j & N & Hv). eapply go_parent; eauto.
    + injection E as <-. eapply go_previous; eauto. lia.
Qed.
(** A call leads to the value that is called. *)
Theorem C74_call : forall out (marks : list mark) x i tg, finished t out -> acyclic t -> here V D t (map as_note marks) i ->
  (goes V D L t vars params marks (OnCall x) tg <-> exists r, tg = ToProc r /\ get_proc t size i x = Some (Some r)).
Proof using Type.
  intros out marks x i tg F AC Hi. pose proof (finished_tidy V D t out F) as T. split.
  - intro H. inversion H as [| | | |y j k r Hj N Hv| | | | | | | |]; subst. pose proof (proj1 (here_iff V D t T _ _) Hj) as E. pose proof (proj1 (here_iff V D t T _ _) Hi) as E'. rewrite <- E' in E. subst j. exists r. split; [reflexivity|]. apply (get_proc_iff V D t T AC). eauto.
  - intros (r & -> & E). apply (get_proc_iff V D t T AC) in E. destruct E as (j & N & Hv). eapply go_call; eauto.
Qed.
(** The symbol of a call is declared in the type that the call leads to, or above it; the same holds for variables. *)
Theorem C74_above : forall out (marks : list mark) m j' x, finished t out -> acyclic t -> (exists y, m = OnCall y \/ exists ps, m = OnMethod ps y) ->
  names V D L t vars params marks m (NameProc j' x) -> exists j k, goes V D L t vars params marks m (ToProc (j, x, k)) /\ subtype t j j'.
Proof using Type.
  intros out marks m j' x F AC Hm H. pose proof (finished_tidy V D t out F) as T.
  assert (Up : forall b i, nearest_with V D t b (declares_proc V D t x) i j' -> exists j k, nearest_with V D t b (has_proc V D t x) i j /\ GotoSpec.last_value V D t j x (j, x, k) /\ subtype t j j').
  { intros b i (R & (p & d & Ep & Ed) & M). assert (Hj' : has_proc V D t x j') by (unfold has_proc; congruence).
    assert (Hex : exists j, nearest_with V D t b (has_proc V D t x) i j).
    { destruct (climb V D t b (with_proc V D t x) i) as [j|] eqn:E; [exists j; apply (up_proc V D t T AC); exact E|]. exfalso. unfold climb in E. change (if b then parent_without_root V D t else parent_type t) with (above V D t b) in E. destruct (upwards_spec V D t T AC b i) as (l & El & _ & S & rest & Hl). rewrite El in E. apply (S [] i rest Hl) in R. rewrite <- Hl in R.
      rewrite first_some_none in E. specialize (E j' R). apply has_proc_iff in Hj'. congruence. }
    destruct Hex as (j & N). pose proof N as (_ & Hj & Mj). destruct (visible t j x) as [r|] eqn:Ev; [|unfold visible in Ev; unfold has_proc in Hj; destruct (procs_of t j x); congruence]. pose proof Ev as Ev'. apply visible_iff in Ev; [|exact T]. pose proof Ev as (p' & vs & v & _ & _ & ->). exists j, (List.length vs).
    split; [exact N|]. split; [exact Ev|]. specialize (Mj j' R Hj'). clear - Mj. induction Mj as [a c [R _]|a|a c e R1 IH1 R2 IH2]; [apply rt_step; exact R|apply rt_refl|eapply rt_trans; eauto]. }
  destruct Hm as (y & [-> |(ps & ->)]); inversion H; subst.
  - match goal with N : nearest_with _ _ _ _ _ _ j' |- _ => destruct (Up _ _ N) as (j & k & N1 & N2 & N3) end. exists j, k. split; [eapply go_call; eauto|exact N3].
  - match goal with N : nearest_with _ _ _ _ _ _ j' |- _ => destruct (Up _ _ N) as (j & k & N1 & N2 & N3) end. exists j, k. split; [eapply go_method; eauto|exact N3].
Qed.
(** A name that stands for a local variable or for a parameter has no symbol: its references are not found. *)
Theorem C74_local : forall out (marks : list mark) x th s, finished t out -> acyclic t -> stands V D L t vars params marks x th -> (forall i, th <> IsMember i) -> ~ names V D L t vars params marks (OnName x) s.
Proof using Type.
  intros out marks x th s F AC H N Q. pose proof (finished_tidy V D t out F) as T. inversion Q as [| | | | | |y i j Hs _| |]; subst. apply unscoped_iff in H, Hs; try assumption. rewrite H in Hs. injection Hs as ->. exact (N i eq_refl).
Qed.
End THEOREMS.
Print Assumptions C74_definition.
Print Assumptions C74_one.
Print Assumptions C74_type.
Print Assumptions C74_symbol.
Print Assumptions C74_references.
Print Assumptions C74_signature.
Print Assumptions C74_parent.
Print Assumptions C74_call.
Print Assumptions C74_above.
Print Assumptions C74_local.
