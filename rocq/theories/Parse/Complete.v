(** Completeness, the operators: what the grammar derives is what the parser builds, given the same for operands. *)
From Coq Require Import List NArith ZArith Bool String Lia.
From Verif Require Import Common.Text Lexer.Punct Lexer.Model Parse.Ast Parse.Model Parse.Spec Parse.Facts Parse.Grow
  Parse.Term Parse.Gram Parse.Sound Parse.Mono.
Import ListNotations.
Open Scope nat_scope.

Section COMPLETE.
Variable F : Type.
Notation tok := (token F).
Notation expr := (expr F).
Notation term := (term F).
Notation follow := (follow F).
Notation pst := (pst F).
Notation P p := (TPunct F p).
Notation sp_expr := (sp_expr F).
Notation swallow := (swallow F).
Notation delimited := (delimited F).
Notation ends_before := (ends_before F).
Definition mk (ts : list tok) (ds : list diag) : pst := Build_pst F ts ds.

(** with enough fuel, the result is this *)
Definition ev {X : Type} (f : fns F -> Model.res F X) (o : option X) (s' : pst) : Prop :=
  exists N, forall n, N <= n -> f (run F n) = Ok o s'.
Lemma ev_const {X : Type} (o : option X) (s' : pst) : ev (fun _ => Ok o s') o s'.
Proof using Type. exists 0; reflexivity. Qed.
Lemma ev_req {X Y : Type} (f : fns F -> Model.res F X) (k : fns F -> X -> pst -> Model.res F Y) x s1 o s2 :
  ev f (Some x) s1 -> ev (fun R => k R x s1) o s2 -> ev (fun R => req_ F (f R) (k R)) o s2.
Proof using Type.
  intros [N H] [M G]. exists (Nat.max N M). intros n Hn. rewrite H by lia. cbn [req_]. apply G. lia.
Qed.
Lemma ev_opt {X Y : Type} (f : fns F -> Model.res F X) (k : fns F -> option X -> pst -> Model.res F Y) x s1 o s2 :
  ev f x s1 -> ev (fun R => k R x s1) o s2 -> ev (fun R => opt_ F (f R) (k R)) o s2.
Proof using Type.
  intros [N H] [M G]. exists (Nat.max N M). intros n Hn. rewrite H by lia. cbn [opt_]. apply G. lia.
Qed.
Lemma ev_lead {X Y : Type} (f : fns F -> Model.res F X) (k : fns F -> X -> pst -> Model.res F Y) x s1 o s2 :
  ev f (Some x) s1 -> ev (fun R => k R x s1) o s2 -> ev (fun R => lead_ F (f R) (k R)) o s2.
Proof using Type.
  intros [N H] [M G]. exists (Nat.max N M). intros n Hn. rewrite H by lia. cbn [lead_]. apply G. lia.
Qed.
Lemma ev_ext {X : Type} (f g : fns F -> Model.res F X) o s' : (forall R, f R = g R) -> ev f o s' -> ev g o s'.
Proof using Type. intros E [N H]. exists N. intros n Hn. rewrite <- E. apply H, Hn. Qed.
Lemma ev_step {X : Type} (f : fns F -> Model.res F X) o s' : ev (fun R => f (step F R)) o s' <-> ev f o s'.
Proof using Type.
  split; intros [N H].
  - exists (S N). intros [|n] Hn; [lia|]. apply (H n). lia.
  - exists N. intros n Hn. apply (H (S n)). lia.
Qed.
Definition stable {X : Type} (f : fns F -> Model.res F X) : Prop :=
  forall n m, n <= m -> appr F (f (run F n)) (f (run F m)).
Lemma ev_req_inv {X Y : Type} (f : fns F -> Model.res F X) (k : fns F -> X -> pst -> Model.res F Y) o s2 :
  stable f -> ev (fun R => req_ F (f R) (k R)) o s2 ->
  exists x s1, ev f (Some x) s1 /\ ev (fun R => k R x s1) o s2.
Proof using Type.
  intros Hf [N H]. pose proof (H N (le_n N)) as H0. apply req_inv in H0 as (x & s1 & E & _).
  exists x, s1.
  assert (Ex : forall n, N <= n -> f (run F n) = Ok (Some x) s1).
  { intros n Hn. destruct (Hf N n Hn) as [Q|Q]; [rewrite E in Q; discriminate|congruence]. }
  split; [exists N; exact Ex|]. exists N. intros n Hn. specialize (H n Hn). rewrite (Ex n Hn) in H. exact H.
Qed.
Lemma ev_unique {X : Type} (f : fns F -> Model.res F X) o s o' s' : ev f o s -> ev f o' s' -> o = o' /\ s = s'.
Proof using Type.
  intros [N H] [M G]. specialize (H (Nat.max N M) (Nat.le_max_l _ _)). specialize (G (Nat.max N M) (Nat.le_max_r _ _)).
  rewrite H in G. injection G as <- <-. auto.
Qed.
Lemma stable_group t s : stable (fun R => f_group F R t s).
Proof using Type. intros n m H. apply (b_group F _ _ (run_mono F n m H)). Qed.
Lemma stable_part e i t s : stable (fun R => f_part F R e i t s).
Proof using Type. intros n m H. apply (b_part F _ _ (run_mono F n m H)). Qed.
Lemma stable_part_loop b o e i t s : stable (fun R => f_part_loop F R b o e i t s).
Proof using Type. intros n m H. apply (b_part_loop F _ _ (run_mono F n m H)). Qed.

(** *** Accumulators *)
Lemma rank_inj (a b : strength) : rank a = rank b -> a = b.
Proof using Type. destruct a, b; cbn; congruence. Qed.
Lemma part_loop_acc (n : nat) : forall bits ops r prev t s b o z s',
  f_part_loop F (run F n) bits ops r prev t s = Ok (Some (b, o, z)) s' ->
  exists sb so, b = bits ++ sb /\ o = ops ++ so /\
    forall bits' ops' prev', o_strength prev' = o_strength prev ->
      f_part_loop F (run F n) bits' ops' r prev' t s = Ok (Some (bits' ++ sb, ops' ++ so, z)) s'.
Proof using Type.
  induction n as [|n IH]; intros bits ops r prev t s b o z s' H; [discriminate|].
  cbn [run step f_part_loop] in H |- *. unfold part_loop_body in *.
  assert (Stop : success F (bits, ops, r) s = Ok (Some (b, o, z)) s' ->
    exists sb so, b = bits ++ sb /\ o = ops ++ so /\ forall bits' ops' : list _,
      success F (bits', ops', r) s = Ok (Some (bits' ++ sb, ops' ++ so, z)) s').
  { intros E; injection E as <- <- <- <-. exists [], []. rewrite !app_nil_r. repeat split. intros; rewrite !app_nil_r; reflexivity. }
  destruct (peek_op F s) as [info|].
  2: { destruct (Stop H) as (sb & so & E1 & E2 & E3). exists sb, so. repeat split; auto. }
  destruct (Nat.compare_spec (rank (o_strength info)) (rank (o_strength prev))) as [C|C|C].
  - apply req_inv in H as (r1 & s1 & E & H). apply IH in H as (sb & so & -> & -> & H).
    exists (r :: sb), (o_oper info :: so). rewrite <- !app_assoc. repeat split.
    intros bits' ops' prev' Hp. rewrite Hp. destruct (Nat.compare_spec (rank (o_strength info)) (rank (o_strength prev))); try lia.
    rewrite E. cbn [req_]. rewrite (H _ _ prev' Hp). rewrite <- !app_assoc. reflexivity.
  - apply req_inv in H as (r1 & s1 & E & H). apply IH in H as (sb & so & -> & -> & H).
    exists sb, so. repeat split.
    intros bits' ops' prev' Hp. rewrite Hp. destruct (Nat.compare_spec (rank (o_strength info)) (rank (o_strength prev))); try lia.
    rewrite E. cbn [req_]. apply H, Hp.
  - destruct (Stop H) as (sb & so & E1 & E2 & E3). exists sb, so. split; [exact E1|]. split; [exact E2|].
    intros bits' ops' prev' Hp. rewrite Hp. destruct (Nat.compare_spec (rank (o_strength info)) (rank (o_strength prev))); try lia.
    apply E3.
Qed.
Lemma part_loop_ev_acc bits ops r prev t s b o z s' :
  ev (fun R => f_part_loop F R bits ops r prev t s) (Some (b, o, z)) s' ->
  exists sb so, b = bits ++ sb /\ o = ops ++ so /\
    forall bits' ops' prev', o_strength prev' = o_strength prev ->
      ev (fun R => f_part_loop F R bits' ops' r prev' t s) (Some (bits' ++ sb, ops' ++ so, z)) s'.
Proof using Type.
  intros [N H]. destruct (part_loop_acc N _ _ _ _ _ _ _ _ _ _ (H N (le_n N))) as (sb & so & E1 & E2 & _).
  exists sb, so. split; [exact E1|]. split; [exact E2|]. intros bits' ops' prev' Hp. exists N. intros n Hn.
  destruct (part_loop_acc n _ _ _ _ _ _ _ _ _ _ (H n Hn)) as (sb' & so' & E1' & E2' & G).
  assert (sb' = sb) by (apply (app_inv_head bits); congruence).
  assert (so' = so) by (apply (app_inv_head ops); congruence). subst sb' so'. apply G, Hp.
Qed.

(** *** The rest of the input *)
Definition next_op (rest : list tok) : option opinfo := match rest with x :: _ => op_of F x | [] => None end.
Definition okrest (l : nat) (rest : list tok) : Prop :=
  match next_op rest with
  | Some i => if (l =? 12) || (l =? 13) then l < rank (o_strength i) else l <= rank (o_strength i)
  | None => True
  end.
Lemma okrest_mono (m l : nat) (rest : list tok) : m <= l -> l <= 14 -> okrest l rest -> okrest m rest.
Proof using Type.
  unfold okrest. destruct (next_op rest) as [i|]; [|auto]. intros H1 H2.
  destruct (Nat.eqb_spec l 12), (Nat.eqb_spec l 13), (Nat.eqb_spec m 12), (Nat.eqb_spec m 13); cbn [orb]; lia.
Qed.
Lemma peek_next (rest : list tok) (ds : list diag) : peek_op F (mk rest ds) = next_op rest.
Proof using Type. destruct rest; reflexivity. Qed.
(** the operator table, from the specification's side *)
Lemma op_at_info (n : nat) (p : punct) (o : oper) : op_at n p o ->
  exists st, op_of F (P p) = Some {| o_strength := st; o_token := p; o_oper := o |} /\ rank st = n.
Proof using Type. apply (op_at_iff F). Qed.

(** *** Continuations that hand operators of level at most [L] to [expression_part] *)
Definition hands {X : Type} (K : fns F -> expr -> pst -> Model.res F X) (t : bool) (L : nat) : Prop :=
  forall e s info, peek_op F s = Some info -> rank (o_strength info) <= L -> forall x s',
    ev (fun R => K R e s) (Some x) s' <->
    exists e1 s1, ev (fun R => f_part F R e info (t || is_conditional (o_strength info)) (take F s)) (Some e1) s1 /\
      ev (fun R => K R e1 s1) (Some x) s'.
Lemma expr_loop_hands (st : option strength) (t : bool) : hands (fun R e s => f_expr_loop F R e st t s) t (lim st).
Proof using Type.
  intros e s info Ep Hr x s'. rewrite <- (ev_step (fun R => f_expr_loop F R e st t s)). cbn [step f_expr_loop].
  unfold expr_loop_body. rewrite Ep.
  assert (El : match st with Some m => rank m <? rank (o_strength info) | None => false end = false).
  { destruct st; [apply Nat.ltb_ge; exact Hr|reflexivity]. }
  rewrite El. split.
  - intros H. apply ev_req_inv in H; [exact H|apply stable_part].
  - intros (e1 & s1 & H1 & H2). eapply ev_req; eassumption.
Qed.
Lemma part_loop_hands bits ops prev (t : bool) : hands (fun R e s => f_part_loop F R bits ops e prev t s) t (rank (o_strength prev) - 1).
Proof using Type.
  intros e s info Ep Hr x s'. rewrite <- (ev_step (fun R => f_part_loop F R bits ops e prev t s)). cbn [step f_part_loop].
  unfold part_loop_body. rewrite Ep.
  assert (1 <= rank (o_strength info)) by (destruct (o_strength info); cbn; lia).
  destruct (Nat.compare_spec (rank (o_strength info)) (rank (o_strength prev))) as [C|C|C]; try lia. split.
  - intros H'. apply ev_req_inv in H'; [exact H'|apply stable_part].
  - intros (e1 & s1 & H1 & H2). eapply ev_req; eassumption.
Qed.
Lemma part_loop_stop bits ops e prev t rest ds :
  match next_op rest with Some i => rank (o_strength prev) < rank (o_strength i) | None => True end ->
  ev (fun R => f_part_loop F R bits ops e prev t (mk rest ds)) (Some (bits, ops, e)) (mk rest ds).
Proof using Type.
  intros H. apply ev_step. cbn [step f_part_loop]. unfold part_loop_body. rewrite peek_next.
  destruct (next_op rest) as [i|]; [|apply ev_const].
  destruct (Nat.compare_spec (rank (o_strength i)) (rank (o_strength prev))); try lia. apply ev_const.
Qed.
Lemma part_loop_same bits ops e prev t p info rest ds g s1 x s' :
  op_of F (P p) = Some info -> rank (o_strength info) = rank (o_strength prev) ->
  ev (fun R => f_group F R t (mk rest ds)) (Some g) s1 ->
  ev (fun R => f_part_loop F R (bits ++ [e]) (ops ++ [o_oper info]) g prev t s1) x s' ->
  ev (fun R => f_part_loop F R bits ops e prev t (mk (P p :: rest) ds)) x s'.
Proof using Type.
  intros Ho Hr Hg Hk. apply ev_step. cbn [step f_part_loop]. unfold part_loop_body. rewrite peek_next. cbn [next_op].
  rewrite Ho. destruct (Nat.compare_spec (rank (o_strength info)) (rank (o_strength prev))); try lia.
  eapply ev_req; [exact Hg|exact Hk].
Qed.
Lemma part_loop_same' bits ops e prev t p info rest ds x s' :
  op_of F (P p) = Some info -> rank (o_strength info) = rank (o_strength prev) ->
  ev (fun R => req_ F (f_group F R t (mk rest ds)) (fun g => f_part_loop F R (bits ++ [e]) (ops ++ [o_oper info]) g prev t)) x s' ->
  ev (fun R => f_part_loop F R bits ops e prev t (mk (P p :: rest) ds)) x s'.
Proof using Type.
  intros Ho Hr Hk. apply ev_step. cbn [step f_part_loop]. unfold part_loop_body. rewrite peek_next. cbn [next_op].
  rewrite Ho. destruct (Nat.compare_spec (rank (o_strength info)) (rank (o_strength prev))); try lia. exact Hk.
Qed.
Lemma expr_loop_stop e st t rest ds :
  match next_op rest with Some i => lim st < rank (o_strength i) | None => True end ->
  ev (fun R => f_expr_loop F R e st t (mk rest ds)) (Some e) (mk rest ds).
Proof using Type.
  intros H. apply ev_step. cbn [step f_expr_loop]. unfold expr_loop_body. rewrite peek_next.
  destruct (next_op rest) as [i|]; [|apply ev_const].
  destruct st as [m|]; cbn [lim] in H.
  - assert (E : (rank m <? rank (o_strength i)) = true) by (apply Nat.ltb_lt; lia). rewrite E. apply ev_const.
  - exfalso. destruct (o_strength i); cbn in H; lia.
Qed.

(** What happens after the operators of a part have been read, for the operators that group to the left. *)
Definition finish (R : fns F) (prev : opinfo) (tern : bool) (r : list expr * list oper * expr) (s2 : pst) : Model.res F expr :=
  let '(bits, ops, rhs) := r in
  match o_strength prev with
  | SConditional => else_loop F R (rev bits) rhs s2
  | SIn =>
      opt_ F (exact_ident F (lit "to") s2) (fun to s3 =>
        match to with
        | Some _ => req_ F (f_expr F R (Some SIn) tern s3) (fun b s4 => success F (build_left F bits ops (Bin BTo rhs b)) s4)
        | None => success F (build_left F bits ops rhs) s3
        end)
  | st => success F (if right_binding st then build_right F bits ops rhs else build_left F bits ops rhs) s2
  end.
Lemma part_ev e info t s x s' :
  ev (fun R => f_part F R e info t s) x s' <->
  ev (fun R => req_ F (req_ F (f_group F R t s) (fun g => f_part_loop F R [e] [o_oper info] g info t)) (finish R info t)) x s'.
Proof using Type.
  rewrite <- (ev_step (fun R => f_part F R e info t s)). cbn [step f_part].
  assert (E : forall R, part_body F R e info t s =
    req_ F (req_ F (f_group F R t s) (fun g => f_part_loop F R [e] [o_oper info] g info t)) (finish R info t)).
  { intros R. unfold part_body, finish. destruct (f_group F R t s) as [[g|] s1|s1|]; reflexivity. }
  split; apply ev_ext; intros R; first [apply E | symmetry; apply E].
Qed.
Lemma finish_left (R : fns F) prev prev' t bits ops bits' ops' z s :
  o_strength prev' = o_strength prev -> rank (o_strength prev) <= 11 \/ rank (o_strength prev) = 14 ->
  (forall w, build_left F bits ops w = build_left F bits' ops' w) ->
  finish R prev t (bits, ops, z) s = finish R prev' t (bits', ops', z) s.
Proof using Type.
  intros Hp Hr Hb. unfold finish. rewrite Hp. destruct (o_strength prev); cbn [rank right_binding] in *; try (destruct Hr; lia);
    try (rewrite Hb; reflexivity).
  destruct (exact_ident F (lit "to") s) as [[u|] s3|s3|]; cbn [opt_]; try reflexivity.
  - destruct (f_expr F R (Some SIn) t s3) as [[b|] s4|s4|]; cbn [req_]; try reflexivity. rewrite Hb. reflexivity.
  - rewrite Hb. reflexivity.
Qed.

(** *** The operators *)
Section WITH.
Variable k : nat.
Hypothesis HGr : forall t e ts A rest ds, List.length ts <= k -> sp_group F t e ts A -> delimited A rest ->
  ev (fun R => f_group F R t (mk (ts ++ rest) ds)) (Some e) (mk rest ds).

Definition through (m : nat) (t : bool) (e : expr) (ts : list tok) (A : swallow) : Prop :=
  forall L rest ds, m <= L -> delimited A rest -> okrest m rest ->
  forall (X : Type) (K : fns F -> expr -> pst -> Model.res F X) x s', hands K t L ->
  ev (fun R => K R e (mk rest ds)) (Some x) s' ->
  ev (fun R => req_ F (f_group F R t (mk (ts ++ rest) ds)) (K R)) (Some x) s'.
(** one arm of a conditional *)
Definition arm (e : expr) (ts : list tok) (A : swallow) : Prop :=
  forall rest ds, delimited A rest -> next_op rest = None ->
  exists sb so z s1,
    (forall bits ops prev, rank (o_strength prev) = 12 ->
     ev (fun R => req_ F (f_group F R true (mk (ts ++ rest) ds)) (fun g => f_part_loop F R bits ops g prev true))
       (Some (bits ++ sb, ops ++ so, z)) s1) /\
    (forall more x s', ev (fun R => else_loop F R more e (mk rest ds)) (Some x) s' ->
     ev (fun R => else_loop F R (rev sb ++ more) z s1) (Some x) s').
(** the right-hand side of an assignment *)
Definition right (t : bool) (e : expr) (ts : list tok) (A : swallow) : Prop :=
  forall rest ds, delimited A rest -> okrest 13 rest ->
  exists sb so z, e = build_right F sb so z /\
    forall bits ops prev, rank (o_strength prev) = 13 ->
    ev (fun R => req_ F (f_group F R t (mk (ts ++ rest) ds)) (fun g => f_part_loop F R bits ops g prev t))
      (Some (bits ++ sb, ops ++ so, z)) (mk rest ds).

Lemma through_arm (m : nat) (e : expr) ts A : m <= 11 -> through m true e ts A -> arm e ts A.
Proof using Type.
  clear. intros Hm H rest ds HA Hn. exists [], [], e, (mk rest ds). split; [|intros more x s' Hx; exact Hx].
  intros bits ops prev Hp. rewrite !app_nil_r.
  apply (H (rank (o_strength prev) - 1) rest ds) with (K := fun R e s => f_part_loop F R bits ops e prev true s);
    [lia|exact HA|unfold okrest; rewrite Hn; exact I|apply part_loop_hands|].
  apply part_loop_stop. rewrite Hn. exact I.
Qed.
Lemma through_right (m : nat) (t : bool) (e : expr) ts A : m <= 12 -> through m t e ts A -> right t e ts A.
Proof using Type.
  clear. intros Hm H rest ds HA Hn. exists [], [], e. split; [reflexivity|].
  intros bits ops prev Hp. rewrite !app_nil_r.
  apply (H (rank (o_strength prev) - 1) rest ds) with (K := fun R e s => f_part_loop F R bits ops e prev t s);
    [lia|exact HA|eapply okrest_mono; [| |exact Hn]; lia|apply part_loop_hands|].
  apply part_loop_stop. unfold okrest in Hn. destruct (next_op rest); [|exact I]. cbn in Hn. lia.
Qed.

Definition good (l : nat) (t : bool) (e : expr) (ts : list tok) (A : swallow) : Prop :=
  l <= 14 -> List.length ts <= k ->
  exists m, m <= l /\ through m t e ts A /\ (t = true -> l <= 12 -> arm e ts A) /\ (l <= 13 -> right t e ts A).

(** [f_expr] at a limit *)
Lemma through_expr (m : nat) (st : option strength) (t : bool) (e : expr) ts A rest ds :
  through m t e ts A -> m <= lim st -> delimited A rest ->
  match next_op rest with Some i => lim st < rank (o_strength i) | None => True end ->
  ev (fun R => f_expr F R st t (mk (ts ++ rest) ds)) (Some e) (mk rest ds).
Proof using Type.
  clear. intros H Hm HA Hn. apply ev_step. cbn [step f_expr]. unfold expr_body.
  assert (G : ev (fun R => req_ F (f_group F R t (mk (ts ++ rest) ds)) (fun e0 s1 => f_expr_loop F R e0 st t s1)) (Some e) (mk rest ds)).
  { apply (H (lim st) rest ds) with (K := fun R e s => f_expr_loop F R e st t s); try assumption.
    - assert (lim st <= 14) by (destruct st as [[]|]; cbn; lia).
      apply okrest_mono with (l := lim st); try assumption. unfold okrest. destruct (next_op rest); [|exact I].
      destruct ((lim st =? 12) || (lim st =? 13)); lia.
    - apply expr_loop_hands.
    - apply expr_loop_stop, Hn. }
  destruct G as [N G]. exists N. intros n Hn'. specialize (G n Hn'). apply req_inv in G as (e0 & s1 & E & G).
  rewrite E. exact G.
Qed.

(** a part at a level that groups to the left, read in front of any rest *)
Lemma left_step (n : nat) (t : bool) (p : punct) (op : binop) (st : strength) (m : nat) (a b : expr) tb B rest ds
  (X : Type) (K : fns F -> expr -> pst -> Model.res F X) (L : nat) x s' :
  op_of F (P p) = Some {| o_strength := st; o_token := p; o_oper := OBin op |} -> rank st = n -> n <= 11 \/ n = 14 ->
  n <= L -> hands K t L ->
  through m t b tb B -> m <= n - 1 -> delimited B rest -> okrest n rest ->
  (n = 14 -> delimited (the_word F (lit "to")) rest) ->
  ev (fun R => K R (Bin op a b) (mk rest ds)) (Some x) s' ->
  ev (fun R => K R a (mk (P p :: tb ++ rest) ds)) (Some x) s'.
Proof using Type.
  clear. intros Ho Hr Hn HL HK Hb Hm HB Hrest Hto Hx. set (info := {| o_strength := st; o_token := p; o_oper := OBin op |}) in *.
  apply (HK a (mk (P p :: tb ++ rest) ds) info); [exact Ho|cbn; lia|]. cbn [o_strength info].
  change (take F (mk (P p :: tb ++ rest) ds)) with (mk (tb ++ rest) ds).
  assert (Ec : is_conditional st = false) by (destruct st; cbn [rank] in Hr; try reflexivity; lia).
  rewrite Ec, orb_false_r.
  assert (Hn1 : 1 <= n) by (rewrite <- Hr; destruct st; cbn; lia).
  assert (Ok1 : okrest m rest) by (apply okrest_mono with (l := n); [lia|lia|exact Hrest]).
  assert (Hnn : (n =? 12) || (n =? 13) = false) by (destruct (Nat.eqb_spec n 12), (Nat.eqb_spec n 13); cbn; lia).
  (* the part loop, after [b] *)
  assert (Loop : forall y sy, ev (fun R => f_part_loop F R [a] [OBin op] b info t (mk rest ds)) (Some y) sy ->
    ev (fun R => req_ F (f_group F R t (mk (tb ++ rest) ds)) (fun g => f_part_loop F R [a] [OBin op] g info t)) (Some y) sy).
  { intros y sy Hy. apply (Hb (n - 1) rest ds) with (K := fun R e s => f_part_loop F R [a] [OBin op] e info t s); try assumption.
    pose proof (part_loop_hands [a] [OBin op] info t) as Q. cbn [o_strength info] in Q. rewrite Hr in Q. exact Q. }
  destruct (next_op rest) as [i|] eqn:En.
  - destruct (Nat.eq_dec (rank (o_strength i)) n) as [Ei|Ni].
    + (* another operator of the same level *)
      destruct rest as [|[q| | | | | | | | |] rest']; try discriminate. cbn [next_op] in En.
      apply (HK (Bin op a b) (mk (P q :: rest') ds) i) in Hx; [|exact En|lia].
      change (take F (mk (P q :: rest') ds)) with (mk rest' ds) in Hx.
      assert (Es : o_strength i = st) by (apply rank_inj; lia). rewrite Es, Ec, orb_false_r in Hx.
      destruct Hx as (e1 & s1 & Hp & Hk). exists e1, s1. split; [|exact Hk].
      apply part_ev in Hp. apply part_ev.
      apply ev_req_inv in Hp as ([[bb oo] z] & s2 & Hl & Hf).
      2: { intros n1 n2 H12. apply appr_req; [apply (stable_group t (mk rest' ds) n1 n2 H12)|].
           intros g sg. apply (stable_part_loop [Bin op a b] [o_oper i] g i t sg n1 n2 H12). }
      apply ev_req_inv in Hl as (g & s3 & Hg & Hl); [|apply stable_group].
      apply part_loop_ev_acc in Hl as (sb & so & -> & -> & Hacc).
      eapply ev_req.
      * apply Loop. apply (part_loop_same [a] [OBin op] b info t q i rest' ds g s3 (Some ([a; b] ++ sb, [OBin op; o_oper i] ++ so, z)) s2);
          [exact En|cbn; lia|exact Hg|]. apply Hacc. cbn. congruence.
      * eapply ev_ext; [|exact Hf]. intros R. cbv beta. symmetry. apply finish_left; [cbn; congruence|cbn; lia|].
        intros w. reflexivity.
    + exists (Bin op a b), (mk rest ds). split; [|exact Hx]. apply part_ev.
      assert (Hgt : n < rank (o_strength i)).
      { unfold okrest in Hrest. rewrite En in Hrest. rewrite Hnn in Hrest. lia. }
      eapply ev_req; [apply Loop, part_loop_stop; rewrite En; cbn; lia|].
      assert (n <= 13).
      { assert (rank (o_strength i) <= 14) by (destruct (o_strength i); cbn; lia). lia. }
      unfold finish. cbn [o_strength info]. destruct st; cbn [rank] in Hr; try (exfalso; lia); apply ev_const.
  - exists (Bin op a b), (mk rest ds). split; [|exact Hx]. apply part_ev.
    eapply ev_req; [apply Loop, part_loop_stop; rewrite En; exact I|].
    unfold finish. cbn [o_strength info]. destruct st; cbn [rank] in Hr; try (exfalso; lia); try apply ev_const.
    specialize (Hto (eq_sym Hr)).
    assert (Et : exact_ident F (lit "to") (mk rest ds) = Ok None (mk rest ds)).
    { unfold exact_ident. cbn [toks mk]. destruct rest as [|[|i ws| | | | | | | |] r]; try reflexivity.
      cbn [Spec.delimited the_word] in Hto. rewrite Hto. reflexivity. }
    rewrite Et. cbn [opt_]. apply ev_const.
Qed.

Lemma else_step (c a b : expr) (colon : punct) tb B m rest ds more x s' :
  colon = PColon \/ colon = PCloseColon ->
  through m true b tb B -> m <= 12 -> delimited B rest ->
  match next_op rest with Some i => 12 < rank (o_strength i) | None => True end ->
  ev (fun R => else_loop F R more (Tern c a b) (mk rest ds)) (Some x) s' ->
  ev (fun R => else_loop F R (c :: more) a (mk (P colon :: tb ++ rest) ds)) (Some x) s'.
Proof using Type.
  clear. intros Hc Hb Hm HB Hn Hx. cbn [else_loop].
  assert (E : at_punct F PColon (mk (P colon :: tb ++ rest) ds) || at_punct F PCloseColon (mk (P colon :: tb ++ rest) ds) = true).
  { destruct Hc as [->| ->]; reflexivity. }
  rewrite E. change (take F (mk (P colon :: tb ++ rest) ds)) with (mk (tb ++ rest) ds).
  eapply ev_opt; [apply (through_expr m (Some SConditional) true b tb B); eassumption|exact Hx].
Qed.

Lemma through_weaken (m m' : nat) t e ts A : m <= m' -> m' <= 14 -> through m t e ts A -> through m' t e ts A.
Proof using Type.
  clear. intros H1 H2 H L rest ds HL HA Hr. apply H; [lia|exact HA|]. eapply okrest_mono; eassumption.
Qed.

Theorem expr_good (l : nat) (t : bool) (e : expr) (ts : list tok) (A : swallow) :
  sp_expr l t e ts A -> good l t e ts A.
Proof using HGr.
  intros D. induction D as
    [ l t e ts A G
    | l t n p op a ta A b tb B Hp Hn Da IHa HA Db IHb
    | l t c tc C a ta A colon b tb B Hl Dc IHc HC Da IHa Hcol HA Db IHb
    | l t p op a ta A b tb B Hp Hl Da IHa HA Db IHb
    | l t a ta A b tb B Hl Da IHa HA Db IHb
    | l t a ta A b tb B ws c tc C Hl Da IHa HA Db IHb HB Dc IHc ];
    intros Hl14 Hlen; rewrite ?app_length in Hlen; cbn [List.length] in Hlen; rewrite ?app_length in Hlen; cbn [List.length] in Hlen.
  - (* a group *)
    assert (T : through 0 t e ts A).
    { intros L rest ds HL HA Hr X K x s' HK Hx. eapply ev_req; [apply (HGr t e ts A); assumption|exact Hx]. }
    exists 0. split; [lia|]. split; [exact T|]. split.
    + intros -> _. apply through_arm with (m := 0); [lia|exact T].
    + intros _. apply through_right with (m := 0); [lia|exact T].
  - (* binary *)
    pose proof (binary_level p n op Hp) as Hlev.
    destruct IHa as (ma & Hma & Ta & _); [lia|lia|]. destruct IHb as (mb & Hmb & Tb & _); [lia|lia|].
    destruct (op_at_info n p (OBin op) (At_bin p n op Hp)) as (st & Ho & Hr).
    assert (T : through n t (Bin op a b) (ta ++ P p :: tb) B).
    { intros L rest ds HL HB Hrest X K x s' HK Hx. rewrite <- app_assoc. cbn [app].
      apply (Ta L (P p :: tb ++ rest) ds); [lia|exact HA| |exact HK|].
      - unfold okrest. cbn [next_op]. rewrite Ho. cbn [o_strength].
        destruct (Nat.eqb_spec ma 12), (Nat.eqb_spec ma 13); cbn [orb]; lia.
      - eapply (left_step n t p op st mb a b tb B rest ds X K L); try eassumption; [lia|lia]. }
    exists n. split; [exact Hn|]. split; [exact T|]. split.
    + intros -> _. apply through_arm with (m := n); [lia|exact T].
    + intros _. apply through_right with (m := n); [lia|exact T].
  - (* conditional *)
    destruct IHc as (mc & Hmc & Tc & _); [lia|lia|]. destruct IHa as (ma & Hma & Ta & Aa & _); [lia|lia|].
    destruct IHb as (mb & Hmb & Tb & _); [lia|lia|]. specialize (Aa eq_refl (le_n 12)).
    destruct (op_at_info 12 PQuestionMark OTern At_tern) as (st & Ho & Hr).
    assert (Es : st = SConditional) by (apply rank_inj; exact Hr). subst st.
    set (info := {| o_strength := SConditional; o_token := PQuestionMark; o_oper := OTern |}) in *.
    assert (Ncol : forall r, next_op (P colon :: r) = None) by (intros r; destruct Hcol as [->| ->]; reflexivity).
    assert (Okc : forall r, okrest mc (P PQuestionMark :: r)).
    { intros r. unfold okrest. cbn [next_op]. rewrite Ho. cbn [o_strength info rank].
      destruct (Nat.eqb_spec mc 12), (Nat.eqb_spec mc 13); cbn [orb]; lia. }
    assert (T : through 12 t (Tern c a b) (tc ++ P PQuestionMark :: ta ++ P colon :: tb) B).
    { intros L rest ds HL HB Hrest X K x s' HK Hx.
      rewrite <- app_assoc. cbn [app]. rewrite <- app_assoc. cbn [app].
      apply (Tc L (P PQuestionMark :: ta ++ P colon :: tb ++ rest) ds); [lia|exact HC|apply Okc|exact HK|].
      apply (HK c (mk (P PQuestionMark :: ta ++ P colon :: tb ++ rest) ds) info); [exact Ho|exact HL|].
      exists (Tern c a b), (mk rest ds). split; [|exact Hx].
      change (take F (mk (P PQuestionMark :: ta ++ P colon :: tb ++ rest) ds)) with (mk (ta ++ P colon :: tb ++ rest) ds).
      cbn [o_strength info is_conditional]. rewrite orb_true_r. apply part_ev.
      destruct (Aa (P colon :: tb ++ rest) ds HA (Ncol _)) as (sb & so & z & s1 & H1 & H2).
      eapply ev_req; [apply (H1 [c] [OTern] info); reflexivity|]. unfold finish. cbn [o_strength info].
      change ([c] ++ sb) with (c :: sb). cbn [rev]. apply H2.
      apply (else_step c a b colon tb B mb rest ds []); try assumption; apply ev_const. }
    exists 12. split; [exact Hl|]. split; [exact T|]. split.
    + intros -> Hl12. intros rest ds HB Hn. rewrite <- app_assoc. cbn [app]. rewrite <- app_assoc. cbn [app].
      destruct (Aa (P colon :: tb ++ rest) ds HA (Ncol _)) as (sb & so & z & s1 & H1 & H2).
      exists (c :: sb), (OTern :: so), z, s1. split.
      * intros bits ops prev Hp.
        apply (Tc 11 (P PQuestionMark :: ta ++ P colon :: tb ++ rest) ds) with
          (K := fun R e s => f_part_loop F R bits ops e prev true s); [lia|exact HC|apply Okc| |].
        { pose proof (part_loop_hands bits ops prev true) as Q. rewrite Hp in Q. exact Q. }
        apply (part_loop_same' bits ops c prev true PQuestionMark info); [exact Ho|cbn; lia|].
        specialize (H1 (bits ++ [c]) (ops ++ [OTern]) prev Hp). rewrite <- !app_assoc in H1. exact H1.
      * intros more x s' Hx. cbn [rev]. rewrite <- app_assoc. cbn [app]. apply H2.
        apply (else_step c a b colon tb B mb rest ds more); try assumption. rewrite Hn. exact I.
    + intros _. apply through_right with (m := 12); [lia|exact T].
  - (* assignment *)
    destruct IHa as (ma & Hma & Ta & _ & _); [lia|lia|]. destruct IHb as (mb & Hmb & Tb & _ & Rb); [lia|lia|].
    specialize (Rb (le_n 13)).
    destruct (op_at_info 13 p (OAssign op) (At_assign p op Hp)) as (st & Ho & Hr).
    assert (Es : st = SAssign) by (apply rank_inj; exact Hr). subst st.
    set (info := {| o_strength := SAssign; o_token := p; o_oper := OAssign op |}) in *.
    assert (Oka : forall r, okrest ma (P p :: r)).
    { intros r. unfold okrest. cbn [next_op]. rewrite Ho. cbn [o_strength info rank].
      destruct (Nat.eqb_spec ma 12), (Nat.eqb_spec ma 13); cbn [orb]; lia. }
    assert (T : through 13 t (Assign op a b) (ta ++ P p :: tb) B).
    { intros L rest ds HL HB Hrest X K x s' HK Hx. rewrite <- app_assoc. cbn [app].
      apply (Ta L (P p :: tb ++ rest) ds); [lia|exact HA|apply Oka|exact HK|].
      apply (HK a (mk (P p :: tb ++ rest) ds) info); [exact Ho|exact HL|].
      exists (Assign op a b), (mk rest ds). split; [|exact Hx].
      change (take F (mk (P p :: tb ++ rest) ds)) with (mk (tb ++ rest) ds).
      cbn [o_strength info is_conditional]. rewrite orb_false_r. apply part_ev.
      destruct (Rb rest ds HB Hrest) as (sb & so & z & Eb & H1).
      eapply ev_req; [apply (H1 [a] [OAssign op] info); reflexivity|]. unfold finish. cbn [o_strength info right_binding].
      rewrite Eb. apply ev_const. }
    exists 13. split; [exact Hl|]. split; [exact T|]. split; [intros _ Hbad; lia|].
    intros _ rest ds HB Hrest. destruct (Rb rest ds HB Hrest) as (sb & so & z & Eb & H1).
    exists (a :: sb), (OAssign op :: so), z. split; [rewrite Eb; reflexivity|]. intros bits ops prev Hpr.
    rewrite <- app_assoc. cbn [app].
    apply (Ta 12 (P p :: tb ++ rest) ds) with (K := fun R e s => f_part_loop F R bits ops e prev t s);
      [lia|exact HA|apply Oka| |].
    { pose proof (part_loop_hands bits ops prev t) as Q. rewrite Hpr in Q. exact Q. }
    apply (part_loop_same' bits ops a prev t p info); [exact Ho|cbn; lia|].
    specialize (H1 (bits ++ [a]) (ops ++ [OAssign op]) prev Hpr). rewrite <- !app_assoc in H1. exact H1.
  - (* in *)
    destruct IHa as (ma & Hma & Ta & _); [lia|lia|]. destruct IHb as (mb & Hmb & Tb & _); [lia|lia|].
    destruct (op_at_info 14 PIn (OBin BIn) At_in) as (st & Ho & Hr).
    assert (T : through 14 t (Bin BIn a b) (ta ++ P PIn :: tb) (either F (the_word F (lit "to")) B)).
    { intros L rest ds HL HB Hrest X K x s' HK Hx. rewrite <- app_assoc. cbn [app].
      apply (Ta L (P PIn :: tb ++ rest) ds); [lia|exact HA| |exact HK|].
      - unfold okrest. cbn [next_op]. rewrite Ho. cbn [o_strength].
        destruct (Nat.eqb_spec ma 12), (Nat.eqb_spec ma 13); cbn [orb]; lia.
      - assert (delimited (the_word F (lit "to")) rest /\ delimited B rest) as [HB1 HB2].
        { destruct rest; [split; exact I|]. cbn [Spec.delimited either] in HB |- *. apply orb_false_iff in HB. exact HB. }
        eapply (left_step 14 t PIn BIn st mb a b tb B rest ds X K L); try eassumption; try lia; intros _; exact HB1. }
    exists 14. split; [exact Hl|]. split; [exact T|]. split; intros; lia.
  - (* in ... to *)
    destruct IHa as (ma & Hma & Ta & _); [lia|lia|]. destruct IHb as (mb & Hmb & Tb & _); [lia|lia|].
    destruct IHc as (mc & Hmc & Tc & _); [lia|lia|].
    destruct (op_at_info 14 PIn (OBin BIn) At_in) as (st & Ho & Hr).
    assert (Es : st = SIn) by (apply rank_inj; exact Hr). subst st.
    set (info := {| o_strength := SIn; o_token := PIn; o_oper := OBin BIn |}) in *.
    assert (T : through 14 t (Bin BIn a (Bin BTo b c)) (ta ++ P PIn :: tb ++ TIdent F (lit "to") ws :: tc) (either F (operator F) C)).
    { intros L rest ds HL HBr Hrest X K x s' HK Hx. rewrite <- app_assoc. cbn [app]. rewrite <- app_assoc. cbn [app].
      assert (Nrest : next_op rest = None).
      { destruct rest as [|y rest]; [reflexivity|]. cbn [Spec.delimited either] in HBr. apply orb_false_iff in HBr as [HO _].
        destruct y as [q| | | | | | | | |]; try reflexivity. cbn [next_op].
        destruct (op_of F (P q)) as [i|] eqn:Eq; [|reflexivity]. exfalso.
        pose proof (op_of_view F q) as V. rewrite Eq in V. unfold operator in HO.
        inversion V as [n0 op0 st0 Hb1 Hb2 Hb3 Q|E0 Q|op0 Ha0 Q|E0 Q|]; subst; try discriminate.
        - rewrite Hb1 in HO. destruct (assign_op q); discriminate.
        - rewrite Ha0 in HO. destruct (binary_op q); discriminate. }
      apply (Ta L (P PIn :: tb ++ TIdent F (lit "to") ws :: tc ++ rest) ds); [lia|exact HA| |exact HK|].
      - unfold okrest. cbn [next_op]. rewrite Ho. cbn [o_strength info rank].
        destruct (Nat.eqb_spec ma 12), (Nat.eqb_spec ma 13); cbn [orb]; lia.
      - apply (HK a (mk (P PIn :: tb ++ TIdent F (lit "to") ws :: tc ++ rest) ds) info); [exact Ho|exact HL|].
        exists (Bin BIn a (Bin BTo b c)), (mk rest ds). split; [|exact Hx].
        change (take F (mk (P PIn :: tb ++ TIdent F (lit "to") ws :: tc ++ rest) ds))
          with (mk (tb ++ TIdent F (lit "to") ws :: tc ++ rest) ds).
        cbn [o_strength info is_conditional]. rewrite orb_false_r. apply part_ev.
        eapply ev_req with (x := ([a], [OBin BIn], b)) (s1 := mk (TIdent F (lit "to") ws :: tc ++ rest) ds).
        + apply (Tb 13 (TIdent F (lit "to") ws :: tc ++ rest) ds) with
            (K := fun R e s => f_part_loop F R [a] [OBin BIn] e info t s);
            [lia|exact HB|exact I| |].
          * pose proof (part_loop_hands [a] [OBin BIn] info t) as Q. exact Q.
          * apply part_loop_stop. exact I.
        + unfold finish. cbn [o_strength info].
          assert (Et : exact_ident F (lit "to") (mk (TIdent F (lit "to") ws :: tc ++ rest) ds) = Ok (Some tt) (mk (tc ++ rest) ds)).
          { reflexivity. }
          rewrite Et. cbn [opt_].
          assert (Ec : ev (fun R => f_expr F R (Some SIn) t (mk (tc ++ rest) ds)) (Some c) (mk rest ds)).
          { apply (through_expr mc (Some SIn) t c tc C); [exact Tc|cbn; lia| |rewrite Nrest; exact I].
            destruct rest; [exact I|]. cbn [Spec.delimited either] in HBr |- *. apply orb_false_iff in HBr. apply HBr. }
          eapply ev_req; [exact Ec|]. apply ev_const. }
    exists 14. split; [exact Hl|]. split; [exact T|]. split; intros; lia.
Qed.

(** [f_expr] on a whole expression *)
Lemma expr_complete (st : option strength) (t : bool) (e : expr) (ts : list tok) (A : swallow) rest ds :
  List.length ts <= k -> sp_expr (lim st) t e ts A -> ends_before (lim st) A rest ->
  ev (fun R => f_expr F R st t (mk (ts ++ rest) ds)) (Some e) (mk rest ds).
Proof using HGr.
  intros Hk D HE. assert (lim st <= 14) by (destruct st as [[]|]; cbn; lia).
  destruct (expr_good _ _ _ _ _ D) as (m & Hm & T & _); [assumption|assumption|].
  change rest with (toks (mk rest ds)) in HE. apply ends_before_iff in HE as [H1 H2]. rewrite peek_next in H2.
  eapply through_expr; eassumption.
Qed.
End WITH.
End COMPLETE.
