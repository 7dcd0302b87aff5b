(** What the parser of statements returns without registering a diagnostic is what the grammar says; its loops end. *)
From Coq Require Import List NArith ZArith Bool String Lia.
From Verif Require Import Common.Text Lexer.Punct Lexer.Model Parse.Ast Parse.Model Parse.Spec Parse.Facts Parse.Grow
  Parse.Term Parse.Gram Parse.Sound Parse.Sound2 Parse.Mono Parse.Complete Parse.Complete2 Parse.Complete3 Stmt.Ast Stmt.Model Stmt.Spec.
Import ListNotations.
Open Scope nat_scope.

Section SOUND.
Variable F : Type.
Notation tok := (token F).
Notation expr := (expr F).
Notation stmt := (stmt F).
Notation block := (block F).
Notation pst := (pst F).
Notation res := (res F).
Notation P p := (TPunct F p).
Notation W w ws := (TIdent F (lit w) ws).
Notation len s := (List.length (toks s)).
Notation mk := (Complete.mk F).
Notation le := Grow.le.

(** [spec s r U G]: a call in the state [s] with the result [r] ends, has only added diagnostics and taken tokens, makes [U] true of
    its outcome, and if it has added no diagnostics, [G] too. *)
Definition spec {X : Type} (s : pst) (r : res X) (U : option X -> pst -> Prop) (G : option X -> list tok -> Prop) : Prop :=
  match r with
  | Ok o s' => le (diags s) (diags s') /\ len s' <= len s /\ U o s' /\ (diags s' = diags s -> G o (toks s'))
  | Err _ => True
  | Stuck => False
  end.
Lemma le_mid (a b c : list diag) : le a b -> le b c -> c = a -> b = a /\ c = b.
Proof using Type. intros [x ->] [y ->] H. rewrite <- app_assoc in H. rewrite <- (app_nil_r a) in H at 2. apply app_inv_head in H. apply app_eq_nil in H as [-> ->]. rewrite !app_nil_r. auto. Qed.
Lemma spec_opt {X Y : Type} s (x : res X) (k : option X -> pst -> res Y) (U1 : option X -> pst -> Prop) (G1 : option X -> list tok -> Prop)
  (U2 : option Y -> pst -> Prop) (G2 : option Y -> list tok -> Prop) :
  spec s x U1 G1 ->
  (forall o s1, len s1 <= len s -> U1 o s1 -> spec s1 (k o s1) U2 (fun o' r => G1 o (toks s1) -> G2 o' r)) ->
  spec s (opt_ F x k) U2 G2.
Proof using Type.
  destruct x as [o s1|s1|]; cbn [opt_ spec]; [|trivial|trivial]. intros (D & L & HU & HG) HK. specialize (HK o s1 L HU).
  destruct (k o s1) as [o' s2|s2|]; cbn [spec] in *; [|trivial|trivial]. destruct HK as (D2 & L2 & HU2 & HG2).
  split; [eapply le_trans; eassumption|]. split; [lia|]. split; [exact HU2|]. intros E.
  destruct (le_mid _ _ _ D D2 E) as [E1 E2]. apply HG2; [exact E2|]. apply HG, E1.
Qed.
Lemma spec_req {X Y : Type} s (x : res X) (k : X -> pst -> res Y) (U1 : option X -> pst -> Prop) (G1 : option X -> list tok -> Prop)
  (U2 : option Y -> pst -> Prop) (G2 : option Y -> list tok -> Prop) :
  spec s x U1 G1 ->
  (forall o s1, len s1 <= len s -> U1 (Some o) s1 -> spec s1 (k o s1) U2 (fun o' r => G1 (Some o) (toks s1) -> G2 o' r)) ->
  spec s (req_ F x k) U2 G2.
Proof using Type.
  intros H HK.
  replace (req_ F x k) with (opt_ F x (fun o s1 => match o with Some a => k a s1 | None => Err s1 end)) by (destruct x as [[a|] s1|s1|]; reflexivity).
  eapply spec_opt; [exact H|]. intros [a|] s1 L HU; [apply HK; assumption|exact I].
Qed.
Lemma spec_lead {X Y : Type} s (x : res X) (k : X -> pst -> res Y) (U1 : option X -> pst -> Prop) (G1 : option X -> list tok -> Prop)
  (U2 : option Y -> pst -> Prop) (G2 : option Y -> list tok -> Prop) :
  spec s x U1 G1 ->
  (forall o s1, len s1 <= len s -> U1 (Some o) s1 -> spec s1 (k o s1) U2 (fun o' r => G1 (Some o) (toks s1) -> G2 o' r)) ->
  (forall s1, U1 None s1 -> U2 None s1) -> (forall r, G1 None r -> G2 None r) ->
  spec s (lead_ F x k) U2 G2.
Proof using Type.
  intros H HK HU0 HG0.
  destruct x as [[a|] s1|s1|]; cbn [lead_]; [|cbn [spec] in *|trivial|trivial].
  - eapply (spec_req s (Ok (Some a) s1) k); [exact H|exact HK].
  - destruct H as (D & L & HU & HG). split; [exact D|]. split; [exact L|]. split; auto.
Qed.
Lemma spec_ret {X : Type} s (o : option X) (U : option X -> pst -> Prop) (G : option X -> list tok -> Prop) : U o s -> G o (toks s) -> spec s (Ok o s) U G.
Proof using Type. intros HU HG. cbn. split; [apply le_refl|]. split; [lia|]. auto. Qed.
Lemma spec_weaken {X : Type} s (r : res X) U G (U' : option X -> pst -> Prop) (G' : option X -> list tok -> Prop) :
  spec s r U G -> (forall o s', len s' <= len s -> U o s' -> U' o s') -> (forall o t, G o t -> G' o t) -> spec s r U' G'.
Proof using Type. destruct r as [o s'|s'|]; cbn; auto. intros (D & L & HU & HG) H1 H2. repeat split; auto. Qed.
(** a diagnostic more and the result does not matter *)
Lemma spec_register {X : Type} d s (r : res X) U G G' : spec (register F d s) r U G -> spec s r U G'.
Proof using Type.
  destruct r as [o s'|s'|]; cbn [spec]; auto. intros (D & L & HU & HG). cbn [register diags toks] in *.
  split; [eapply le_trans; [apply le_snoc|exact D]|]. split; [exact L|]. split; [exact HU|]. intros E.
  exfalso. destruct D as [c D]. rewrite E, <- app_assoc in D. apply (f_equal (@List.length diag)) in D. rewrite !app_length in D. cbn in D. lia.
Qed.

Definition strictly {X : Type} (s : pst) : option X -> pst -> Prop := fun o s' => match o with Some _ => len s' < len s | None => s' = s end.
Definition present {X : Type} : option X -> pst -> Prop := fun o s' => o <> None.
Definition present_lt {X : Type} (s : pst) : option X -> pst -> Prop := fun o s' => o <> None /\ len s' < len s.

(** ** The elements *)
Lemma not_punct_iff p ts : delimited F (punct_in F [p]) ts <-> not_punct F p ts.
Proof using Type.
  unfold not_punct. destruct ts as [|[q| | | | | | | | |] r]; cbn; split; intros H; try exact I; try reflexivity; try (intros ? ?; discriminate).
  - destruct (punct_eq_dec q p); [discriminate|]. intros r' E. injection E as -> ->. congruence.
  - destruct (punct_eq_dec q p); [subst; exfalso; eapply H; reflexivity|reflexivity].
Qed.
Lemma not_word_iff w ts : delimited F (the_word F w) ts <-> not_word F w ts.
Proof using Type.
  unfold not_word. destruct ts as [|[|i ws| | | | | | | |] r]; cbn; split; intros H; try exact I; try reflexivity; try (intros ? ? ?; discriminate).
  - intros ws' r' E. injection E as -> -> ->. destruct (text_eqb_spec w w); congruence.
  - destruct (text_eqb_spec i w); [subst; exfalso; eapply H; reflexivity|reflexivity].
Qed.
Lemma exact_spec p s : spec s (exact F p s) (strictly s)
  (fun o r => match o with Some _ => toks s = P p :: r | None => r = toks s /\ not_punct F p r end).
Proof using Type.
  destruct (exact F p s) as [[u|] s'|s'|] eqn:E; cbn [spec].
  - pose proof (exact_some F _ _ _ _ E) as [T D]. rewrite D, T. split; [apply le_refl|]. cbn. split; [lia|]. split; [rewrite T; cbn; lia|]. intros _. reflexivity.
  - pose proof (exact_none F _ _ _ E) as [-> H]. split; [apply le_refl|]. split; [lia|]. split; [reflexivity|]. intros _. split; [reflexivity|apply not_punct_iff, H].
  - trivial.
  - exact (exact_ns F _ _ E).
Qed.
Lemma exact_ident_spec w s : spec s (exact_ident F w s) (strictly s)
  (fun o r => match o with Some _ => exists ws, toks s = TIdent F w ws :: r | None => r = toks s /\ not_word F w r end).
Proof using Type.
  destruct (exact_ident F w s) as [[u|] s'|s'|] eqn:E; cbn [spec].
  - pose proof (exact_ident_some F _ _ _ _ E) as (ws & T & D). rewrite D, T. split; [apply le_refl|]. cbn. split; [lia|]. split; [rewrite T; cbn; lia|]. intros _. eauto.
  - pose proof (exact_ident_none F _ _ _ E) as [-> H]. split; [apply le_refl|]. split; [lia|]. split; [reflexivity|]. intros _. split; [reflexivity|apply not_word_iff, H].
  - trivial.
  - exact (exact_ident_ns F _ _ E).
Qed.
Lemma ident_spec s : spec s (ident F s) (strictly s)
  (fun o r => match o with Some i => exists ws, toks s = TIdent F i ws :: r | None => r = toks s /\ not_ident F r end).
Proof using Type.
  destruct (ident F s) as [[u|] s'|s'|] eqn:E; cbn [spec].
  - pose proof (ident_some F _ _ _ E) as (ws & T & D). rewrite D, T. split; [apply le_refl|]. cbn. split; [lia|]. split; [rewrite T; cbn; lia|]. intros _. eauto.
  - pose proof (ident_none F _ _ E) as [-> H]. split; [apply le_refl|]. split; [lia|]. split; [reflexivity|]. intros _. split; [reflexivity|].
    intros i ws r Q. rewrite Q in H. discriminate H.
  - trivial.
  - exact (ident_ns F _ E).
Qed.
Lemma input_type_spec s : spec s (input_type F s) (strictly s) (fun o r => match o with Some n => itype_at F n (toks s) r | None => True end).
Proof using Type.
  destruct (input_type F s) as [o s'|s'|] eqn:E; cbn [spec].
  - pose proof (input_type_sh F _ _ _ E) as S. split; [exact (input_type_gr F _ _ _ E)|]. split; [destruct o; [lia|subst; lia]|]. split; [exact S|].
    intros D. destruct o as [n|]; [|exact I]. exact (input_type_sound F _ _ _ E D).
  - trivial.
  - exact (input_type_ns F _ E).
Qed.
(** *** Expressions *)
Lemma group_none tern s s' n : f_group F (run F (S (S n))) tern s = Ok None s' ->
  match toks s with t :: _ => starts_expr F t = false | [] => True end.
Proof using Type.
  cbn [run step f_group]. unfold group_body. destruct (prefix_loop F (toks s)) as [us r] eqn:Ep. destruct us as [|u us].
  2:{ intros H. apply req_inv in H as (a & s1 & _ & H). apply req_inv in H as (b & s2 & _ & H). discriminate H. }
  intros H. apply lead_inv in H as [(a & s1 & _ & H)|[H _]]; [apply req_inv in H as (b & s2 & _ & H); discriminate H|].
  destruct (toks s) as [|t ts] eqn:Et; [trivial|]. cbn [prefix_loop] in Ep.
  destruct (Model.prefix_op F t) eqn:Eo; [destruct (prefix_loop F ts); discriminate Ep|]. injection Ep as <-.
  change (step F (run F n)) with (run F (S n)) in H. pose proof (h_term F _ (run_shrinks F (S n)) _ _ _ H) as _.
  cbn [run step f_term] in H. unfold term_body in H. cbn [toks with_toks] in H.
  assert (Pl : forall (A B : Type) (x : res A) (k : A -> pst -> res B) st, (forall a s1, k a s1 <> Ok None st) -> req_ F x k <> Ok None st).
  { intros A B x k st Hk. destruct x as [[a|] s1|s1|]; cbn; try discriminate. apply Hk. }
  destruct t as [p|i ws| | | | | | | |]; try reflexivity; try discriminate H.
  - destruct p; try reflexivity; try discriminate Eo; exfalso; revert H; apply Pl; intros; discriminate.
  - exfalso. pose proof (ident_term_sh F _ (run_shrinks F n) i _ _ _ H) as [Q _]. congruence.
  - exfalso; revert H; apply Pl; intros; discriminate.
Qed.
Lemma expression_spec s : spec s (expression F s) (strictly s) (fun o r => opt_expr F o (toks s) r).
Proof using Type.
  unfold expression. set (n := parse_fuel F (toks s)).
  pose proof (e_expr F _ _ (run_enough F n) None false s) as Hn.
  destruct (f_expr F (run F n) None false s) as [o s'|s'|] eqn:E; cbn [spec].
  - pose proof (h_expr F _ (run_shrinks F n) _ _ _ _ _ E) as S. pose proof (g_expr F _ (run_grows F n) _ _ _ _ _ E) as D.
    split; [exact D|]. split; [destruct o; [lia|subst; lia]|]. split; [exact S|]. intros Q. destruct o as [e|].
    + constructor. exact (s_expr F _ (run_sound F n) _ _ _ _ _ E Q).
    + subst s'. constructor. unfold n, parse_fuel in E. replace (4 * len s + 4) with (S (S (S (4 * len s + 1)))) in E by lia.
      change (run F (S (S (S (4 * len s + 1))))) with (step F (run F (S (S (4 * len s + 1))))) in E. cbn [step f_expr] in E. unfold expr_body in E.
      apply lead_inv in E as [(e & s1 & _ & E)|[E _]]; [|exact (group_none _ _ _ _ E)].
      apply (h_expr_loop F _ (run_shrinks F _)) in E. destruct E; congruence.
  - trivial.
  - apply Hn; [unfold n, parse_fuel; lia|reflexivity].
Qed.

(** ** Paths *)
Definition path_next (parts : list text) (r : list tok) (ds : list diag) : list text * pst :=
  match r with TIdent _ i _ :: r' => path_rest F (parts ++ [i]) r' ds | _ => path_rest F (bare_slash parts) r ds end.
Lemma path_rest_eq parts ts ds : path_rest F parts ts ds =
  match ts with
  | TPunct _ PSlash :: r => path_next parts r ds
  | TPunct _ PDot :: r | TPunct _ PCloseColon :: r | TPunct _ PColon :: r => path_next parts r (ds ++ [DPathSeparator])
  | _ => (parts, {| toks := ts; diags := ds |})
  end.
Proof using Type. destruct ts as [|[p| | | | | | | | |] r]; try reflexivity. Qed.
Lemma path_rest_facts n : forall ts, List.length ts <= n -> forall parts ds ps s', path_rest F parts ts ds = (ps, s') ->
  le ds (diags s') /\ len s' <= List.length ts.
Proof using Type.
  induction n as [|n IH]; intros ts Hn parts ds ps s' H; rewrite path_rest_eq in H.
  - destruct ts; [|cbn in Hn; lia]. injection H as <- <-. split; [apply le_refl|cbn; lia].
  - assert (Q : forall r ds', path_next parts r ds' = (ps, s') -> List.length r <= n -> le ds' (diags s') /\ len s' <= List.length r).
    { intros r ds' E Hr. unfold path_next in E. destruct r as [|[| | | | | | | | |] r']; try (eapply IH; [exact Hr|exact E]).
      eapply IH in E; [|cbn in Hr; lia]. cbn. split; [tauto|lia]. }
    destruct ts as [|[p| | | | | | | | |] r]; try (injection H as <- <-; split; [apply le_refl|cbn; lia]).
    cbn in Hn. assert (Hr : List.length r <= n) by lia.
    destruct p; try (injection H as <- <-; split; [apply le_refl|cbn; lia]);
      (apply Q in H as [H1 H2]; [|exact Hr]; split; [first [exact H1|eapply le_trans; [apply le_snoc|exact H1]]|cbn; lia]).
Qed.
Lemma repeat_snoc {X : Type} (x : X) k l : repeat x k ++ x :: l = x :: repeat x k ++ l.
Proof using Type. clear. induction k as [|k IH]; cbn; [reflexivity|rewrite IH; reflexivity]. Qed.
Lemma with_slash_idem i : with_slash (with_slash i) = with_slash i.
Proof using Type.
  clear. unfold with_slash. destruct (text_eqb_spec i (lit "operator")) as [->|N]; [reflexivity|]. destruct (text_eqb_spec i (lit "operator")); congruence.
Qed.
Lemma bare_named front i k : bare_slash (front ++ [named i k]) = front ++ [named i (S k)].
Proof using Type.
  clear. unfold bare_slash. rewrite rev_app_distr. cbn [rev app]. rewrite rev_involutive.
  assert (E : named i (S k) = with_slash (named i k)) by (destruct k; cbn; [reflexivity|symmetry; apply with_slash_idem]).
  rewrite E. unfold with_slash. destruct (text_eqb (named i k) (lit "operator")); reflexivity.
Qed.
Lemma path_rest_sound n : forall ts, List.length ts <= n -> forall front i k ds ps s',
  path_rest F (front ++ [named i k]) ts ds = (ps, s') -> diags s' = ds -> (k <> 0 -> not_ident F ts) ->
  exists ns, ps = front ++ ns /\ forall ws, names_at F ns (TIdent F i ws :: repeat (P PSlash) k ++ ts) (toks s').
Proof using Type.
  induction n as [|n IH]; intros ts Hn front i k ds ps s' H D Hk; rewrite path_rest_eq in H.
  - destruct ts; [|cbn in Hn; lia]. injection H as <- <-. exists [named i k]. split; [reflexivity|]. intros ws. constructor; try (intros ? ?; discriminate).
  - assert (Stop : not_punct F PSlash ts -> not_punct F PDot ts -> not_punct F PColon ts -> not_punct F PCloseColon ts ->
       (front ++ [named i k], {| toks := ts; diags := ds |}) = (ps, s') ->
       exists ns, ps = front ++ ns /\ forall ws, names_at F ns (TIdent F i ws :: repeat (P PSlash) k ++ ts) (toks s')).
    { intros H1 H2 H3 H4 E. injection E as <- <-. exists [named i k]. split; [reflexivity|]. intros ws. cbn [toks]. constructor; assumption. }
    assert (Bad : forall r, path_next (front ++ [named i k]) r (ds ++ [DPathSeparator]) = (ps, s') -> False).
    { intros r E. assert (L : le (ds ++ [DPathSeparator]) (diags s')).
      { unfold path_next in E. destruct r as [|[| | | | | | | | |] r']; (eapply path_rest_facts in E; [exact (proj1 E)|apply le_n]). }
      destruct L as [c Q]. rewrite D in Q. rewrite <- app_assoc in Q. apply (f_equal (@List.length diag)) in Q. rewrite !app_length in Q. cbn in Q. lia. }
    destruct ts as [|[p| | | | | | | | |] r]; try (apply Stop; [intros ? ?; discriminate..|exact H]).
    destruct p; try (exfalso; exact (Bad _ H)); try (apply Stop; [intros ? ?; discriminate..|exact H]).
    cbn in Hn. unfold path_next in H.
    assert (Bare : not_ident F r -> path_rest F (bare_slash (front ++ [named i k])) r ds = (ps, s') ->
       exists ns, ps = front ++ ns /\ forall ws, names_at F ns (TIdent F i ws :: repeat (P PSlash) k ++ P PSlash :: r) (toks s')).
    { intros Hi E. rewrite bare_named in E. apply (IH r ltac:(lia)) in E as (ns & -> & E); [|exact D|intros _; exact Hi].
      exists ns. split; [reflexivity|]. intros ws. rewrite repeat_snoc. exact (E ws). }
    destruct r as [|[|j ws'| | | | | | | |] r']; try (apply Bare; [intros ? ? ?; discriminate|exact H]).
    change [j] with [named j 0] in H. apply (IH r' ltac:(cbn in Hn; lia)) in H as (ns & -> & E); [|exact D|congruence].
    exists (named i k :: ns). split; [rewrite <- app_assoc; reflexivity|]. intros ws. rewrite repeat_snoc. constructor. apply E.
Qed.
Lemma tree_path_spec s : spec s (tree_path F s) (strictly s) (fun o r => match o with Some p => path_at F p (toks s) r | None => True end).
Proof using Type.
  unfold tree_path.
  assert (K : forall s1, (len s1 <= len s) -> (le (diags s) (diags s1)) ->
     forall b, (b = true -> len s1 < len s) -> (b = false -> s1 = s) ->
     (diags s1 = diags s -> toks s = toks s1 \/ toks s = P PSlash :: toks s1) ->
     spec s (opt_ F (ident F s1) (fun i s2 => match i with Some i => let '(parts, s3) := path_rest F [i] (toks s2) (diags s2) in ret F parts s3
       | None => if b then ret F [] (register F DPathEmpty s2) else Ok None s2 end)) (strictly s)
       (fun o r => match o with Some p => path_at F p (toks s) r | None => True end)).
  { intros s1 L D b Hb Hf Ht. pose proof (ident_spec s1) as HI. destruct (ident F s1) as [[i|] s2|s2|]; cbn [opt_ spec] in *; [| |trivial|trivial].
    - destruct HI as (D1 & L1 & U1 & G1). cbn in U1. destruct (path_rest F [i] (toks s2) (diags s2)) as [ps s3] eqn:E. cbn [ret spec].
      destruct (path_rest_facts _ _ (le_n _) _ _ _ _ E) as [D2 L2]. split; [eapply le_trans; [exact D|eapply le_trans; eassumption]|].
      split; [lia|]. split; [cbn; lia|]. intros Q. destruct (le_mid (diags s) (diags s2) (diags s3)) as [Q1 Q2]; [eapply le_trans; eassumption|exact D2|exact Q|].
      destruct (le_mid (diags s) (diags s1) (diags s2)) as [Q3 Q4]; [exact D|exact D1|exact Q1|].
      change [i] with ([] ++ [named i 0]) in E. destruct (path_rest_sound _ _ (le_n _) _ _ _ _ _ _ E Q2) as (ns & -> & HN); [congruence|]. cbn [app repeat] in *.
      destruct (G1 Q4) as [ws T]. specialize (HN ws). rewrite <- T in HN. destruct (Ht Q3) as [-> | ->]; constructor; exact HN.
    - destruct HI as (D1 & L1 & U1 & G1). cbn in U1. subst s2. destruct b.
      + cbn [ret spec register toks diags]. split; [eapply le_trans; [exact D|apply le_snoc]|]. split; [exact L|]. split; [cbn; auto|].
        intros Q. exfalso. destruct D as [c Q']. rewrite Q', <- app_assoc in Q. apply (f_equal (@List.length diag)) in Q. rewrite !app_length in Q. cbn in Q. lia.
      + rewrite (Hf eq_refl) in *. cbn. split; [apply le_refl|]. split; [lia|]. split; [reflexivity|]. intros _; exact I. }
  assert (LS : forall b s1, leading_slash F s = (b, s1) -> len s1 <= len s /\ le (diags s) (diags s1) /\ (b = true -> len s1 < len s) /\
     (b = false -> s1 = s) /\ (diags s1 = diags s -> toks s = toks s1 \/ toks s = P PSlash :: toks s1)).
  { clear K. intros b s1. unfold leading_slash. destruct (toks s) as [|[p| | | | | | | | |] r] eqn:Et;
      try (intros E; injection E as <- <-; rewrite Et; repeat split; auto; try apply le_refl; discriminate).
    destruct p; try (intros E; injection E as <- <-; rewrite Et; repeat split; auto; try apply le_refl; discriminate);
      intros E; injection E as <- <-; cbn [register with_toks toks diags List.length];
      (split; [lia|]; split; [first [apply le_refl|apply le_snoc]|]; split; [lia|]; split; [discriminate|]).
    all: first [intros _; right; reflexivity | intros Q; exfalso; apply (f_equal (@List.length diag)) in Q; rewrite !app_length in Q; cbn in Q; lia]. }
  destruct (leading_slash F s) as [b s1]. destruct (LS b s1 eq_refl) as (H1 & H2 & H3 & H4 & H5). apply K; assumption.
Qed.

(** ** Types of variables *)
Lemma var_type_bits p : forall acc b, N.testbit acc b = true -> N.testbit (v_flags (var_type acc p)) b = true.
Proof using Type.
  clear. induction p as [|w p IH]; intros acc b H; cbn [var_type]; [exact H|]. destruct (flag_of w); [|exact H]. apply IH. rewrite N.lor_spec, H. reflexivity.
Qed.
Definition clean (f : N) : Prop := N.testbit f 3 = false /\ N.testbit f 4 = false /\ N.testbit f 5 = false /\ N.testbit f 6 = false.
Lemma flag_view w : match flag_of w with
  | Some f => In (w, Some f) modifiers \/ (In f [8; 16; 32; 64]%N /\ In (w, None) modifiers)
  | None => ~ In w (map fst modifiers) end.
Proof using Type.
  clear. unfold flag_of, modifiers.
  repeat match goal with |- context [text_eqb w ?x] => destruct (text_eqb_spec w x) as [->|?] end; cbn [orb];
    try (left; cbn; tauto); try (right; cbn; tauto).
  cbn [map fst]. intros H. cbn [In] in H. intuition congruence.
Qed.
Lemma var_type_sound p : forall acc, clean (v_flags (var_type acc p)) ->
  exists n, type_of p n (v_path (var_type acc p)) /\ v_flags (var_type acc p) = N.lor acc n.
Proof using Type.
  clear. induction p as [|w p IH]; intros acc Hc.
  - exists 0%N. split; [constructor; exact I|]. cbn. symmetry. apply N.lor_0_r.
  - cbn [var_type] in *. pose proof (flag_view w) as V. destruct (flag_of w) as [f|].
    + destruct V as [V|[V _]].
      * destruct (IH _ Hc) as (n & T & E). exists (N.lor f n). split; [econstructor; eassumption|]. rewrite E. symmetry. apply N.lor_assoc.
      * exfalso. destruct Hc as (H3 & H4 & H5 & H6).
        assert (B : forall b, N.testbit f b = true -> N.testbit (v_flags (var_type (N.lor acc f) p)) b = true).
        { intros b Hb. apply var_type_bits. rewrite N.lor_spec, Hb. apply orb_true_r. }
        cbn in V. destruct V as [<-|[<-|[<-|[<-|[]]]]];
          [rewrite (B 3%N eq_refl) in H3|rewrite (B 4%N eq_refl) in H4|rewrite (B 5%N eq_refl) in H5|rewrite (B 6%N eq_refl) in H6]; discriminate.
    + exists 0%N. cbn. split; [constructor; exact V|]. symmetry. apply N.lor_0_r.
Qed.
Lemma spec_warn_flag {X : Type} b f s (r : res X) U G : spec (warn_flag F b f s) r U G -> spec s r U (fun o t => G o t /\ N.land f b = 0%N).
Proof using Type.
  unfold warn_flag. destruct (N.eqb_spec (N.land f b) 0) as [E|E].
  - intros H. eapply spec_weaken; [exact H|auto|auto].
  - apply spec_register.
Qed.
Lemma land_bit f b : N.land f (2 ^ b) = 0%N -> N.testbit f b = false.
Proof using Type. clear. intros H. apply (f_equal (fun x => N.testbit x b)) in H. rewrite N.land_spec, N.pow2_bits_true, N.bits_0, andb_true_r in H. exact H. Qed.
Lemma spec_warn {X : Type} f s (r : res X) U G : spec (warn_flags F f s) r U G -> spec s r U (fun o t => G o t /\ clean f).
Proof using Type.
  unfold warn_flags. intros H. do 4 apply spec_warn_flag in H. eapply spec_weaken; [exact H|auto|]. cbv beta.
  intros o t ((((H1 & H2) & H3) & H4) & H5). split; [exact H1|]. unfold clean. repeat split; apply land_bit; assumption.
Qed.
Lemma warn_toks f s : toks (warn_flags F f s) = toks s.
Proof using Type. unfold warn_flags, warn_flag. repeat match goal with |- context [N.eqb ?a ?b] => destruct (N.eqb a b) end; reflexivity. Qed.

Definition no_start (ts : list tok) : Prop := match ts with t :: _ => starts_expr F t = false | [] => True end.
Lemma expression_spec' s : spec s (expression F s) (strictly s)
  (fun o r => match o with Some e => expr_at F e (toks s) r | None => r = toks s /\ no_start (toks s) end).
Proof using Type.
  eapply spec_weaken; [apply expression_spec|auto|]. intros o t H. inversion H; subst; auto.
Qed.
Lemma opt_expr_of (o : option expr) ts r : match o with Some e => expr_at F e ts r | None => r = ts /\ no_start ts end -> opt_expr F o ts r.
Proof using Type. destruct o; [constructor; assumption|]. intros [-> H]. constructor. exact H. Qed.

Ltac norm :=
  repeat match goal with
         | H : strictly _ (Some _) _ |- _ => cbn [strictly] in H
         | H : strictly _ None _ |- _ => cbn [strictly] in H; subst
         | H : present_lt _ _ _ |- _ => destruct H as [? H]
         end.
Ltac bind L := first [eapply spec_req; [L|] | eapply spec_opt; [L|] | eapply spec_lead; [L| | |]].
Lemma input_specifier_spec s : spec s (input_specifier F s) present
  (fun o r => match o with Some (None, None) => r = toks s /\ not_word F (lit "as") r /\ not_punct F PIn r | _ => True end).
Proof using Type.
  unfold input_specifier. bind ltac:(apply exact_ident_spec). intros a s1 L1 U1.
  assert (K : forall it s2, spec s2 (in_clause F it s2) present (fun o r => match o with Some (None, None) => it = None /\ r = toks s2 /\ not_punct F PIn r | _ => True end)).
  { intros it s2. unfold in_clause. bind ltac:(apply exact_spec). intros [u|] s3 L3 U3; norm.
    - bind ltac:(apply expression_spec'). intros e s4 L4 U4. bind ltac:(apply exact_ident_spec). intros [v|] s5 L5 U5; norm.
      + apply (spec_register DAsOrder s5 _ _ (fun _ _ => True)). bind ltac:(apply input_type_spec). intros n s6 L6 U6. apply spec_ret; [discriminate|]. intros _. exact I.
      + apply spec_ret; [discriminate|]. intros _ _ _. destruct it; exact I.
    - apply spec_ret; [discriminate|]. intros [_ H]. destruct it; [exact I|]. auto. }
  destruct a as [u|]; norm.
  - bind ltac:(apply input_type_spec). intros n s2 L2 U2. eapply spec_weaken; [apply K|auto|]. intros [[[|] [|]]|] t; auto. intros [H _]. discriminate.
  - eapply spec_weaken; [apply K|auto|]. intros [[[|] [|]]|] t; auto. intros (_ & -> & H) [_ H']. auto.
Qed.
End SOUND.
