(** C15, C16, C38: the indentation processor. *)
From Coq Require Import List Arith ZArith Lia Bool.
From Verif Require Import Lexer.Punct Lexer.Model Indents.Model Indents.Spec.
Import ListNotations.
Open Scope nat_scope.

Section PROOFS.
Variable F : Type.
Variable Loc : Type.
Variable default_loc : Loc.
Notation tok := (token F).
Notation ltok := (Loc * tok)%type.
Notation ist := (ist Loc).
Notation real_next := (real_next F Loc).
Notation drive := (drive F Loc).
Notation lines := (lines F Loc).
Notation depth := (depth F Loc).
Notation P := (P F).

(** *** The iterator against one pass over the input *)
Definition closing (s : ist) : list ltok :=
  (last_input_loc _ s, P PSemicolon) :: repeat (last_input_loc _ s, P PRBrace) (match current _ s with Some (_, n) => n | None => 0 end).
Fixpoint outcome (inner : list ltok) (s : ist) : list ltok * option ist :=
  match inner with
  | [] => (closing s, Some (set_eof _ true (set_current _ None s)))
  | (l, t) :: inner' =>
      match real_next t (set_loc _ l s) with
      | None => ([], None)
      | Some (p, s') => (p ++ fst (outcome inner' s'), snd (outcome inner' s'))
      end
  end.

Lemma drive_congr : forall o i s o' i' s' ts r, inext F Loc o i s = inext F Loc o' i' s' -> drive o i s ts r -> drive o' i' s' ts r.
Proof using Type.
  intros o i s o' i' s' ts r E H. inversion H; subst; rewrite E in *; econstructor; eassumption.
Qed.
Lemma indentation_eof : forall s p s', indentation F Loc s = Some (p, s') -> eof_yielded _ s' = eof_yielded _ s /\ last_input_loc _ s' = last_input_loc _ s /\ parentheses _ s' = parentheses _ s /\ eol_location _ s' = eol_location _ s /\ current_spaces _ s' = None.
Proof using Type.
  intros s p s' E. unfold indentation in E. destruct (current_spaces _ s) as [n|] eqn:Es; [|injection E as <- <-; auto].
  destruct (measure Loc n (set_spaces Loc None s)) as [[[a b] s1]|] eqn:Em; [|discriminate].
  assert (H : eof_yielded _ s1 = eof_yielded _ s /\ last_input_loc _ s1 = last_input_loc _ s /\ parentheses _ s1 = parentheses _ s /\ eol_location _ s1 = eol_location _ s /\ current_spaces _ s1 = None).
  { unfold measure in Em. cbn [current set_spaces] in Em. destruct (current _ s) as [[u y]|].
    - destruct (n =? 0); [injection Em as <- <- <-; auto|]. destruct (u =? 0); [discriminate|]. destruct (n mod u =? 0); injection Em as <- <- <-; auto.
    - destruct (n =? 0); injection Em as <- <- <-; auto. }
  injection E as E. unfold adjust in E. repeat match type of E with context [if ?c then _ else _] => destruct c end; injection E as <- <-; exact H.
Qed.
Lemma count_keeps : forall t s s', count_token F Loc t s = Some s' -> eof_yielded _ s' = eof_yielded _ s /\ last_input_loc _ s' = last_input_loc _ s /\ current_spaces _ s' = current_spaces _ s /\ eol_location _ s' = eol_location _ s.
Proof using Type.
  intros t s s' E. destruct t as [p| | | | | | | | |]; try (injection E as <-; auto). destruct p; cbn [count_token] in E; try (injection E as <-; auto).
  destruct (current _ s) as [[x y]|]; [|injection E as <-; auto]. destruct (y =? 1); [injection E as <-; auto|]. destruct (y =? 0); [discriminate | injection E as <-; auto].
Qed.

(** the three kinds of token *)
Definition body (read : tok) (s : ist) : option (list ltok * ist) :=
  match indentation F Loc s with
  | None => None
  | Some (inserted, s) =>
      match count_token F Loc read s with
      | None => None
      | Some s => Some (inserted ++ [(last_input_loc _ s, read)], set_eol _ None s)
      end
  end.
Lemma real_cases : forall t s,
  (t = P PNewline /\ real_next t s = Some ([], let s := if parentheses _ s =? 0 then set_spaces _ (Some 0) s else s in
      match eol_location _ s with None => set_eol _ (Some (last_input_loc _ s)) s | Some _ => s end)) \/
  ((t = P PTab \/ t = P PSpace) /\ real_next t s = Some ([], match current_spaces _ s with Some n => set_spaces _ (Some (n + 1)) s | None => s end)) \/
  (is_blank F t = false /\ real_next t s = body t (if is_brace F t then set_spaces _ None s else s)).
Proof using Type.
  intros t s. destruct t as [p| | | | | | | | |]; try (right; right; split; reflexivity).
  destruct p; try (right; right; split; reflexivity); [right; left; auto | left; auto | right; left; auto].
Qed.
Lemma body_keeps : forall t s p s', body t s = Some (p, s') -> eof_yielded _ s' = eof_yielded _ s /\ current_spaces _ s' = None /\ eol_location _ s' = None.
Proof using Type.
  intros t s p s' E. unfold body in E. destruct (indentation F Loc s) as [[p0 s0]|] eqn:E0; [|discriminate]. destruct (count_token F Loc t s0) as [s1|] eqn:E1; [|discriminate].
  injection E as _ <-. apply indentation_eof in E0. apply count_keeps in E1. destruct E0 as (H1 & H2 & H3 & H4 & H5), E1 as (H6 & H7 & H8 & H9). cbn. repeat split; congruence.
Qed.
Lemma real_eof : forall t s p s', real_next t s = Some (p, s') -> eof_yielded _ s' = eof_yielded _ s.
Proof using Type.
  intros t s p s' E. destruct (real_cases t s) as [(_ & H)|[(_ & H)|(_ & H)]]; rewrite H in E.
  - injection E as <- <-. cbv zeta. destruct (parentheses _ s =? 0); destruct (eol_location _ _); reflexivity.
  - injection E as <- <-. destruct (current_spaces _ s); reflexivity.
  - apply body_keeps in E. destruct E as (-> & _). destruct (is_brace F t); reflexivity.
Qed.

Lemma drain_end : forall (s : ist), eof_yielded _ s = true -> forall o, drive o [] s o (Some s).
Proof using Type.
  intros s H o. induction o as [|t o IH]; [apply drive_end with [] []; cbn; rewrite H; reflexivity | apply drive_token with o [] s; [reflexivity | exact IH]].
Qed.
Lemma drive_outcome : forall inner s, eof_yielded _ s = false -> forall o, drive o inner s (o ++ fst (outcome inner s)) (snd (outcome inner s)).
Proof using Type.
  induction inner as [|[l t] inner IH]; intros s He o.
  - induction o as [|x o IHo]; [|apply drive_token with o [] s; [reflexivity | exact IHo]].
    cbn [app outcome fst snd closing]. eapply drive_token; [cbn [inext]; rewrite He; reflexivity | apply drain_end; reflexivity].
  - induction o as [|x o IHo]; [|apply drive_token with o ((l, t) :: inner) s; [reflexivity | exact IHo]].
    cbn [app outcome]. destruct (real_next t (set_loc _ l s)) as [[p s']|] eqn:E.
    + cbn [fst snd]. assert (He' : eof_yielded _ s' = false) by (rewrite (real_eof _ _ _ _ E); exact He).
      apply drive_congr with (2 := IH s' He' p). cbn [inext]. rewrite E. reflexivity.
    + constructor. cbn [inext]. rewrite E. reflexivity.
Qed.
Lemma drive_fun : forall o i s ts r, drive o i s ts r -> forall ts' r', drive o i s ts' r' -> ts = ts' /\ r = r'.
Proof using Type.
  induction 1 as [o i s E|o i s o' i' s' E|o i s t o' i' s' ts r E H IH]; intros ts' r' H'.
  - inversion H' as [? ? ? E'|? ? ? ? ? ? E'|? ? ? ? ? ? ? ? ? E' D']; subst; rewrite E in E'; try discriminate. auto.
  - inversion H' as [? ? ? E'|? ? ? ? ? ? E'|? ? ? ? ? ? ? ? ? E' D']; subst; rewrite E in E'; try discriminate. injection E' as -> -> ->. auto.
  - inversion H' as [? ? ? E'|? ? ? ? ? ? E'|? ? ? ? ? ? ? ? ? E' D']; subst; rewrite E in E'; try discriminate. injection E' as -> -> -> ->. destruct (IH _ _ D') as [-> ->]. auto.
Qed.
Notation process := (process F Loc default_loc).
Notation new := (inew Loc default_loc).
Lemma process_iff : forall input ts r, process input ts r <-> outcome input new = (ts, r).
Proof using Type.
  intros input ts r. pose proof (drive_outcome input new eq_refl []) as D. cbn [app] in D. destruct (outcome input new) as [ts0 r0]. cbn [fst snd] in D. split; intro H.
  - destruct (drive_fun _ _ _ _ _ D _ _ H) as [-> ->]. reflexivity.
  - injection H as <- <-. exact D.
Qed.

(** *** What is inserted *)
Definition linked (s : ist) (margin : option (nat * Loc)) : Prop :=
  current_spaces _ s = option_map fst margin /\ (forall n e, margin = Some (n, e) -> eol_location _ s = Some e) /\
  (margin = None -> parentheses _ s = 0 -> eol_location _ s = None) /\ (parentheses _ s <> 0 -> margin = None).
Lemma linked_new : linked new None.
Proof using Type. repeat split; auto; discriminate. Qed.
Lemma adjust_group : forall a b s, exists p k, fst (adjust F Loc a b s) = repeat (eol_or_last Loc s, P p) (S k) /\ (p = PSemicolon /\ k = 0 \/ p = PLBrace \/ p = PRBrace).
Proof using Type.
  intros a b s. unfold adjust. destruct (a + 1 =? b); [exists PLBrace, 0; auto|]. destruct (Nat.ltb_spec a b).
  { exists PLBrace, (b - a - 1). replace (S (b - a - 1)) with (b - a) by lia. auto. }
  destruct (a =? b + 1); [exists PRBrace, 0; auto|]. destruct (Nat.ltb_spec b a).
  { exists PRBrace, (a - b - 1). replace (S (a - b - 1)) with (a - b) by lia. auto. }
  exists PSemicolon, 0. auto.
Qed.
Lemma body_group : forall t s margin p s', current_spaces _ s = option_map fst margin -> (forall n e, margin = Some (n, e) -> eol_location _ s = Some e) ->
  body t s = Some (p, s') -> exists g, p = g ++ [(last_input_loc _ s, t)] /\ group_ok F Loc g margin /\ last_input_loc _ s' = last_input_loc _ s.
Proof using Type.
  intros t s margin p s' Hs He E. unfold body in E. destruct (indentation F Loc s) as [[g s0]|] eqn:E0; [|discriminate].
  destruct (count_token F Loc t s0) as [s1|] eqn:E1; [|discriminate]. injection E as <- <-. exists g.
  pose proof (indentation_eof _ _ _ E0) as (_ & Hl0 & _). pose proof (count_keeps _ _ _ E1) as (_ & Hl1 & _). cbn [set_eol last_input_loc]. rewrite Hl1, Hl0. split; [reflexivity|]. split; [|reflexivity].
  unfold indentation in E0. rewrite Hs in E0. destruct margin as [[n e]|]; cbn [option_map fst] in E0; [|injection E0 as <- _; reflexivity].
  destruct (measure Loc n (set_spaces Loc None s)) as [[[a b] s2]|] eqn:Em; [|discriminate]. injection E0 as E0.
  assert (Hg : g = fst (adjust F Loc a b s2)) by (rewrite E0; reflexivity). destruct (adjust_group a b s2) as (pp & k & Hp & Hc). exists pp, k. rewrite Hg, Hp. split; [|exact Hc]. f_equal.
  assert (Hee : eol_location _ s2 = Some e).
  { rewrite <- (He n e eq_refl). unfold measure in Em. cbn [current set_spaces] in Em. destruct (current _ s) as [[u y]|].
    - destruct (n =? 0); [injection Em as <- <- <-; auto|]. destruct (u =? 0); [discriminate|]. destruct (n mod u =? 0); injection Em as <- <- <-; auto.
    - destruct (n =? 0); injection Em as <- <- <-; auto. }
  unfold eol_or_last. rewrite Hee. reflexivity.
Qed.

(** the margin and the parentheses after a token, as [lines] has them *)
Lemma lines_blank : forall t l n m input, is_blank F t = false ->
  lines n m ((l, t) :: input) = (if is_brace F t then None else m, (l, t)) ::
     lines (match t with TPunct _ PLParen => S n | TPunct _ PRParen => pred n | _ => n end) None input.
Proof using Type.
  intros t l n m input H. destruct t as [p| | | | | | | | |]; try reflexivity. destruct p; try reflexivity; discriminate.
Qed.
Lemma body_parens : forall t s p s', body t s = Some (p, s') ->
  parentheses _ s' = match t with TPunct _ PLParen => S (parentheses _ s) | TPunct _ PRParen => pred (parentheses _ s) | _ => parentheses _ s end.
Proof using Type.
  intros t s p s' E. unfold body in E. destruct (indentation F Loc s) as [[g s0]|] eqn:E0; [|discriminate].
  destruct (count_token F Loc t s0) as [s1|] eqn:E1; [|discriminate]. injection E as <- <-. destruct (indentation_eof _ _ _ E0) as (_ & _ & Hp & _). rewrite <- Hp. cbn [set_eol parentheses].
  destruct t as [q| | | | | | | | |]; try (injection E1 as <-; reflexivity).
  destruct q; cbn [count_token] in E1; try (injection E1 as <-; reflexivity).
  - injection E1 as <-. cbn. lia.
  - injection E1 as <-. cbn. lia.
  - destruct (current _ s0) as [[x y]|]; [|injection E1 as <-; reflexivity]. destruct (y =? 1); [injection E1 as <-; reflexivity|]. destruct (y =? 0); [discriminate | injection E1 as <-; reflexivity].
Qed.

Lemma step_linked : forall t l s margin p s' inner, linked s margin -> real_next t (set_loc _ l s) = Some (p, s') ->
  exists margin', linked s' margin' /\ last_input_loc _ s' = l /\
  ((p = [] /\ lines (parentheses _ s) margin ((l, t) :: inner) = lines (parentheses _ s') margin' inner) \/
   (exists h g, p = g ++ [(l, t)] /\ group_ok F Loc g h /\ lines (parentheses _ s) margin ((l, t) :: inner) = (h, (l, t)) :: lines (parentheses _ s') margin' inner)).
Proof using Type.
  intros t l s margin p s' inner (H1 & H2 & H3 & H4) E. destruct (real_cases t (set_loc _ l s)) as [(Ht & H)|[(Ht & H)|(Ht & H)]]; rewrite H in E.
  - injection E as <- <-. subst t. cbn [set_loc parentheses]. destruct (parentheses _ s =? 0) eqn:Ep.
    + apply Nat.eqb_eq in Ep. exists (Some (0, match margin with Some (_, e) => e | None => l end)).
      assert (Hl : lines (parentheses _ s) margin ((l, P PNewline) :: inner) = lines (parentheses _ s) (Some (0, match margin with Some (_, e) => e | None => l end)) inner)
        by (cbn [Spec.lines Model.P]; rewrite Ep; reflexivity).
      cbn [set_spaces set_loc eol_location]. destruct margin as [[n e]|].
      * rewrite (H2 n e eq_refl). split; [|split; [reflexivity|]; left; split; [reflexivity | exact Hl]]. split; [reflexivity|]. split; [intros ? ? E; injection E as <- <-; exact (H2 n e eq_refl)|]. split; [discriminate | intro X; contradiction (X Ep)].
      * rewrite (H3 eq_refl Ep). split; [|split; [reflexivity|]; left; split; [reflexivity | exact Hl]]. split; [reflexivity|]. split; [intros ? ? E; injection E as <- <-; reflexivity|]. split; [discriminate | intro X; contradiction (X Ep)].
    + apply Nat.eqb_neq in Ep. rewrite (H4 Ep) in *. exists None. cbn [set_loc eol_location last_input_loc]. 
      assert (Hl : lines (parentheses _ s) None ((l, P PNewline) :: inner) = lines (parentheses _ s) None inner) by (cbn [Spec.lines Model.P]; apply Nat.eqb_neq in Ep; rewrite Ep; reflexivity).
      destruct (eol_location _ s); (split; [|split; [reflexivity|]; left; split; [reflexivity | exact Hl]]); (split; [exact H1|]); (split; [discriminate|]); (split; [|reflexivity]); intros _ X; contradiction (Ep X).
  - injection E as <- <-. cbn [set_loc current_spaces]. exists (option_map (fun m => (S (fst m), snd m)) margin).
    assert (Hl : lines (parentheses _ s) margin ((l, t) :: inner) = lines (parentheses _ s) (option_map (fun m => (S (fst m), snd m)) margin) inner) by (destruct Ht as [-> | ->]; reflexivity).
    rewrite H1. destruct margin as [[n e]|]; cbn [option_map fst snd] in *.
    + split; [|split; [reflexivity|]; left; split; [reflexivity | exact Hl]]. split; [cbn; f_equal; lia|]. split; [intros ? ? E; injection E as <- <-; exact (H2 n e eq_refl)|]. split; [discriminate | intro X; exfalso; specialize (H4 X); discriminate].
    + split; [|split; [reflexivity|]; left; split; [reflexivity | exact Hl]]. split; [exact H1|]. split; [discriminate|]. split; [exact H3 | reflexivity].
  - exists None. pose proof (body_keeps _ _ _ _ E) as (_ & Hsp & Heo). pose proof (body_parens _ _ _ _ E) as Hp.
    set (h := if is_brace F t then None else margin).
    assert (G : exists g, p = g ++ [(l, t)] /\ group_ok F Loc g h /\ last_input_loc _ s' = l).
    { destruct (is_brace F t); subst h; refine (body_group t _ _ _ _ _ _ E); try reflexivity; try discriminate; [exact H1 | exact H2]. }
    destruct G as (g & Hg & Hok & Hll). split; [|split; [exact Hll|]].
    + split; [exact Hsp|]. split; [discriminate|]. split; [intros _ _; exact Heo | reflexivity].
    + right. exists h, g. split; [exact Hg|]. split; [exact Hok|]. rewrite (lines_blank _ _ _ _ _ Ht), Hp. destruct (is_brace F t); reflexivity.
Qed.

Notation laid_out := (laid_out F Loc).
Definition is_some {A} (o : option A) : bool := match o with Some _ => true | None => false end.
Lemma last_cons : forall (A : Type) (x : A) l d, last (x :: l) d = last l x.
Proof using Type. clear. intros A x l. revert x. induction l as [|y l IH]; intros x d; [reflexivity|]. change (last (x :: y :: l) d) with (last (y :: l) d). rewrite !IH. reflexivity. Qed.
Lemma outcome_laid : forall inner s margin, linked s margin ->
  exists groups, laid_out inner (lines (parentheses _ s) margin inner) (last_input_loc _ s) (fst (outcome inner s)) (is_some (snd (outcome inner s))) groups.
Proof using Type.
  induction inner as [|[l t] inner IH]; intros s margin H.
  - exists [], (closing s). cbn. split; [reflexivity|]. split; [constructor|]. split; [reflexivity|]. eexists. reflexivity.
  - cbn [outcome]. destruct (real_next t (set_loc _ l s)) as [[p s']|] eqn:E; [|exists [], []; cbn; auto].
    cbn [fst snd]. destruct (step_linked _ _ _ _ _ _ inner H E) as (m' & H' & Hl & C). destruct (IH s' m' H') as (gs & tail & E1 & E2 & E3). rewrite E1. destruct C as [(-> & EL)|(h & g & -> & Hg & EL)]; rewrite EL.
    + exists gs, tail. split; [reflexivity|]. split; [exact E2|]. cbn [map fst]. rewrite last_cons, <- Hl. exact E3.
    + exists (g :: gs), tail. split; [|split].
      * cbn [map snd]. unfold assemble. cbn [combine map concat fst snd]. rewrite <- !app_assoc. reflexivity.
      * cbn [length map fst firstn]. constructor; [exact Hg | exact E2].
      * destruct (is_some (snd (outcome inner s'))); [|exact E3]. destruct E3 as (E3 & k & E4). cbn [length map fst]. rewrite E3. split; [reflexivity|]. exists k. rewrite last_cons, <- Hl. exact E4.
Qed.

(** *** Depth *)
Open Scope Z_scope.
Definition level (s : ist) : Z := match current _ s with Some (_, y) => Z.of_nat y | None => 0 end.
Definition unmatched (s : ist) : Z := Z.of_nat (length (filter (fun e => match snd e with EUnmatched => true | _ => false end) (ierrs _ s))).
Definition ok_from (z : Z) (ts : list ltok) : Prop := forall a b, ts = a ++ b -> 0 <= z + depth a.
Lemma depth_app : forall a b, depth (a ++ b) = depth a + depth b.
Proof using Type. intros a b. unfold Spec.depth. induction a as [|x a IH]; cbn [app fold_right]; [lia|]. rewrite IH. lia. Qed.
Lemma depth_repeat : forall t n, depth (repeat t n) = Z.of_nat n * weight F (snd t).
Proof using Type. intros t n. unfold Spec.depth. induction n as [|n IH]; cbn [repeat fold_right]; [lia|]. rewrite IH. lia. Qed.
Lemma ok_app : forall z a b, ok_from z a -> ok_from (z + depth a) b -> ok_from z (a ++ b).
Proof using Type.
  intros z a b Ha Hb x y E. assert (C : (exists r, a = x ++ r) \/ (exists r, x = a ++ r /\ b = r ++ y)).
  { clear Ha Hb. revert x E. induction a as [|c a IH]; intros x E; [right; exists x; auto|]. destruct x as [|d x]; [left; exists (c :: a); reflexivity|]. injection E as -> E. destruct (IH x E) as [(r & ->)|(r & -> & ->)]; [left; exists r; reflexivity | right; exists r; auto]. }
  destruct C as [(r & ->)|(r & -> & ->)]; [eapply Ha; reflexivity|]. rewrite depth_app. specialize (Hb r y eq_refl). lia.
Qed.
Lemma ok_repeat : forall z t n, 0 <= z -> 0 <= z + Z.of_nat n * weight F (snd t) -> ok_from z (repeat t n).
Proof using Type.
  intros z t n H1 H2 a b E. assert (Ha : a = repeat t (length a) /\ (length a <= n)%nat).
  { clear H2. revert n E. induction a as [|x a IH]; intros n E; [cbn; split; [reflexivity | lia]|]. destruct n as [|n]; [discriminate|]. cbn [repeat app] in E. injection E as <- E. destruct (IH n E) as (E' & Hn).
    cbn [length repeat]. rewrite <- E'. split; [reflexivity | lia]. }
  destruct Ha as (Ea & Hn). rewrite Ea, depth_repeat. clear Ea E. generalize dependent (length a). intros k Hn. generalize dependent (weight F (snd t)). intros w H2.
  destruct (Z.le_gt_cases 0 w); [assert (0 <= Z.of_nat k * w) by (apply Z.mul_nonneg_nonneg; lia); lia|].
  assert (Z.of_nat n * w <= Z.of_nat k * w) by (apply Z.mul_le_mono_nonpos_r; lia). lia.
Qed.
Lemma ok_weaken : forall z z' ts, z <= z' -> ok_from z ts -> ok_from z' ts.
Proof using Type. intros z z' ts H Hk a b E. specialize (Hk a b E). lia. Qed.
Lemma ok_one : forall z t, 0 <= z -> 0 <= z + weight F (snd t) -> ok_from z [t].
Proof using Type. intros z t H1 H2. apply (ok_repeat z t 1); lia. Qed.
Lemma level_nonneg : forall s, 0 <= level s.
Proof using Type. intro s. unfold level. destruct (current _ s) as [[? ?]|]; lia. Qed.

Lemma adjust_depth : forall a b s, depth (fst (adjust F Loc a b s)) = Z.of_nat b - Z.of_nat a /\ ok_from (Z.of_nat a) (fst (adjust F Loc a b s)) /\
  current _ (snd (adjust F Loc a b s)) = current _ s /\ unmatched (snd (adjust F Loc a b s)) = unmatched s.
Proof using Type.
  intros a b s. unfold adjust. destruct (Nat.eqb_spec (a + 1) b); [cbn [fst snd]; split; [cbn; lia|]; split; [apply ok_one; cbn; lia | auto]|].
  destruct (Nat.ltb_spec a b); [cbn [fst snd]; rewrite depth_repeat; split; [cbn; lia|]; split; [apply ok_repeat; cbn; lia | auto]|].
  destruct (Nat.eqb_spec a (b + 1)); [cbn [fst snd]; split; [cbn; lia|]; split; [apply ok_one; cbn; lia | auto]|].
  destruct (Nat.ltb_spec b a); [cbn [fst snd]; rewrite depth_repeat; split; [cbn; lia|]; split; [apply ok_repeat; cbn; lia | auto]|].
  cbn [fst snd]. split; [cbn; lia|]. split; [apply ok_one; cbn; lia | auto].
Qed.
Lemma indentation_depth : forall s g s', indentation F Loc s = Some (g, s') -> level s' = level s + depth g /\ ok_from (level s) g /\ unmatched s' = unmatched s.
Proof using Type.
  intros s g s' E. unfold indentation in E. destruct (current_spaces _ s) as [n|].
  2:{ injection E as <- <-. cbn. split; [lia|]. split; [|reflexivity]. intros a b Ea. destruct a; [|discriminate]. cbn. pose proof (level_nonneg s). lia. }
  destruct (measure Loc n (set_spaces Loc None s)) as [[[a b] s2]|] eqn:Em; [|discriminate]. injection E as E.
  destruct (adjust_depth a b s2) as (H1 & H2 & H3 & H4). rewrite E in *. cbn [fst snd] in *.
  assert (Hm : level s = Z.of_nat a /\ level s2 = Z.of_nat b /\ unmatched s2 = unmatched s).
  { unfold measure in Em. cbn [current set_spaces] in Em. unfold level. destruct (current _ s) as [[u y]|].
    - destruct (n =? 0)%nat; [injection Em as <- <- <-; cbn; auto|]. destruct (u =? 0)%nat; [discriminate|]. destruct (n mod u =? 0)%nat; injection Em as <- <- <-; cbn; auto.
    - destruct (n =? 0)%nat; injection Em as <- <- <-; cbn; auto. }
  destruct Hm as (M1 & M2 & M3). assert (Hl : level s' = level s2) by (unfold level; rewrite H3; reflexivity). rewrite Hl, M1, M2, H1, H4. split; [lia|]. split; [exact H2 | exact M3].
Qed.
Lemma step_depth : forall t s p s', real_next t s = Some (p, s') ->
  level s' = level s + depth p + (unmatched s' - unmatched s) /\ unmatched s <= unmatched s' /\ ok_from (level s + (unmatched s' - unmatched s)) p.
Proof using Type.
  intros t s p s' E. destruct (real_cases t s) as [(_ & H)|[(_ & H)|(Ht & H)]]; rewrite H in E.
  - injection E as <- E. assert (X : level s' = level s /\ unmatched s' = unmatched s).
    { subst s'. destruct (parentheses Loc s =? 0)%nat; destruct (eol_location Loc _); split; reflexivity. }
    destruct X as (-> & ->). cbn. split; [lia|]. split; [lia|]. intros a b Ea. destruct a; [|discriminate]. cbn. pose proof (level_nonneg s). lia.
  - injection E as <- E. assert (X : level s' = level s /\ unmatched s' = unmatched s) by (subst s'; destruct (current_spaces Loc s); split; reflexivity).
    destruct X as (-> & ->). cbn. split; [lia|]. split; [lia|]. intros a b Ea. destruct a; [|discriminate]. cbn. pose proof (level_nonneg s). lia.
  - set (s0 := if is_brace F t then set_spaces Loc None s else s) in E. assert (Hl : level s0 = level s /\ unmatched s0 = unmatched s) by (subst s0; destruct (is_brace F t); split; reflexivity).
    destruct Hl as (<- & <-). generalize dependent s0. intros s0 E. clear H s. unfold body in E. destruct (indentation F Loc s0) as [[g s1]|] eqn:E0; [|discriminate].
    destruct (count_token F Loc t s1) as [s2|] eqn:E1; [|discriminate]. injection E as <- <-. destruct (indentation_depth _ _ _ E0) as (D1 & D2 & D3). rewrite <- D3 in *.
    change (level (set_eol Loc None s2)) with (level s2). change (unmatched (set_eol Loc None s2)) with (unmatched s2). rewrite depth_app.
    change (depth [(last_input_loc Loc s2, t)]) with (weight F t + 0).
    assert (X : level s2 = level s1 + weight F t + (unmatched s2 - unmatched s1) /\ unmatched s1 <= unmatched s2).
    { assert (Triv : level s1 = level s1 + 0 + (unmatched s1 - unmatched s1) /\ unmatched s1 <= unmatched s1) by lia.
      destruct t as [q| | | | | | | | |]; try (injection E1 as <-; exact Triv). destruct q; try (injection E1 as <-; exact Triv); cbn [count_token] in E1.
      - injection E1 as <-. unfold level, unmatched. cbn [set_current current ierrs weight]. destruct (current _ s1) as [[x y]|]; lia.
      - unfold level, unmatched. destruct (current _ s1) as [[x y]|] eqn:Ec.
        + destruct (Nat.eqb_spec y 1); [injection E1 as <-; cbn; lia|]. destruct (Nat.eqb_spec y 0); [discriminate|]. injection E1 as <-. cbn [set_current current ierrs weight]. lia.
        + injection E1 as <-. cbn [ireg current ierrs weight filter snd length]. rewrite Ec. lia. }
    destruct X as (X1 & X2). pose proof (level_nonneg s2). pose proof (level_nonneg s1). split; [lia|]. split; [exact X2|]. apply ok_app; [eapply ok_weaken; [|exact D2]; lia|]. apply ok_one; cbn [snd]; lia.
Qed.
Lemma outcome_depth : forall inner s s', snd (outcome inner s) = Some s' ->
  unmatched s <= unmatched s' /\ level s + depth (fst (outcome inner s)) + (unmatched s' - unmatched s) = 0 /\
  ok_from (level s + (unmatched s' - unmatched s)) (fst (outcome inner s)).
Proof using Type.
  induction inner as [|[l t] inner IH]; intros s s' E; cbn [outcome] in E |- *.
  - cbn [snd fst] in *. injection E as <-. change (unmatched (set_eof _ true (set_current _ None s))) with (unmatched s). split; [lia|].
    unfold closing. assert (Hd : depth (repeat (last_input_loc Loc s, P PRBrace) (match current Loc s with Some (_, n) => n | None => 0%nat end)) = - level s).
    { rewrite depth_repeat. unfold level. cbn [snd weight Model.P]. destruct (current Loc s) as [[? ?]|]; lia. }
    split.
    + match goal with |- context [Spec.depth F Loc (?x :: ?r)] => change (Spec.depth F Loc (x :: r)) with (0 + Spec.depth F Loc r) end. rewrite Hd. lia.
    + pose proof (level_nonneg s) as Hn. match goal with |- ok_from ?z (?x :: ?r) => apply (ok_app z [x] r) end; [apply ok_one; cbn; lia|]. apply ok_repeat; [cbn; lia|].
      cbn [snd weight Model.P Spec.depth fold_right]. unfold level. destruct (current Loc s) as [[? ?]|]; cbn; lia.
  - destruct (real_next t (set_loc _ l s)) as [[p s1]|] eqn:E1; cbn [snd fst] in *; [|discriminate].
    destruct (step_depth _ _ _ _ E1) as (S1 & S2 & S3). change (level (set_loc _ l s)) with (level s) in *. change (unmatched (set_loc _ l s)) with (unmatched s) in *.
    destruct (IH _ _ E) as (I1 & I2 & I3). rewrite depth_app. split; [lia|]. split; [lia|]. apply ok_app.
    + eapply ok_weaken; [|exact S3]. lia.
    + eapply ok_weaken; [|exact I3]. lia.
Qed.

(** *** No panic before a diagnostic *)
Definition sound (s : ist) : Prop := ierrs _ s = [] -> match current _ s with Some (u, y) => (u <> 0 /\ y <> 0)%nat | None => True end.
Definition unit_ok (s : ist) : Prop := match current _ s with Some (u, _) => u <> 0%nat | None => True end.
Lemma step_sound : forall t s, sound s -> unit_ok s ->
  match real_next t s with
  | Some (_, s') => sound s' /\ unit_ok s' /\ (ierrs _ s' = [] -> ierrs _ s = [])
  | None => ierrs _ s <> []
  end.
Proof using Type.
  intros t s Hs Hu. destruct (real_cases t s) as [(_ & H)|[(_ & H)|(Ht & H)]]; rewrite H.
  - cbv zeta. destruct (parentheses Loc s =? 0)%nat; destruct (eol_location Loc _); auto.
  - destruct (current_spaces Loc s); auto.
  - set (s0 := if is_brace F t then set_spaces Loc None s else s). assert (Hl : sound s0 /\ unit_ok s0 /\ ierrs _ s0 = ierrs _ s /\ (is_brace F t = true -> current_spaces _ s0 = None)) by (subst s0; destruct (is_brace F t); repeat split; auto; discriminate).
    destruct Hl as (Hs0 & Hu0 & <- & Hb). generalize dependent s0. intros s0 Hs0 Hu0 Hb. clear Hs Hu H s. unfold body.
    assert (K : is_brace F t = true -> indentation F Loc s0 = Some ([], s0)) by (intro X; unfold indentation; rewrite (Hb X); reflexivity).
    assert (I : match indentation F Loc s0 with Some (_, s1) => sound s1 /\ unit_ok s1 /\ (ierrs _ s1 = [] -> ierrs _ s0 = []) | None => False end).
    { unfold indentation. destruct (current_spaces Loc s0) as [n|]; [|auto]. unfold measure. cbn [current set_spaces].
      assert (A : forall (a b : nat) (s2 s3 : ist), sound s2 -> unit_ok s2 -> (ierrs _ s2 = [] -> ierrs _ s3 = []) -> let s' := snd (adjust F Loc a b s2) in sound s' /\ unit_ok s' /\ (ierrs _ s' = [] -> ierrs _ s3 = [])).
      { clear. intros a b s2 s3 H1 H2 H3. cbv zeta. unfold adjust. repeat match goal with |- context [if ?c then _ else _] => destruct c end; cbn [snd]; auto.
        split; [intro X; cbn in X; discriminate|]. split; [exact H2 | intro X; cbn in X; discriminate]. }
      unfold sound, unit_ok in Hs0, Hu0. destruct (current Loc s0) as [[u y]|].
      - destruct (Nat.eqb_spec n 0).
        + match goal with |- context [adjust F Loc ?a ?b ?x] => pose proof (A a b x s0) as B; destruct (adjust F Loc a b x) as [? s1] end. apply B; unfold sound, unit_ok; cbn; auto.
        + destruct (Nat.eqb_spec u 0) as [X|X]; [contradiction (Hu0 X)|]. destruct (Nat.eqb_spec (n mod u) 0) as [Y|Y].
          * match goal with |- context [adjust F Loc ?a ?b ?x] => pose proof (A a b x s0) as B; destruct (adjust F Loc a b x) as [? s1] end. apply B; unfold sound, unit_ok; cbn [set_current current set_spaces ierrs]; auto.
            intros _. split; [exact X|]. intro Z0. pose proof (Nat.div_mod n u X). rewrite Z0, Y in *. lia.
          * match goal with |- context [adjust F Loc ?a ?b ?x] => pose proof (A a b x s0) as B; destruct (adjust F Loc a b x) as [? s1] end. apply B; unfold sound, unit_ok; cbn [set_current current set_spaces ierrs ireg]; auto; discriminate.
      - destruct (Nat.eqb_spec n 0).
        + match goal with |- context [adjust F Loc ?a ?b ?x] => pose proof (A a b x s0) as B; destruct (adjust F Loc a b x) as [? s1] end. apply B; unfold sound, unit_ok; cbn; auto.
        + match goal with |- context [adjust F Loc ?a ?b ?x] => pose proof (A a b x s0) as B; destruct (adjust F Loc a b x) as [? s1] end. apply B; unfold sound, unit_ok; cbn; auto. }
    destruct (indentation F Loc s0) as [[g s1]|]; [|contradiction]. destruct I as (I1 & I2 & I3).
    assert (K2 : is_brace F t = true -> s1 = s0) by (intro X; specialize (K X); injection K as _ ->; reflexivity). clear K Hb.
    assert (C : match count_token F Loc t s1 with Some s2 => sound s2 /\ unit_ok s2 /\ (ierrs _ s2 = [] -> ierrs _ s1 = []) | None => ierrs _ s1 <> [] end).
    { destruct t as [q| | | | | | | | |]; cbn [count_token]; auto. destruct q; auto; unfold sound, unit_ok in *; cbn [set_current current set_spaces ierrs ireg].
      - destruct (current Loc s1) as [[u y]|]; [|auto]. split; [intro X; specialize (I1 X); lia|]. split; [exact I2 | auto].
      - destruct (current Loc s1) as [[u y]|] eqn:Ec; cbn [set_current current set_spaces ierrs ireg].
        + destruct (Nat.eqb_spec y 1); [cbn; auto|]. destruct (Nat.eqb_spec y 0) as [Y|Y]; [intro X; specialize (I1 X); lia|]. cbn [set_current current ierrs]. split; [intro X; specialize (I1 X); lia|]. auto.
        + rewrite Ec. split; [auto|]. split; [auto | discriminate]. }
    destruct (count_token F Loc t s1) as [s2|] eqn:E2; [|rewrite <- K2; [exact C|]; destruct t as [q| | | | | | | | |]; try discriminate; destruct q; try discriminate; reflexivity]. destruct C as (C1 & C2 & C3). split; [exact C1|]. split; [exact C2|]. auto.
Qed.
Lemma outcome_sound : forall inner s, sound s -> unit_ok s -> snd (outcome inner s) = None ->
  exists a b s1, inner = a ++ b /\ snd (outcome a s) = Some s1 /\ ierrs _ s1 <> [].
Proof using Type.
  induction inner as [|[l t] inner IH]; intros s Hs Hu E; cbn [outcome] in E; [discriminate|].
  pose proof (step_sound t (set_loc _ l s) Hs Hu) as H. destruct (real_next t (set_loc _ l s)) as [[p s1]|] eqn:E1.
  - destruct H as (H1 & H2 & H3). destruct (IH s1 H1 H2 E) as (a & b & s2 & -> & E2 & E3). exists ((l, t) :: a), b, s2. split; [reflexivity|]. split; [|exact E3]. cbn [outcome]. rewrite E1. exact E2.
  - exists [], ((l, t) :: inner), (set_eof _ true (set_current _ None s)). split; [reflexivity|]. split; [reflexivity | exact H].
Qed.

(** *** Depth and margin *)
Definition lev (c : option (nat * nat)) : Z := match c with Some (_, y) => Z.of_nat y | None => 0 end.
Definition moves (c : option (nat * nat)) (m : nat) (c' : option (nat * nat)) : Prop :=
  (m = 0%nat -> c' = None) /\
  (m <> 0%nat -> match c with None => c' = Some (m, 1%nat) | Some (u, _) => exists y, c' = Some (u, y) /\ m = (u * y)%nat end).
Lemma errs_mono : forall t s p s', real_next t s = Some (p, s') -> ierrs _ s' = [] -> ierrs _ s = [].
Proof using Type.
  intros t s p s' E H. destruct (real_cases t s) as [(_ & Hr)|[(_ & Hr)|(_ & Hr)]]; rewrite Hr in E.
  - injection E as <- E. subst s'. destruct (parentheses Loc s =? 0)%nat; destruct (eol_location Loc _); exact H.
  - injection E as <- E. subst s'. destruct (current_spaces Loc s); exact H.
  - assert (X : ierrs _ (if is_brace F t then set_spaces Loc None s else s) = ierrs _ s) by (destruct (is_brace F t); reflexivity). rewrite <- X. generalize dependent (if is_brace F t then set_spaces Loc None s else s). intros s0 E _ _.
    unfold body in E. destruct (indentation F Loc s0) as [[g s1]|] eqn:E0; [|discriminate]. destruct (count_token F Loc t s1) as [s2|] eqn:E1; [|discriminate]. injection E as _ <-. cbn [set_eol ierrs] in H.
    assert (H1 : ierrs _ s1 = []).
    { destruct t as [q| | | | | | | | |]; try (injection E1 as <-; exact H). destruct q; try (injection E1 as <-; exact H). cbn [count_token] in E1. destruct (current Loc s1) as [[x y]|]; [|injection E1 as <-; cbn in H; discriminate H].
      destruct (y =? 1)%nat; [injection E1 as <-; exact H|]. destruct (y =? 0)%nat; [discriminate | injection E1 as <-; exact H]. }
    unfold indentation in E0. destruct (current_spaces Loc s0) as [n|]; [|injection E0 as _ <-; exact H1].
    destruct (measure Loc n (set_spaces Loc None s0)) as [[[a b] s3]|] eqn:Em; [|discriminate]. injection E0 as E0.
    assert (H3 : ierrs _ s3 = []). { unfold adjust in E0. repeat match type of E0 with context [if ?c then _ else _] => destruct c end; injection E0 as _ <-; first [exact H1 | cbn in H1; discriminate H1]. }
    unfold measure in Em. cbn [current set_spaces] in Em. destruct (current _ s0) as [[u y]|].
    + destruct (n =? 0)%nat; [injection Em as _ _ <-; exact H3|]. destruct (u =? 0)%nat; [discriminate|]. destruct (n mod u =? 0)%nat; injection Em as _ _ <-; [exact H3 | cbn in H3; discriminate H3].
    + destruct (n =? 0)%nat; injection Em as _ _ <-; exact H3.
Qed.
Lemma body_measured : forall t s g x s', is_brace F t = false -> body t s = Some (g ++ [x], s') -> ierrs _ s' = [] ->
  match current_spaces _ s with None => g = [] /\ current _ s' = current _ s | Some m => moves (current _ s) m (current _ s') /\ depth g = lev (current _ s') - lev (current _ s) end.
Proof using Type.
  intros t s g x s' Ht E H. unfold body in E. destruct (indentation F Loc s) as [[g0 s1]|] eqn:E0; [|discriminate]. destruct (count_token F Loc t s1) as [s2|] eqn:E1; [|discriminate].
  injection E as E <-. apply app_inj_tail in E. destruct E as (-> & _). cbn [set_eol ierrs current] in *.
  assert (Hc : current _ s2 = current _ s1 /\ ierrs _ s2 = ierrs _ s1).
  { destruct t as [q| | | | | | | | |]; try (injection E1 as <-; auto). destruct q; try discriminate; injection E1 as <-; auto. }
  destruct Hc as (-> & He). rewrite He in H. pose proof (indentation_depth _ _ _ E0) as (D & _). fold (lev (current _ s)) in *. change (level s1) with (lev (current _ s1)) in D. change (level s) with (lev (current _ s)) in D.
  unfold indentation in E0. destruct (current_spaces Loc s) as [n|]; [|injection E0 as <- <-; auto]. split; [|lia].
  destruct (measure Loc n (set_spaces Loc None s)) as [[[a b] s3]|] eqn:Em; [|discriminate]. injection E0 as E0.
  assert (H3 : ierrs _ s3 = [] /\ current _ s1 = current _ s3). { unfold adjust in E0. repeat match type of E0 with context [if ?c then _ else _] => destruct c end; injection E0 as _ <-; first [split; [exact H | reflexivity] | cbn in H; discriminate H]. }
  destruct H3 as (H3 & ->). unfold measure in Em. cbn [current set_spaces] in Em. unfold moves. destruct (current _ s) as [[u y]|].
  - destruct (Nat.eqb_spec n 0); [injection Em as _ _ <-; cbn; split; [auto | contradiction]|]. destruct (Nat.eqb_spec u 0); [discriminate|].
    destruct (Nat.eqb_spec (n mod u) 0) as [Y|Y]; injection Em as _ _ <-; [|cbn in H3; discriminate H3]. cbn [set_current current]. split; [contradiction|]. intros _. exists (n / u)%nat. split; [reflexivity|]. pose proof (Nat.div_mod n u ltac:(assumption)). lia.
  - destruct (Nat.eqb_spec n 0); injection Em as _ _ <-; cbn; (split; [auto; contradiction | auto; contradiction]).
Qed.
Inductive measured : option (nat * nat) -> list (option (nat * Loc)) -> list (list ltok) -> Prop :=
  | me_nil c : measured c [] []
  | me_none c hs gs : measured c hs gs -> measured c (None :: hs) ([] :: gs)
  | me_some c m e c' g hs gs : moves c m c' -> depth g = lev c' - lev c -> measured c' hs gs -> measured c (Some (m, e) :: hs) (g :: gs).
Lemma outcome_measured : forall inner s margin s', linked s margin -> (forall x, In x inner -> is_brace F (snd x) = false) -> snd (outcome inner s) = Some s' -> ierrs _ s' = [] ->
  exists groups, laid_out inner (lines (parentheses _ s) margin inner) (last_input_loc _ s) (fst (outcome inner s)) true groups /\
    measured (current _ s) (map fst (lines (parentheses _ s) margin inner)) groups /\ ierrs _ s = [].
Proof using Type.
  induction inner as [|[l t] inner IH]; intros s margin s' H Hb E He.
  - exists []. split; [|split; [constructor | cbn in E; injection E as <-; exact He]]. exists (closing s). cbn. split; [reflexivity|]. split; [constructor|]. split; [reflexivity|]. eexists. reflexivity.
  - cbn [outcome] in E |- *. destruct (real_next t (set_loc _ l s)) as [[p s1]|] eqn:E1; [|discriminate]. cbn [fst snd] in *.
    destruct (step_linked _ _ _ _ _ _ inner H E1) as (m' & H' & Hl & C).
    destruct (IH s1 m' s' H' (fun x Hx => Hb x (or_intror Hx)) E He) as (gs & (tail & T1 & T2 & T3 & k & T4) & Hm & He1).
    pose proof (errs_mono _ _ _ _ E1 He1) as He0. cbn [set_loc ierrs] in He0.
    destruct (real_cases t (set_loc _ l s)) as [(Ht & Hr)|[(Ht & Hr)|(Ht & Hr)]].
    + destruct C as [(-> & EL)|(h & g & -> & _)]; [|exfalso; rewrite Hr in E1; injection E1 as E1 _; destruct g; discriminate].
      assert (Hc : current _ s1 = current _ s) by (rewrite Hr in E1; injection E1 as <-; cbn [set_loc parentheses]; destruct (parentheses Loc s =? 0)%nat; cbn [set_spaces set_loc eol_location]; destruct (eol_location Loc s); reflexivity).
      exists gs. rewrite EL, <- Hc. split; [|auto]. exists tail. cbn [app]. split; [exact T1|]. split; [exact T2|]. split; [exact T3|]. exists k. cbn [map fst]. rewrite last_cons, <- Hl. exact T4.
    + destruct C as [(-> & EL)|(h & g & -> & _)]; [|exfalso; rewrite Hr in E1; injection E1 as E1 _; destruct g; discriminate].
      assert (Hc : current _ s1 = current _ s) by (rewrite Hr in E1; injection E1 as <-; cbn [set_loc current_spaces]; destruct (current_spaces Loc s); reflexivity).
      exists gs. rewrite EL, <- Hc. split; [|auto]. exists tail. cbn [app]. split; [exact T1|]. split; [exact T2|]. split; [exact T3|]. exists k. cbn [map fst]. rewrite last_cons, <- Hl. exact T4.
    + pose proof (Hb (l, t) (or_introl eq_refl)) as Hnb. cbn [snd] in Hnb. rewrite Hnb in Hr. destruct C as [(-> & EL)|(h & g & -> & Hg & EL)].
      { exfalso. rewrite Hr in E1. unfold body in E1. destruct (indentation F Loc (set_loc Loc l s)) as [[g0 s2]|]; [|discriminate]. destruct (count_token F Loc t s2); [|discriminate]. injection E1 as E1 _. destruct g0; discriminate. }
      exists (g :: gs). rewrite EL. split; [|split; [|exact He0]].
      * exists tail. split; [|split; [|split]].
        -- rewrite T1. cbn [map snd]. unfold assemble. cbn [combine map concat fst snd]. rewrite <- !app_assoc. reflexivity.
        -- cbn [length map fst firstn]. constructor; [exact Hg | exact T2].
        -- cbn [length map fst]. rewrite T3. reflexivity.
        -- exists k. cbn [map fst]. rewrite last_cons, <- Hl. exact T4.
      * rewrite Hr in E1. pose proof (body_measured _ _ _ _ _ Hnb E1 He1) as M. cbn [set_loc current_spaces current] in M.
        rewrite (lines_blank _ _ _ _ _ Ht), Hnb in EL. injection EL as Eh _. subst h. destruct H as (Hs & _). rewrite Hs in M. cbn [map fst].
        destruct margin as [[m e]|]; cbn [option_map fst] in M.
        -- destruct M as (M1 & M2). econstructor; [exact M1 | exact M2 | exact Hm].
        -- destruct M as (-> & M2). rewrite <- M2. constructor. exact Hm.
Qed.
Lemma measured_states : forall c hs gs, measured c hs gs -> length gs = length hs /\ exists cs : nat -> option (nat * nat), cs 0%nat = c /\
  forall i, (i < length hs)%nat -> match nth i hs None with None => cs (S i) = cs i | Some (m, _) => moves (cs i) m (cs (S i)) end /\ depth (nth i gs []) = lev (cs (S i)) - lev (cs i).
Proof using Type.
  induction 1 as [c|c hs gs H (L & cs & H0 & IH)|c m e c' g hs gs Hm Hd H (L & cs & H0 & IH)].
  - split; [reflexivity|]. exists (fun _ => c). split; [reflexivity|]. cbn. lia.
  - split; [cbn; congruence|]. exists (fun i => match i with O => c | S i => cs i end). split; [reflexivity|]. intros [|i] Hi; cbn [nth length] in *.
    + rewrite H0. split; [reflexivity|]. cbn. lia.
    + apply IH. lia.
  - split; [cbn; congruence|]. exists (fun i => match i with O => c | S i => cs i end). split; [reflexivity|]. intros [|i] Hi; cbn [nth length] in *.
    + rewrite H0. auto.
    + apply IH. lia.
Qed.
Lemma depth_assemble : forall gs sig, (forall x, In x sig -> weight F (snd x) = 0) -> (length gs <= length sig)%nat -> depth (assemble F Loc gs sig) = depth (concat gs).
Proof using Type.
  induction gs as [|g gs IH]; intros sig Hw Hl; [reflexivity|]. destruct sig as [|x sig]; [cbn in Hl; lia|]. unfold assemble. cbn [combine map concat fst snd].
  change (concat (map (fun g0 : list ltok * ltok => fst g0 ++ [snd g0]) (combine gs sig))) with (assemble F Loc gs sig). rewrite !depth_app, IH; [|intros y Hy; apply Hw; right; exact Hy | cbn in Hl; lia].
  change (depth [x]) with (weight F (snd x) + 0). rewrite (Hw x (or_introl eq_refl)). lia.
Qed.
Lemma lines_in : forall input n m x, In x (map snd (lines n m input)) -> In x input.
Proof using Type.
  induction input as [|[l t] input IH]; intros n m x H; [contradiction|]. destruct (is_blank F t) eqn:Eb.
  - right. destruct t as [q| | | | | | | | |]; try discriminate. destruct q; try discriminate; exact (IH _ _ _ H).
  - rewrite (lines_blank _ _ _ _ _ Eb) in H. cbn [map snd] in H. destruct H as [<-|H]; [left; reflexivity | right; exact (IH _ _ _ H)].
Qed.
Lemma firstn_S_nth : forall (A : Type) (l : list A) i d, (i < length l)%nat -> firstn (S i) l = firstn i l ++ [nth i l d].
Proof using Type.
  clear. intros A l. induction l as [|x l IH]; intros i d H; [cbn in H; lia|]. destruct i as [|i]; [reflexivity|]. cbn [firstn nth app]. f_equal. apply (IH i d). cbn in H. lia.
Qed.
Close Scope Z_scope.
End PROOFS.

Section THEOREMS.
Variable F : Type.
Variable Loc : Type.
Variable default_loc : Loc.
Notation ltok := (Loc * token F)%type.

(** The iterator always ends or panics, in one way. *)
Theorem C15_total : forall input : list ltok, exists! o, process F Loc default_loc input (fst o) (snd o).
Proof.
  intro input. exists (outcome F Loc input (inew Loc default_loc)). split; [apply process_iff; apply surjective_pairing|].
  intros [ts r] H. cbn [fst snd] in H. apply process_iff in H. exact H.
Qed.
(** Every significant token comes out, unchanged and in order; what is inserted stands only where a line starts ([group_ok]) and at the
    end.  After a panic the same holds of what came out before it. *)
Theorem C15_tokens_kept : forall (input : list ltok) ts r, process F Loc default_loc input ts r ->
  exists groups, laid_out F Loc input (lines F Loc 0 None input) default_loc ts (match r with Some _ => true | None => false end) groups.
Proof.
  intros input ts r H. apply process_iff in H. destruct (outcome_laid F Loc input _ None (linked_new Loc default_loc)) as (gs & Hg).
  rewrite H in Hg. exists gs. exact Hg.
Qed.
Theorem C15_significant : forall (input : list ltok) n m, map snd (lines F Loc n m input) = filter (fun x => negb (is_blank F (snd x))) input.
Proof.
  induction input as [|[l t] input IH]; intros n m; [reflexivity|]. cbn [filter snd]. destruct (is_blank F t) eqn:Eb; cbn [negb].
  - destruct t as [q| | | | | | | | |]; try discriminate. destruct q; try discriminate; apply IH.
  - rewrite (lines_blank F Loc _ _ _ _ _ Eb). cbn [map snd]. f_equal. apply IH.
Qed.
Theorem C15_no_blanks : forall (input : list ltok) ts r x, process F Loc default_loc input ts r -> In x ts -> is_blank F (snd x) = false.
Proof.
  intros input ts r x H Hx. destruct (C15_tokens_kept _ _ _ H) as (gs & tail & -> & Hg & Ht). apply in_app_or in Hx. destruct Hx as [Hx|Hx].
  - unfold assemble in Hx. apply in_concat in Hx. destruct Hx as (y & Hy & Hx). apply in_map_iff in Hy. destruct Hy as ([g z] & <- & Hy). cbn [fst snd] in Hx. apply in_app_or in Hx. destruct Hx as [Hx|[<-|[]]].
    + apply in_combine_l in Hy. assert (G : exists h, group_ok F Loc g h).
      { clear -Hg Hy. induction Hg; [contradiction|]. destruct Hy as [<-|Hy]; [eexists; eassumption | auto]. }
      destruct G as ([[n e]|] & G); cbn in G; [|subst g; contradiction]. destruct G as (p & k & -> & Hp). change (In x (repeat (e, TPunct F p) (S k))) in Hx. apply repeat_spec in Hx. subst x. cbn. destruct Hp as [(-> & _)|[-> | ->]]; reflexivity.
    + apply in_combine_r in Hy. rewrite C15_significant in Hy. apply filter_In in Hy. destruct Hy as (_ & Hy). apply negb_true_iff in Hy. exact Hy.
  - destruct r as [s'|]; [|subst tail; contradiction]. destruct Ht as (_ & k & ->). destruct Hx as [<-|Hx]; [reflexivity|]. apply repeat_spec in Hx. subst x. reflexivity.
Qed.

(** C16.  Without diagnostics the output is balanced. *)
Definition count_unmatched (s : ist Loc) : nat := length (filter (fun e => match snd e with EUnmatched => true | _ => false end) (ierrs _ s)).
Theorem C16_balanced : forall (input : list ltok) ts s', process F Loc default_loc input ts (Some s') -> ierrs _ s' = [] -> balanced F Loc ts.
Proof.
  intros input ts s' H He. apply process_iff in H. destruct (outcome_depth F Loc input (inew Loc default_loc) s') as (_ & H2 & H3); [rewrite H; reflexivity|]. rewrite H in H2, H3. cbn [fst] in H2, H3.
  unfold unmatched in H2, H3. rewrite He in H2, H3. cbn in H2, H3. split; [|cbn in H2; lia]. intros a b E. specialize (H3 a b E). lia.
Qed.
(** Whatever the diagnostics: closing braces exceed opening ones only by the right braces reported as unmatched. *)
Theorem C16_with_diagnostics : forall (input : list ltok) ts s', process F Loc default_loc input ts (Some s') ->
  depth F Loc ts = (- Z.of_nat (count_unmatched s'))%Z /\ (forall a b, ts = a ++ b -> (- Z.of_nat (count_unmatched s') <= depth F Loc a)%Z).
Proof.
  intros input ts s' H. apply process_iff in H. destruct (outcome_depth F Loc input (inew Loc default_loc) s') as (_ & H2 & H3); [rewrite H; reflexivity|]. rewrite H in H2, H3. cbn [fst] in H2, H3.
  change (unmatched Loc (inew Loc default_loc)) with 0%Z in *. change (level Loc (inew Loc default_loc)) with 0%Z in *. unfold unmatched in H2, H3. fold (count_unmatched s') in *. split; [lia|]. intros a b E. specialize (H3 a b E). lia.
Qed.
(** A panic comes only after a diagnostic: some beginning of the input is processed to the end with one. *)
Theorem C16_no_panic_without_diagnostic : forall (input : list ltok) ts, process F Loc default_loc input ts None ->
  exists a b ts' s', input = a ++ b /\ process F Loc default_loc a ts' (Some s') /\ ierrs _ s' <> [].
Proof.
  intros input ts H. apply process_iff in H. destruct (outcome_sound F Loc input (inew Loc default_loc)) as (a & b & s1 & E & E1 & E2); [intro; exact I | exact I | rewrite H; reflexivity|].
  exists a, b, (fst (outcome F Loc a (inew Loc default_loc))), s1. split; [exact E|]. split; [|exact E2]. apply process_iff. rewrite <- E1. apply surjective_pairing.
Qed.

(** C38.  Where the source uses indentation only and no diagnostic is given, depth is proportional to the margin within each top-level
    block. *)
Theorem C38_depth_is_indentation : forall (input : list ltok) ts s', process F Loc default_loc input ts (Some s') -> ierrs _ s' = [] ->
  (forall x, In x input -> is_brace F (snd x) = false) ->
  let L := lines F Loc 0 None input in
  let head i := nth i (map fst L) None in
  exists groups, laid_out F Loc input L default_loc ts true groups /\
  let D := depth_at F Loc groups (map snd L) in
  (* inside a line the depth stays *)
  (forall i, i < length L -> head i = None -> D i = match i with 0 => 0%Z | S k => D k end) /\
  (* a line without margin is at top level, one with a margin is not *)
  (forall i e, head i = Some (0, e) -> D i = 0%Z) /\
  (forall i m e, head i = Some (S m, e) -> (0 < D i)%Z) /\
  (* the first line with a margin after one without (or after none) is at depth 1 *)
  (forall i m e, head i = Some (S m, e) ->
     (forall k m' e', k < i -> head k = Some (m', e') -> (forall k', k < k' < i -> head k' = None) -> m' = 0) -> D i = 1%Z) /\
  (* between lines without a line at top level in between, depths are as margins *)
  (forall i j mi ei mj ej, i <= j -> head i = Some (mi, ei) -> head j = Some (mj, ej) ->
     (forall k m e, i <= k <= j -> head k = Some (m, e) -> 0 < m) -> (Z.of_nat mi * D j = Z.of_nat mj * D i)%Z).
Proof.
  intros input ts s' H He Hb L head. apply process_iff in H.
  destruct (outcome_measured F Loc input (inew Loc default_loc) None s' (linked_new Loc default_loc) Hb) as (gs & Hl & Hm & _); [rewrite H; reflexivity | exact He|].
  rewrite H in Hl. cbn [fst] in Hl. exists gs. split; [exact Hl|]. intro D. change (lines F Loc (parentheses Loc (inew Loc default_loc)) None input) with L in Hm. change (current Loc (inew Loc default_loc)) with (@None (nat * nat)) in Hm.
  destruct (measured_states F Loc _ _ _ Hm) as (Hlen & cs & C0 & Cs). rewrite map_length in Hlen, Cs.
  assert (Hw : forall x, In x (map snd L) -> weight F (snd x) = 0%Z).
  { intros x Hx. apply lines_in in Hx. specialize (Hb x Hx). destruct (snd x) as [q| | | | | | | | |]; try reflexivity. destruct q; try reflexivity; discriminate. }
  assert (HD : forall i, i < length L -> D i = lev (cs (S i))).
  { intros i Hi. subst D. unfold depth_at. rewrite depth_app, depth_assemble; [|exact Hw | rewrite firstn_length, map_length; lia].
    rewrite <- depth_app. replace (concat (firstn i gs) ++ nth i gs []) with (concat (firstn (S i) gs)) by (rewrite (firstn_S_nth _ gs i []) by lia; rewrite concat_app; cbn [concat]; rewrite app_nil_r; reflexivity).
    induction i as [|i IH].
    - rewrite (firstn_S_nth _ gs 0 []) by lia. cbn [firstn app concat]. rewrite app_nil_r. destruct (Cs 0 Hi) as (_ & ->). rewrite C0. cbn [lev]. lia.
    - rewrite (firstn_S_nth _ gs (S i) []) by lia. rewrite concat_app. cbn [concat]. rewrite app_nil_r, depth_app, IH by lia. destruct (Cs (S i) Hi) as (_ & ->). lia. }
  assert (Hlt : forall i h, head i = Some h -> i < length L).
  { intros i h E. destruct (Nat.lt_ge_cases i (length L)) as [X|X]; [exact X|]. subst head. cbv beta in E. rewrite nth_overflow in E by (rewrite map_length; exact X). discriminate. }
  assert (Hcs : forall i h, head i = Some h -> moves (cs i) (fst h) (cs (S i))).
  { intros i [m e] E. destruct (Cs i (Hlt _ _ E)) as (X & _). subst head. cbv beta in E. rewrite E in X. exact X. }
  assert (Hcn : forall i, i < length L -> head i = None -> cs (S i) = cs i).
  { intros i Hi E. destruct (Cs i Hi) as (X & _). subst head. cbv beta in E. rewrite E in X. exact X. }
  assert (Hpos : forall i m e, head i = Some (S m, e) -> exists u y, cs (S i) = Some (u, y) /\ S m = u * y).
  { intros i m e E. destruct (Hcs _ _ E) as (_ & X). cbn [fst] in X. specialize (X ltac:(discriminate)). destruct (cs i) as [[u y0]|]; [destruct X as (y & X & Y); eauto | exists (S m), 1; split; [exact X | lia]]. }
  split; [|split; [|split; [|split]]].
  - intros i Hi E. rewrite HD, (Hcn i Hi E) by exact Hi. destruct i as [|k]; [rewrite C0; reflexivity|]. rewrite HD by lia. reflexivity.
  - intros i e E. rewrite HD by (eapply Hlt; exact E). destruct (Hcs _ _ E) as (X & _). rewrite (X eq_refl). reflexivity.
  - intros i m e E. rewrite HD by (eapply Hlt; exact E). destruct (Hpos _ _ _ E) as (u & y & -> & X). cbn [lev]. destruct y; lia.
  - intros i m e E Hp. rewrite HD by (eapply Hlt; exact E). assert (Hn : cs i = None).
    { assert (G : forall j, j <= i -> cs j = None \/ exists k m' e', k < j /\ head k = Some (S m', e') /\ forall k', k < k' < j -> head k' = None).
      { pose proof (Hlt _ _ E) as Hi. induction j as [|j IH]; intro Hj; [left; exact C0|]. destruct (head j) as [[[|m'] e']|] eqn:Eh.
        - left. destruct (Hcs _ _ Eh) as (X & _). exact (X eq_refl).
        - right. exists j, m', e'. split; [lia|]. split; [exact Eh|]. intros k' Hk. lia.
        - rewrite (Hcn j) by (lia || exact Eh). destruct (IH ltac:(lia)) as [X|(k & m' & e' & K1 & K2 & K3)]; [left; exact X|]. right. exists k, m', e'. split; [lia|]. split; [exact K2|].
          intros k' Hk. destruct (Nat.eq_dec k' j) as [->|]; [exact Eh | apply K3; lia]. }
      destruct (G i (le_n i)) as [X|(k & m' & e' & K1 & K2 & K3)]; [exact X|]. exfalso. specialize (Hp k (S m') e' K1 K2 K3). discriminate. }
    destruct (Hcs _ _ E) as (_ & X). specialize (X ltac:(discriminate)). rewrite Hn in X. rewrite X. reflexivity.
  - intros i j mi ei mj ej Hij Ei Ej Hk. pose proof (Hlt _ _ Ej) as Hj. pose proof (Hk i mi ei ltac:(lia) Ei) as Hmi. destruct mi as [|mi]; [lia|]. destruct (Hpos _ _ _ Ei) as (u & yi & Ui & Mi).
    assert (G : forall d, i + d <= j -> exists y, cs (S (i + d)) = Some (u, y) /\ forall m e, head (i + d) = Some (m, e) -> m = u * y).
    { induction d as [|d IH]; intro Hd.
      - rewrite Nat.add_0_r. exists yi. split; [exact Ui|]. intros m e E. rewrite Ei in E. injection E as <- <-. exact Mi.
      - destruct (IH ltac:(lia)) as (y & Y1 & _). replace (i + S d) with (S (i + d)) in * by lia. destruct (head (S (i + d))) as [[m e]|] eqn:Eh.
        + pose proof (Hk (S (i + d)) m e ltac:(lia) Eh) as Hm0. destruct (Hcs _ _ Eh) as (_ & X). cbn [fst] in X. specialize (X ltac:(lia)). rewrite Y1 in X. destruct X as (y' & X1 & X2). exists y'. split; [exact X1|]. intros m0 e0 E0. injection E0 as <- <-. exact X2.
        + rewrite (Hcn (S (i + d)) ltac:(lia) Eh). exists y. split; [exact Y1 | discriminate]. }
    destruct (G (j - i) ltac:(lia)) as (yj & Uj & Mj). replace (i + (j - i)) with j in * by lia. specialize (Mj _ _ Ej). rewrite !HD by (lia || exact Hj). rewrite Ui, Uj. cbn [lev]. rewrite Mi, Mj. lia.
Qed.
End THEOREMS.
Print Assumptions C15_total.
Print Assumptions C15_tokens_kept.
Print Assumptions C15_significant.
Print Assumptions C15_no_blanks.
Print Assumptions C16_balanced.
Print Assumptions C16_with_diagnostics.
Print Assumptions C16_no_panic_without_diagnostic.
Print Assumptions C38_depth_is_indentation.

(** *** Examples; locations are positions in the token list *)
Definition num (ps : list (token unit)) : list (nat * token unit) := combine (seq 1 (length ps)) ps.
Notation T p := (TPunct unit p).
Notation W n := (TInt unit n).
(** a line, a deeper line, a deeper one still (with a parenthesis that spans lines), back to the first *)
Definition demo_input : list (nat * token unit) := num
  [W 1; T PNewline; T PTab; W 2; T PNewline; T PNewline; T PTab; T PTab; W 3; T PLParen; T PNewline; W 4; T PRParen; T PNewline; T PTab; T PTab; W 5; T PNewline; W 6; T PNewline].
Example C15_demo : exists ts s', process unit nat 0 demo_input ts (Some s') /\ ierrs _ s' = [] /\ (forall x, In x demo_input -> is_brace unit (snd x) = false) /\
  map snd ts = [W 1; T PLBrace; W 2; T PLBrace; W 3; T PLParen; W 4; T PRParen; T PSemicolon; W 5; T PRBrace; T PRBrace; W 6; T PSemicolon] /\
  lines unit nat 0 None demo_input = [(None, (1, W 1)); (Some (1, 2), (4, W 2)); (Some (2, 5), (9, W 3)); (None, (10, T PLParen)); (None, (12, W 4)); (None, (13, T PRParen)); (Some (2, 14), (17, W 5)); (Some (0, 18), (19, W 6))].
Proof.
  eexists. eexists. split; [apply process_iff; vm_compute; reflexivity|]. split; [reflexivity|]. split; [|split; reflexivity].
  intros x Hx. cbn in Hx. repeat destruct Hx as [<-|Hx]; try reflexivity. contradiction.
Qed.
(** The claim that a panic is impossible fails once a diagnostic was given: two tabs, then one (reported as inconsistent), then a right
    brace.  (In a release build the count wraps around to usize::MAX instead.) *)
Definition panic_input : list (nat * token unit) := num
  [W 1; T PNewline; T PTab; T PTab; W 2; T PNewline; T PTab; W 3; T PNewline; T PRBrace].
Theorem C16_total_refuted : exists ts, process unit nat 0 panic_input ts None.
Proof. eexists. apply process_iff. vm_compute. reflexivity. Qed.
(** Unmatched right braces are reported and passed through. *)
Example C16_unmatched_demo : exists ts s', process unit nat 0 (num [W 1; T PRBrace; T PLBrace; W 2]) ts (Some s') /\ count_unmatched nat s' = 1 /\ depth unit nat ts = (-1)%Z.
Proof. eexists. eexists. split; [apply process_iff; vm_compute; reflexivity|]. split; reflexivity. Qed.
Print Assumptions C16_total_refuted.
