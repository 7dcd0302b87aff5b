(** The dictionary part of the reader on what the writer produces. *)
From Coq Require Import List ZArith NArith Lia Bool Ascii String Sorted.
From Verif Require Import Common.Text Common.Decimal Common.Utf8 Dmm.Model Dmm.Spec Dmm.KeyProofs Dmm.TgmModel Dmm.TgmSpec.
Import ListNotations.
Open Scope N_scope.

(** ** no [//] *)
Fixpoint nc (trig : bool) (l : list N) : Prop :=
  match l with
  | [] => True
  | c :: r => (c = 47 -> trig = false) /\ nc (c =? 47) r
  end.

Lemma nc_of : forall l, has_no_comment l -> nc false l.
Proof.
  assert (G : forall l trig, has_no_comment l -> (trig = true -> forall r, l <> 47 :: r) -> nc trig l).
  { induction l as [|c r IH]; intros trig H Ht; [exact I|]. cbn [nc]. split.
    - intros ->. destruct trig; [|reflexivity]. exfalso. exact (Ht eq_refl r eq_refl).
    - apply IH.
      + intros a b E. apply (H (c :: a) b). cbn [app]. rewrite E. reflexivity.
      + intros E r' ->. apply N.eqb_eq in E. subst c. exact (H [] r' eq_refl). }
  intros l H. apply G; [exact H | discriminate].
Qed.

Lemma encode_char_cases : forall c, (c < 0x80 /\ encode_char c = [c]) \/ (0x80 <= c /\ Forall (fun b => 0x80 <= b) (encode_char c)).
Proof.
  intro c. unfold encode_char. destruct (N.ltb_spec c 0x80); [left; split; [assumption|reflexivity]|].
  right. split; [assumption|].
  repeat (destruct (_ <? _)); repeat (apply Forall_cons || apply Forall_nil); (eapply N.le_trans; [|apply N.le_add_r]; discriminate).
Qed.

Lemma nc_high : forall l t r, Forall (fun b => 0x80 <= b) l -> l <> [] -> nc false r -> nc t (l ++ r).
Proof.
  induction l as [|c l IH]; intros t r H Hn Hr; [congruence|]. inversion H as [|? ? Hc Hl]; subst.
  cbn [app nc]. split; [intros ->; lia|]. destruct (N.eqb_spec c 47); [subst; lia|].
  destruct l as [|c' l]; [exact Hr|]. apply IH; [exact Hl | discriminate | exact Hr].
Qed.

Lemma nc_encode : forall t trig, nc trig t -> nc trig (encode t).
Proof.
  induction t as [|c t IH]; intros trig H; [exact I|]. cbn [nc] in H. destruct H as [H1 H2].
  change (nc trig (encode_char c ++ encode t)). destruct (encode_char_cases c) as [[Hc ->]|[Hc Hb]].
  - cbn [app nc]. split; [exact H1 | apply IH, H2].
  - apply nc_high; [exact Hb | destruct (encode_char_nonempty c) as (b & r & ->); discriminate|].
    apply IH. destruct (N.eqb_spec c 47); [lia | exact H2].
Qed.

Lemma none_encode : forall bad t, Forall (fun b => b < 0x80) bad -> has_none_of bad t -> has_none_of bad (encode t).
Proof.
  intros bad t Hb. induction t as [|c t IH]; intros H b Hin; [destruct Hin|].
  change (In b (encode_char c ++ encode t)) in Hin. apply in_app_or in Hin. destruct Hin as [Hin|Hin].
  - destruct (encode_char_cases c) as [[Hc E]|[Hc Hh]].
    + rewrite E in Hin. destruct Hin as [<-|[]]. apply H. left; reflexivity.
    + intro Hbad. rewrite Forall_forall in Hb, Hh. specialize (Hb _ Hbad). specialize (Hh _ Hin). cbn beta in Hb, Hh. lia.
  - apply IH; [|exact Hin]. intros x Hx. apply H. right; exact Hx.
Qed.

Lemma encode_back : forall t, Forall scalar t -> from_utf8_or_latin1 (encode t) = t.
Proof. intros t H. unfold from_utf8_or_latin1. rewrite decode_encode by exact H. reflexivity. Qed.

Lemma encode_nil : forall t, encode t = [] -> t = [].
Proof. intros [|c t] H; [reflexivity|]. change (encode_char c ++ encode t = []) in H. destruct (encode_char_nonempty c) as (b & r & E). rewrite E in H. discriminate. Qed.

Section Dict.
  Context {C : Type} (show : C -> list N) (ev : list N -> option C).
  Notation dst := (dst C).
  Notation step := (step ev).
  Notation run := (run ev).

  (** all the bytes are consumed without leaving the dictionary part *)
  Inductive goes : list N -> dst -> dst -> Prop :=
  | goes_nil s : goes [] s s
  | goes_cons b r s s1 s2 : step b s = Go s1 -> goes r s1 s2 -> goes (b :: r) s s2.

  Lemma goes_app : forall a b s s1 s2, goes a s s1 -> goes b s1 s2 -> goes (a ++ b) s s2.
  Proof using Type. intros a b s s1 s2 H. induction H; intro; [assumption|]. cbn [app]. econstructor; eauto. Qed.
  Lemma goes_run : forall a b s s1, goes a s s1 -> run (a ++ b) s = run b s1.
  Proof using Type. intros a b s s1 H. induction H as [|x r s s1 s2 H H1 IH]; [reflexivity|]. cbn [app TgmModel.run]. rewrite H. exact IH. Qed.
  Lemma goes_one : forall b s s1, step b s = Go s1 -> goes [b] s s1.
  Proof using Type. intros. econstructor; [eassumption | constructor]. Qed.

  (** inside an entry *)
  Definition sd (trig : bool) (data : list (prefab C)) (fab : prefab C) (var datum : list N) (k len : Z)
      (q v e skip : bool) (kl : Z) (D : list (Z * list (prefab C))) : dst :=
    Dst false trig data fab var datum k len q false true v false e skip kl D.

  Ltac st := cbv [sd set_comment set_skip push_datum take_var take_path set_varedit in_comment_line comment_trigger curr_data
    curr_prefab curr_var curr_datum curr_key curr_key_length in_quote_block in_key_block in_data_block in_varedit_block after_data_block
    escaping skip_whitespace d_key_length d_dictionary orb andb negb].

  Lemma eqb_no : forall (c x : N) l, ~ In c l -> In x l -> (c =? x) = false.
  Proof using Type. clear. intros c x l H Hin. destruct (N.eqb_spec c x); [subst; contradiction | reflexivity]. Qed.

  (** L1: the letters of a path *)
  Lemma path_goes : forall p trig data fab datum k len kl D,
    has_none_of (line_blanks ++ lit "{,)") p -> nc trig p ->
    exists trig', goes p (sd trig data fab [] datum k len false false false false kl D)
                    (sd trig' data fab [] (datum ++ p) k len false false false false kl D).
  Proof using Type.
    induction p as [|c p IH]; intros trig data fab datum k len kl D Hb Hn.
    - exists trig. rewrite app_nil_r. constructor.
    - cbn [nc] in Hn. destruct Hn as [Hc Hn].
      destruct (IH (c =? 47) data fab (datum ++ [c]) k len kl D) as [t' Ht'].
      { intros x Hx. apply Hb. right; exact Hx. } { exact Hn. }
      exists t'. econstructor; [|rewrite <- app_assoc in Ht'; exact Ht'].
      specialize (Hb c (or_introl eq_refl)).
      unfold TgmModel.step.
      rewrite (eqb_no c 10 _ Hb) by (cbn; tauto). rewrite (eqb_no c 13 _ Hb) by (cbn; tauto). rewrite (eqb_no c 9 _ Hb) by (cbn; tauto).
      unfold step_data.
      rewrite (eqb_no c 123 _ Hb) by (cbn; tauto). rewrite (eqb_no c 44 _ Hb) by (cbn; tauto). rewrite (eqb_no c 41 _ Hb) by (cbn; tauto).
      destruct (N.eqb_spec c 47) as [Ec|Ec]; [rewrite (Hc Ec)|]; reflexivity.
  Qed.

  (** a byte that is not special is pushed *)
  Lemma push_step : forall c trig data fab var datum k len skip kl D,
    ~ In c (line_blanks ++ lit """;}") -> (c = 61 -> var <> []) -> (c = 47 -> trig = false) -> (skip = true -> c <> 32) ->
    step c (sd trig data fab var datum k len false true false skip kl D)
    = Go (sd (c =? 47) data fab var (datum ++ [c]) k len false true false false kl D).
  Proof using Type.
    intros c trig data fab var datum k len skip kl D Hb He Hc Hs.
    unfold TgmModel.step.
    rewrite (eqb_no c 10 _ Hb) by (cbn; tauto). rewrite (eqb_no c 13 _ Hb) by (cbn; tauto). rewrite (eqb_no c 9 _ Hb) by (cbn; tauto).
    unfold step_varedit. pose proof (eqb_no c 34 _ Hb ltac:(cbn; tauto)) as E34. pose proof (eqb_no c 59 _ Hb ltac:(cbn; tauto)) as E59. pose proof (eqb_no c 125 _ Hb ltac:(cbn; tauto)) as E125. clear Hb.
    destruct (N.eqb_spec c 47) as [Ec|Ec]; [rewrite (Hc Ec)|]; (destruct (N.eqb_spec c 61) as [E61|_]; [destruct var; [exfalso; apply (He E61); reflexivity|]|]);
      (destruct (N.eqb_spec c 32) as [E32|_]; [destruct skip; [exfalso; exact (Hs eq_refl E32)|]|]); st; rewrite ?E34, ?E59, ?E125; try reflexivity; destruct skip; reflexivity.
  Qed.

  (** L2: the letters of a name *)
  Lemma name_goes0 : forall p trig data fab datum k len kl D,
    has_none_of (line_blanks ++ lit """=;}") p -> nc trig p ->
    exists trig', goes p (sd trig data fab [] datum k len false true false false kl D)
                    (sd trig' data fab [] (datum ++ p) k len false true false false kl D).
  Proof using Type.
    induction p as [|c p IH]; intros trig data fab datum k len kl D Hb Hn.
    - exists trig. rewrite app_nil_r. constructor.
    - cbn [nc] in Hn. destruct Hn as [Hc Hn].
      destruct (IH (c =? 47) data fab (datum ++ [c]) k len kl D) as (t' & Ht').
      { intros x Hx. apply Hb. right; exact Hx. } { exact Hn. }
      exists t'. rewrite <- app_assoc in Ht'. econstructor; [|exact Ht'].
      specialize (Hb c (or_introl eq_refl)). apply push_step; [|intros ->; exfalso; apply Hb; cbn; tauto | exact Hc | discriminate].
      intro Hin. apply Hb. cbn in *. tauto.
  Qed.
  Lemma name_goes : forall p trig data fab k len skip kl D,
    has_none_of (line_blanks ++ lit """=;}") p -> nc trig p -> (forall r, p <> 32 :: r) -> p <> [] ->
    exists trig', goes p (sd trig data fab [] [] k len false true false skip kl D)
                    (sd trig' data fab [] p k len false true false false kl D).
  Proof using Type.
    intros [|c p] trig data fab k len skip kl D Hb Hn Hs Hne; [congruence|].
    cbn [nc] in Hn. destruct Hn as [Hc Hn].
    destruct (name_goes0 p (c =? 47) data fab [c] k len kl D) as (t' & Ht').
    { intros x Hx. apply Hb. right; exact Hx. } { exact Hn. }
    exists t'. econstructor; [|exact Ht'].
    specialize (Hb c (or_introl eq_refl)). rewrite push_step; [reflexivity| |intros ->; exfalso; apply Hb; cbn; tauto | exact Hc | intros _ ->; exact (Hs p eq_refl)].
    intro Hin. apply Hb. cbn in *. tauto.
  Qed.

  (** L2b: [ = ] after a name *)
  Lemma equals_goes : forall p b trig data fab k len kl D,
    ~ In b [9; 10; 11; 12; 13; 32; 0x85; 0xA0] ->
    goes (lit " = ") (sd trig data fab [] (p ++ [b]) k len false true false false kl D)
                     (sd false data fab (p ++ [b]) [] k len false true false false kl D).
  Proof using Type.
    intros p b trig data fab k len kl D Hb. change (lit " = ") with [32; 61; 32].
    econstructor; [apply push_step; cbn; lia|].
    econstructor; [reflexivity|].
    econstructor; [|apply goes_nil].
    assert (E : trim_var ((p ++ [b]) ++ [32]) = p ++ [b]).
    { unfold trim_var. rewrite !rev_app_distr. cbn [rev app trim_rev].
      assert (W : is_ws_byte b = false).
      { unfold is_ws_byte. cbn in Hb. destruct (N.leb_spec 9 b), (N.leb_spec b 13), (N.eqb_spec b 32), (N.eqb_spec b 0x85), (N.eqb_spec b 0xA0); cbn; try reflexivity; exfalso; apply Hb; lia. }
      change (is_ws_byte 32) with true. cbv iota. rewrite W. cbn [rev]. rewrite rev_involutive. reflexivity. }
    st. rewrite E. reflexivity.
  Qed.

  (** L3: strings *)
  Fixpoint qscan (esc : bool) (l : list N) : Prop :=
    match l with
    | [] => esc = false
    | c :: r => ~ In c line_blanks /\ (c = 34 -> esc = true) /\ qscan (c =? 92) r
    end.
  Lemma qscan_of : forall l, quoted_ok l -> qscan false l.
  Proof using Type. clear.
    assert (G : forall l pre esc, quoted_ok (pre ++ l) -> (esc = true <-> exists a, pre = a ++ [92]) -> qscan esc l).
    { induction l as [|c l IH]; intros pre esc (H1 & H2 & H3) He.
      - cbn [qscan]. destruct esc; [|reflexivity]. destruct (proj1 He eq_refl) as [a ->]. exfalso. apply (H3 a). rewrite app_nil_r. reflexivity.
      - cbn [qscan]. split; [apply H1, in_or_app; right; left; reflexivity|]. split.
        + intros ->. apply He. exact (H2 pre l eq_refl).
        + apply (IH (pre ++ [c])).
          * rewrite <- app_assoc. cbn [app]. split; [exact H1|]. split; [exact H2 | exact H3].
          * destruct (N.eqb_spec c 92) as [->|Hne].
            -- split; [intros _; exists pre; reflexivity | reflexivity].
            -- split; [discriminate|]. intros [a E]. apply app_inj_tail in E. destruct E as [_ E]. contradiction. }
    intros l H. apply (G l []); [exact H|]. split; [discriminate|]. intros [a E]. destruct a; discriminate.
  Qed.

  Lemma body_goes : forall l trig data fab var datum k len e kl D, qscan e l ->
    goes (l ++ [34]) (sd trig data fab var datum k len true true e false kl D)
                    (sd false data fab var (datum ++ l ++ [34]) k len false true false false kl D).
  Proof using Type.
    induction l as [|c l IH]; intros trig data fab var datum k len e kl D H; cbn [qscan] in H.
    - subst e. apply goes_one. reflexivity.
    - destruct H as (Hb & Hq & Hr). pose proof (IH false data fab var (datum ++ [c]) k len (c =? 92) kl D Hr) as Ht'.
      cbn [app]. rewrite <- app_assoc in Ht'. econstructor; [|exact Ht'].
      unfold TgmModel.step.
      rewrite (eqb_no c 10 _ Hb) by (cbn; tauto). rewrite (eqb_no c 13 _ Hb) by (cbn; tauto). rewrite (eqb_no c 9 _ Hb) by (cbn; tauto).
      unfold step_varedit. st. destruct (c =? 47); st.
      all: destruct (N.eqb_spec c 92) as [->|Hne]; [reflexivity|].
      all: destruct e; [reflexivity|]; destruct (N.eqb_spec c 34) as [E|_]; [discriminate (Hq E) | reflexivity].
  Qed.

  (** L3: a value *)
  Lemma value_goes : forall l, value_ok l -> forall trig data fab var datum k len kl D, var <> [] ->
    (trig = true -> forall r, l <> 47 :: r) ->
    exists trig', goes l (sd trig data fab var datum k len false true false false kl D)
                    (sd trig' data fab var (datum ++ l) k len false true false false kl D).
  Proof using Type.
    intros l H. induction H as [|c r Hc Hs Hr IH|body r Hb Hr IH]; intros trig data fab var datum k len kl D Hv Ht.
    - exists trig. rewrite app_nil_r. constructor.
    - destruct (IH (c =? 47) data fab var (datum ++ [c]) k len kl D Hv) as [t' Ht'].
      { intros E. apply Hs. apply N.eqb_eq, E. }
      exists t'. rewrite <- app_assoc in Ht'. econstructor; [|exact Ht'].
      apply push_step; [exact Hc | intros _; exact Hv | | discriminate].
      intros ->. destruct trig; [exfalso; exact (Ht eq_refl r eq_refl) | reflexivity].
    - pose proof (body_goes body false data fab var (datum ++ [34]) k len false kl D (qscan_of _ Hb)) as H1.
      destruct (IH false data fab var ((datum ++ [34]) ++ body ++ [34]) k len kl D Hv) as [t2 H2]; [discriminate|].
      exists t2. replace (34 :: body ++ 34 :: r) with ([34] ++ (body ++ [34]) ++ r) by (cbn [app]; rewrite <- app_assoc; reflexivity).
      replace (datum ++ [34] ++ (body ++ [34]) ++ r) with (((datum ++ [34]) ++ body ++ [34]) ++ r) by (rewrite <- !app_assoc; reflexivity).
      eapply goes_app; [|eapply goes_app; [exact H1 | exact H2]].
      apply goes_one. reflexivity.
  Qed.

  (** L4: one variable without its separator *)
  Definition var_text (kv : text * C) : list N := [10; 9] ++ encode (fst kv) ++ lit " = " ++ show (snd kv).
  Lemma var_goes : forall kv trig data fab k len skip kl D, name_ok (fst kv) -> constant_ok show ev (snd kv) ->
    exists trig', goes (var_text kv) (sd trig data fab [] [] k len false true false skip kl D)
                    (sd trig' data fab (encode (fst kv)) (show (snd kv)) k len false true false false kl D).
  Proof using Type.
    intros [n c] trig data fab k len skip kl D (Hsc & Hno & Hnc & Hsp & (a & b & Eab & Hws)) [Hev Hval]. cbn [fst snd] in *.
    destruct (name_goes (encode n) false data fab k len skip kl D) as [t1 H1].
    { apply none_encode; [cbn; repeat constructor | exact Hno]. }
    { apply nc_encode, nc_of, Hnc. }
    { intros r E. destruct n as [|c0 n]; [discriminate E|]. change (encode_char c0 ++ encode n = 32 :: r) in E.
      destruct (encode_char_cases c0) as [[Hc E0]|[Hc Hh]].
      - rewrite E0 in E. injection E as -> _. exact (Hsp n eq_refl).
      - destruct (encode_char_nonempty c0) as (x & y & E1). rewrite E1 in E, Hh. injection E as -> _. inversion Hh as [|? ? Hx _]; subst. cbn beta in Hx. lia. }
    { rewrite Eab. destruct a; discriminate. }
    assert (Hne : encode n <> []) by (rewrite Eab; destruct a; discriminate).
    destruct (value_goes (show c) Hval false data fab (encode n) [] k len kl D Hne) as [t2 H2]; [discriminate|].
    exists t2. unfold var_text. cbn [fst snd].
    eapply goes_app; [eapply goes_cons; [reflexivity | apply goes_one; reflexivity]|].
    eapply goes_app; [exact H1|]. eapply goes_app; [|exact H2].
    rewrite Eab. apply equals_goes, Hws.
  Qed.

  Lemma vars_insert_new : forall k (c : C) l, ~ In k (map fst l) -> vars_insert k c l = l ++ [(k, c)].
  Proof using Type. clear.
    induction l as [|[k' c'] l IH]; intro H; [reflexivity|]. cbn [vars_insert map fst] in *.
    destruct (text_eqb_spec k k') as [->|]; [exfalso; apply H; left; reflexivity|].
    cbn [app]. f_equal. apply IH. intro; apply H; right; assumption.
  Qed.

  (** the separator and the end of a block *)
  Lemma semi_goes : forall kv trig data fab k len kl D, Forall scalar (fst kv) -> ev (show (snd kv)) = Some (snd kv) ->
    ~ In (fst kv) (map fst (vars fab)) ->
    goes (lit ";") (sd trig data fab (encode (fst kv)) (show (snd kv)) k len false true false false kl D)
      (sd false data (Prefab (path fab) (vars fab ++ [kv])) [] [] k len false true false true kl D).
  Proof using Type.
    intros [n c] trig data fab k len kl D Hs He Hin. cbn [fst snd] in *. change (lit ";") with [59]. apply goes_one.
    unfold TgmModel.step. change (59 =? 10) with false. change (59 =? 13) with false. change (59 =? 9) with false. change (59 =? 47) with false.
    unfold step_varedit.
    change (59 =? 34) with false. change (59 =? 61) with false. change (59 =? 59) with true. cbv iota. cbn [andb].
    unfold insert_current_var. st. rewrite He, encode_back, vars_insert_new by assumption. reflexivity.
  Qed.
  Lemma close_goes : forall kv trig data fab k len kl D, Forall scalar (fst kv) -> encode (fst kv) <> [] -> ev (show (snd kv)) = Some (snd kv) ->
    ~ In (fst kv) (map fst (vars fab)) ->
    goes ([10; 9] ++ lit "}") (sd trig data fab (encode (fst kv)) (show (snd kv)) k len false true false false kl D)
      (sd false data (Prefab (path fab) (vars fab ++ [kv])) [] [] k len false false false false kl D).
  Proof using Type.
    intros [n c] trig data fab k len kl D Hs Hne He Hin. cbn [fst snd] in *. change ([10; 9] ++ lit "}") with [10; 9; 125].
    eapply goes_cons; [reflexivity|]. eapply goes_cons; [reflexivity|]. apply goes_one.
    unfold TgmModel.step. change (125 =? 10) with false. change (125 =? 13) with false. change (125 =? 9) with false. change (125 =? 47) with false.
    unfold step_varedit.
    change (125 =? 34) with false. change (125 =? 61) with false. change (125 =? 59) with false. change (125 =? 125) with true. cbv iota. cbn [andb].
    destruct (encode n) as [|x y] eqn:E; [congruence|].
    unfold insert_current_var. st. rewrite He. rewrite <- E, encode_back, vars_insert_new by assumption. reflexivity.
  Qed.

  (** L5: a variable block *)
  Lemma vars_goes : forall l trig data fab k len skip kl D, l <> [] ->
    Forall (fun kv => name_ok (fst kv) /\ constant_ok show ev (snd kv)) l ->
    NoDup (map fst (vars fab) ++ map fst l) ->
    goes (save_vars show l ++ [10; 9] ++ lit "}") (sd trig data fab [] [] k len false true false skip kl D)
      (sd false data (Prefab (path fab) (vars fab ++ l)) [] [] k len false false false false kl D).
  Proof using Type.
    induction l as [|kv l IH]; intros trig data fab k len skip kl D Hne Hok Hnd; [congruence|].
    inversion Hok as [|? ? [Hn Hc] Hok']; subst.
    assert (Hfresh : ~ In (fst kv) (map fst (vars fab))).
    { intro Hin. cbn [map] in Hnd. apply NoDup_remove_2 in Hnd. apply Hnd, in_or_app. left; exact Hin. }
    destruct (var_goes kv trig data fab k len skip kl D Hn Hc) as [t1 H1].
    assert (Hne' : encode (fst kv) <> []). { destruct Hn as (_ & _ & _ & _ & a & b & E & _). rewrite E. destruct a; discriminate. }
    destruct l as [|kv2 l].
    - replace (save_vars show [kv] ++ [10; 9] ++ lit "}") with (var_text kv ++ [10; 9] ++ lit "}") by (destruct kv; cbn [save_vars]; rewrite app_nil_r; reflexivity).
      eapply goes_app; [exact H1|]. apply close_goes; [apply Hn | exact Hne' | apply Hc | exact Hfresh].
    - replace (save_vars show (kv :: kv2 :: l) ++ [10; 9] ++ lit "}") with (var_text kv ++ lit ";" ++ (save_vars show (kv2 :: l) ++ [10; 9] ++ lit "}")).
      2: { destruct kv as [n c]. unfold var_text. cbn [fst snd]. 
           change (save_vars show ((n, c) :: kv2 :: l)) with ([10; 9] ++ encode n ++ lit " = " ++ show c ++ lit ";" ++ save_vars show (kv2 :: l)).
           rewrite <- !app_assoc. reflexivity. }
      eapply goes_app; [exact H1|]. eapply goes_app; [apply semi_goes; [apply Hn | apply Hc | exact Hfresh]|].
      replace (vars fab ++ kv :: kv2 :: l) with ((vars fab ++ [kv]) ++ kv2 :: l) by (rewrite <- app_assoc; reflexivity).
      apply (IH false data (Prefab (path fab) (vars fab ++ [kv])) k len true kl D); [discriminate | exact Hok'|].
      cbn [vars]. rewrite map_app, <- app_assoc. exact Hnd.
  Qed.

  (** L6: a prefab, up to the byte after it *)
  Definition after_prefab (trig : bool) (data : list (prefab C)) (f : prefab C) (k len kl : Z) (D : list (Z * list (prefab C))) : dst :=
    match vars f with
    | [] => sd trig data prefab0 [] (encode (path f)) k len false false false false kl D
    | _ => sd trig data f [] [] k len false false false false kl D
    end.
  Lemma prefab_goes : forall f data k len kl D, prefab_ok show ev f ->
    exists trig', goes (save_prefab show f) (sd false data prefab0 [] [] k len false false false false kl D)
                    (after_prefab trig' data f k len kl D).
  Proof using Type.
    intros [p vs] data k len kl D ((Hsc & Hno & Hnc) & Hnd & Hok). cbn [path vars] in *. unfold save_prefab, after_prefab. cbn [path vars].
    destruct (path_goes (encode p) false data prefab0 [] k len kl D) as [t1 H1].
    { apply none_encode; [cbn; repeat constructor | exact Hno]. } { apply nc_encode, nc_of, Hnc. }
    destruct vs as [|kv vs].
    - exists t1. rewrite app_nil_r. exact H1.
    - exists false. eapply goes_app; [exact H1|]. eapply goes_app.
      + change (lit "{") with [123]. apply goes_one.
        transitivity (Go (set_varedit true (take_path (sd false data prefab0 [] (encode p) k len false false false false kl D)))); [reflexivity|].
        st. rewrite encode_back by exact Hsc. reflexivity.
      + apply (vars_goes (kv :: vs) false data (Prefab p []) k len false kl D); [discriminate | exact Hok | exact Hnd].
  Qed.
  Lemma finish_after : forall trig data f k len kl D, prefab_ok show ev f ->
    finish_prefab (after_prefab trig data f k len kl D) = sd trig (data ++ [f]) prefab0 [] [] k len false false false false kl D.
  Proof using Type.
    intros trig data [p vs] k len kl D ((Hsc & _ & _) & _ & _). cbn [path] in Hsc. unfold after_prefab. cbn [vars path].
    destruct vs as [|kv vs].
    - unfold finish_prefab, sd. cbn [curr_prefab prefab0 path curr_datum].
      destruct (encode p) as [|x y] eqn:E.
      + apply encode_nil in E. subst p. reflexivity.
      + unfold take_path. cbn [curr_data curr_datum curr_prefab vars]. rewrite <- E, encode_back by exact Hsc. reflexivity.
    - unfold finish_prefab, sd. cbn [curr_prefab path curr_datum]. destruct p; reflexivity.
  Qed.

  Lemma sd_comma : forall trig data f k len kl D, prefab_ok show ev f ->
    goes (lit "," ++ [10]) (after_prefab trig data f k len kl D) (sd false (data ++ [f]) prefab0 [] [] k len false false false false kl D).
  Proof using Type.
    intros trig data f k len kl D Hf. change (lit "," ++ [10]) with [44; 10].
    econstructor; [|eapply goes_one].
    - assert (E : TgmModel.step ev 44 (after_prefab trig data f k len kl D) = Go (finish_prefab (after_prefab false data f k len kl D))) by (unfold after_prefab; destruct (vars f); reflexivity).
      rewrite E, finish_after by exact Hf. reflexivity.
    - reflexivity.
  Qed.

  (** between entries *)
  Definition so (kl : Z) (after : bool) (D : list (Z * list (prefab C))) : dst :=
    Dst false false [] prefab0 [] [] 0 0 false false false false after false false kl D.

  Lemma sd_close : forall trig data f k len kl D, prefab_ok show ev f ->
    goes (lit ")" ++ [10]) (after_prefab trig data f k len kl D) (so kl true (dict_insert k (data ++ [f]) D)).
  Proof using Type.
    intros trig data f k len kl D Hf. change (lit ")" ++ [10]) with [41; 10].
    econstructor; [|eapply goes_one].
    - assert (E : TgmModel.step ev 41 (after_prefab trig data f k len kl D) =
        let s := finish_prefab (after_prefab false data f k len kl D) in
        Go (Dst (in_comment_line s) (comment_trigger s) [] (curr_prefab s) (curr_var s) (curr_datum s) 0 0
            (in_quote_block s) (in_key_block s) false (in_varedit_block s)
            true (escaping s) (skip_whitespace s) (d_key_length s) (dict_insert (curr_key s) (curr_data s) (d_dictionary s)))) by (unfold after_prefab; destruct (vars f); reflexivity).
      rewrite E, finish_after by exact Hf. reflexivity.
    - reflexivity.
  Qed.

  (** L7: the prefabs of an entry *)
  Lemma prefabs_goes : forall l data k len kl D, l <> [] -> Forall (prefab_ok show ev) l ->
    goes (save_prefabs show l ++ lit ")" ++ [10]) (sd false data prefab0 [] [] k len false false false false kl D)
      (so kl true (dict_insert k (data ++ l) D)).
  Proof using Type.
    induction l as [|f l IH]; intros data k len kl D Hne Hok; [congruence|]. inversion Hok as [|? ? Hf Hl]; subst.
    destruct (prefab_goes f data k len kl D Hf) as [t1 H1]. destruct l as [|f2 l].
    - cbn [save_prefabs]. rewrite app_nil_r. eapply goes_app; [exact H1|]. apply sd_close, Hf.
    - change (save_prefabs show (f :: f2 :: l)) with (save_prefab show f ++ lit "," ++ [10] ++ save_prefabs show (f2 :: l)).
      rewrite <- !app_assoc. eapply goes_app; [exact H1|]. rewrite (app_assoc (lit ",") [10]). eapply goes_app; [apply sd_comma, Hf|].
      replace (data ++ f :: f2 :: l) with ((data ++ [f]) ++ f2 :: l) by (rewrite <- app_assoc; reflexivity).
      apply IH; [discriminate | exact Hl].
  Qed.

  (** L8: the key of an entry *)
  Definition sk (trig : bool) (k len kl : Z) (D : list (Z * list (prefab C))) : dst :=
    Dst false trig [] prefab0 [] [] k len false true false false false false false kl D.

  Lemma letter_byte : forall c, is_letter c -> 65 <= N_of_ascii c <= 122.
  Proof using Type. clear. unfold is_letter. cbv zeta. intros c H. lia. Qed.

  Lemma push_key_letter : forall c k len d k', base_52_reverse c = Some d -> advance_key k d = Some k' -> (len + 1 <= 255)%Z ->
    push_key (N_of_ascii c) k len = inl (Some (k', len + 1)%Z).
  Proof using Type. clear.
    intros c k len d k' H1 H2 H3. unfold push_key. rewrite ascii_N_embedding, H1, H2.
    destruct (Z.leb_spec (len + 1) 255); [reflexivity | lia].
  Qed.

  Lemma key_goes : forall s trig k len kl D v, read_key_from k s = Some v -> (len + Z.of_nat (List.length s) <= 255)%Z ->
    exists trig', goes (map N_of_ascii s) (sk trig k len kl D) (sk trig' v (len + Z.of_nat (List.length s))%Z kl D).
  Proof using Type.
    induction s as [|c s IH]; intros trig k len kl D v H Hl; cbn [read_key_from] in H.
    - injection H as <-. exists trig. cbn [List.length]. rewrite Z.add_0_r. constructor.
    - destruct (base_52_reverse c) as [d|] eqn:Ed; [|discriminate]. destruct (advance_key k d) as [k'|] eqn:Ek; [|discriminate].
      cbn [List.length] in *. rewrite Nat2Z.inj_succ in *.
      destruct (IH false k' (len + 1)%Z kl D v H) as [t' Ht']; [lia|].
      exists t'. cbn [map]. replace (len + Z.succ (Z.of_nat (List.length s)))%Z with (len + 1 + Z.of_nat (List.length s))%Z by lia.
      econstructor; [|exact Ht'].
      apply base_52_some in Ed as Hlet. destruct Hlet as [Hlet _]. pose proof (letter_byte c Hlet) as Hr.
      assert (Hb : ~ In (N_of_ascii c) [9; 10; 13; 47; 34]) by (cbn; lia).
      unfold TgmModel.step.
      rewrite (eqb_no _ 10 _ Hb) by (cbn; tauto). rewrite (eqb_no _ 13 _ Hb) by (cbn; tauto). rewrite (eqb_no _ 9 _ Hb) by (cbn; tauto). rewrite (eqb_no _ 47 _ Hb) by (cbn; tauto).
      unfold step_outer, sk. rewrite (eqb_no _ 34 _ Hb) by (cbn; tauto). st.
      rewrite (push_key_letter c k len d k') by (assumption || lia). reflexivity.
  Qed.

  Lemma format_key_bytes : forall len k kb, (1 <= len <= 3)%Z -> (0 <= k <= KEY_MAX)%Z -> key_bytes (format_key len k) = Some kb ->
    exists s, kb = map N_of_ascii s /\ Z.of_nat (List.length s) = len /\ Forall is_letter s /\ read_key s = Some k.
  Proof using Type. clear.
    intros len k kb Hl Hk H. destruct (format_key len k) as [s|] eqn:E; [|discriminate]. injection H as <-.
    destruct (format_key_lemma len k) as [_ G]; [lia | exact Hk|]. destruct (G s E) as (G1 & G2 & _ & G4). exists s. auto.
  Qed.

  (** L8: one entry *)
  Lemma entry_goes : forall k fabs kb len kl after D, (1 <= len <= 3)%Z -> (kl = 0 \/ kl = len)%Z -> (0 <= k <= KEY_MAX)%Z ->
    fabs <> [] -> Forall (prefab_ok show ev) fabs -> key_bytes (format_key len k) = Some kb ->
    goes (lit """" ++ kb ++ lit """ = (" ++ [10] ++ save_prefabs show fabs ++ lit ")" ++ [10]) (so kl after D)
      (so len true (dict_insert k fabs D)).
  Proof using Type.
    intros k fabs kb len kl after D Hlen Hkl Hk Hne Hok Hkb.
    destruct (format_key_bytes len k kb Hlen Hk Hkb) as (s & -> & Hs & Hlet & Hread).
    destruct (key_goes s false 0 0 kl D k Hread) as [t' Ht']; [lia|]. rewrite Z.add_0_l, Hs in Ht'.
    eapply goes_app; [change (lit """") with [34]; apply goes_one; reflexivity|].
    eapply goes_app; [exact Ht'|].
    rewrite (app_assoc (lit """ = (") [10]). eapply goes_app; [|apply (prefabs_goes fabs [] k len len D); assumption].
    change (lit """ = (" ++ [10]) with [34; 32; 61; 32; 40; 10].
    econstructor.
    { unfold TgmModel.step, sk. cbn. unfold step_outer. cbn. 
      replace ((kl =? 0) || (kl =? len))%Z with true by (destruct Hkl as [->| ->]; [reflexivity | rewrite Z.eqb_refl, orb_true_r; reflexivity]). reflexivity. }
    do 4 (econstructor; [reflexivity|]). apply goes_one. reflexivity.
  Qed.

  Lemma dict_insert_last : forall k (v : list (prefab C)) D, Forall (fun k' => k' < k)%Z (map fst D) -> dict_insert k v D = D ++ [(k, v)].
  Proof using Type. clear.
    induction D as [|[k' v'] D IH]; intro H; [reflexivity|]. inversion H as [|? ? H1 H2]; subst. cbn [dict_insert fst] in *.
    destruct (Z.ltb_spec k k'); [lia|]. destruct (Z.eqb_spec k k'); [lia|]. cbn [app]. f_equal. apply IH, H2.
  Qed.

  (** L9: the dictionary *)
  Definition entry_ok (e : Z * list (prefab C)) : Prop := (0 <= fst e <= KEY_MAX)%Z /\ snd e <> [] /\ Forall (prefab_ok show ev) (snd e).
  Lemma dict_goes : forall d len kl after D bs, (1 <= len <= 3)%Z -> (kl = 0 \/ kl = len)%Z -> Forall entry_ok d ->
    StronglySorted Z.lt (map fst (D ++ d)) -> save_dict show len d = Some bs -> d <> [] ->
    goes bs (so kl after D) (so len true (D ++ d)).
  Proof using Type.
    induction d as [|[k fabs] d IH]; intros len kl after D bs Hlen Hkl Hok Hs Hsave Hne; [congruence|].
    inversion Hok as [|? ? (Hk & Hf & Hp) Hd]; subst. cbn [fst snd] in *. cbn [save_dict] in Hsave.
    destruct (key_bytes (format_key len k)) as [kb|] eqn:Ek; [|discriminate]. destruct (save_dict show len d) as [rest|] eqn:Er; [|discriminate].
    assert (Ebs : bs = lit """" ++ kb ++ lit """ = (" ++ [10] ++ save_prefabs show fabs ++ lit ")" ++ [10] ++ rest) by congruence. clear Hsave.
    assert (Hlast : dict_insert k fabs D = D ++ [(k, fabs)]).
    { apply dict_insert_last. rewrite map_app in Hs. cbn [map fst] in Hs. clear - Hs. induction (map fst D) as [|x l IHl]; [constructor|].
      cbn [app] in Hs. inversion Hs as [|? ? Hs' Hx]; subst. constructor; [|apply IHl, Hs'].
      rewrite Forall_forall in Hx. apply Hx, in_or_app. right. left. reflexivity. }
    pose proof (entry_goes k fabs kb len kl after D Hlen Hkl Hk Hf Hp Ek) as H1. rewrite Hlast in H1.
    assert (E : lit """" ++ kb ++ lit """ = (" ++ [10] ++ save_prefabs show fabs ++ lit ")" ++ [10] ++ rest =
                (lit """" ++ kb ++ lit """ = (" ++ [10] ++ save_prefabs show fabs ++ lit ")" ++ [10]) ++ rest) by (rewrite <- !app_assoc; reflexivity).
    rewrite Ebs, E. eapply goes_app; [exact H1|]. destruct d as [|e d].
    - cbn [save_dict] in Er. injection Er as <-. constructor.
    - replace (D ++ (k, fabs) :: e :: d) with ((D ++ [(k, fabs)]) ++ e :: d) by (rewrite <- app_assoc; reflexivity).
      apply IH; [exact Hlen | right; reflexivity | exact Hd | rewrite <- app_assoc; exact Hs | exact Er | discriminate].
  Qed.

  Lemma header_goes : goes (TGM_HEADER ++ [10]) dst0 (so 0 false []).
  Proof using Type.
    assert (G : forall l s, in_comment_line s = true -> ~ In 10 l -> ~ In 13 l -> goes l s s).
    { induction l as [|c l IH]; intros s Hs H1 H2; [constructor|]. econstructor; [|apply IH; [exact Hs | |]; intro; [apply H1 | apply H2]; right; assumption].
      unfold TgmModel.step. destruct (N.eqb_spec c 10) as [->|]; [exfalso; apply H1; left; reflexivity|]. destruct (N.eqb_spec c 13) as [->|]; [exfalso; apply H2; left; reflexivity|].
      cbn [orb]. rewrite Hs. reflexivity. }
    unfold TGM_HEADER. change (lit "//MAP CONVERTED BY dmm2tgm.py THIS HEADER COMMENT PREVENTS RECONVERSION, DO NOT REMOVE")
      with (47 :: 47 :: lit "MAP CONVERTED BY dmm2tgm.py THIS HEADER COMMENT PREVENTS RECONVERSION, DO NOT REMOVE").
    cbn [app]. econstructor; [reflexivity|]. econstructor; [reflexivity|]. eapply goes_app.
    - apply G; [reflexivity | |]; cbn; lia.
    - apply goes_one. reflexivity.
  Qed.
End Dict.
