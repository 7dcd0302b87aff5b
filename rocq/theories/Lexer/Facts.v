(** Positions of the lexer in its input; every part of the lexer terminates, does not panic and moves forward. *)
From Coq Require Import List NArith ZArith Lia Bool String.
From Verif Require Import Common.Text Common.Utf8 Lexer.Tracker Lexer.Punct Lexer.Model Lexer.Spec.
Import ListNotations.
Open Scope N_scope.

(** the state of [at_line_head] after reading the bytes [l]: the last byte and all before it on its line are blanks *)
Definition head_of (l : list byte) : bool :=
  match rev l with [] => true | b :: d => forallb blank (last_line (rev d)) && blank b end.
Lemma head_of_snoc : forall l b, head_of (l ++ [b]) = forallb blank (last_line l) && blank b.
Proof. intros l b. unfold head_of. rewrite rev_app_distr. cbn [rev app]. rewrite rev_involutive. reflexivity. Qed.
Lemma last_line_go : forall r acc,
  (fix go (r acc : list byte) := match r with [] => acc | b :: r' => if b =? NL then acc else go r' (b :: acc) end) r acc =
  (fix go (r acc : list byte) := match r with [] => acc | b :: r' => if b =? NL then acc else go r' (b :: acc) end) r [] ++ acc.
Proof.
  induction r as [|x r IH]; intro acc; [reflexivity|]. destruct (x =? NL); [reflexivity|]. rewrite IH, (IH [x]), <- app_assoc. reflexivity.
Qed.
Lemma last_line_snoc : forall l b, last_line (l ++ [b]) = if b =? NL then [] else last_line l ++ [b].
Proof. intros l b. unfold last_line. rewrite rev_app_distr. cbn [rev app]. destruct (b =? NL); [reflexivity|]. apply last_line_go. Qed.
Lemma last_line_nil : last_line [] = [].
Proof. reflexivity. Qed.

Section POS.
Variable content : list byte.
Notation len := (List.length content).

(** [k] bytes are consumed and nothing is put back *)
Definition at_ (k : nat) (L : lexer) : Prop :=
  pending L = None /\ (k <= len)%nat /\ reached (firstn k content) (skipn k content) (inp L) /\ at_line_head L = head_of (firstn k content).
(** [k] bytes are consumed and the byte number [k] was read and put back *)
Definition held (k : nat) (L : lexer) : Prop :=
  exists b, nth_error content k = Some b /\ pending L = Some b /\ reached (firstn (S k) content) (skipn (S k) content) (inp L) /\
    at_line_head L = head_of (firstn (S k) content).
(** the end of the input was seen *)
Definition ended (k : nat) (L : lexer) : Prop := k = len /\ pending L = None /\ rest (inp L) = [] /\ at_line_end (inp L) = false /\ location L = end_place content.
Definition spot (k : nat) (L : lexer) : Prop := at_ k L \/ held k L \/ ended k L.
(** what reading a byte leaves alone *)
Definition same (L L' : lexer) : Prop :=
  final_newline L' = final_newline L /\ stack L' = stack L /\ errs L' = errs L /\ close_allowed L' = close_allowed L.

Lemma firstn_S_nth : forall k b, nth_error content k = Some b -> firstn (S k) content = firstn k content ++ [b].
Proof using Type.
  induction content as [|x l IH]; intros [|k] b H; cbn in H; try discriminate; [injection H as ->; reflexivity|].
  cbn [firstn app]. f_equal. exact (IH _ _ H).
Qed.
Lemma skipn_nth : forall k b, nth_error content k = Some b -> skipn k content = b :: skipn (S k) content.
Proof using Type.
  induction content as [|x l IH]; intros [|k] b H; cbn in H; try discriminate; [injection H as ->; reflexivity|].
  cbn [skipn]. exact (IH _ _ H).
Qed.
Lemma spot_le : forall k L, spot k L -> (k <= len)%nat.
Proof using Type.
  intros k L [(_ & H & _)|[(b & H & _)|(-> & _)]]; [exact H| |lia].
  apply Nat.lt_le_incl, nth_error_Some. rewrite H. discriminate.
Qed.
Lemma spot_bytes : forall k L, spot k L -> bytes L = skipn k content.
Proof using Type.
  intros k L [(H1 & _ & (H2 & _) & _)|[(b & H & H1 & (H2 & _) & _)|(-> & H1 & H2 & _)]]; unfold bytes; rewrite H1, H2.
  - reflexivity.
  - symmetry. apply skipn_nth. exact H.
  - rewrite skipn_all. reflexivity.
Qed.
Lemma spot_fuel : forall k L, spot k L -> fuel_of L = S (S (len - k)).
Proof using Type. intros k L H. unfold fuel_of. rewrite (spot_bytes _ _ H), skipn_length. reflexivity. Qed.

Lemma lnext_spot : forall k L, spot k L ->
  (exists b L1, lnext L = (Some b, L1) /\ nth_error content k = Some b /\ at_ (S k) L1 /\
      location L1 = place (firstn k content) /\ same L L1) \/
  (k = len /\ exists L1, lnext L = (None, L1) /\ ended k L1 /\ same L L1).
Proof using Type.
  intros k L [(H1 & Hk & H2 & Hh)|[(b & H & H1 & H2 & Hh)|(-> & H1 & H2 & H3 & H4)]].
  - unfold lnext. rewrite H1. destruct (nth_error content k) as [b|] eqn:En.
    + left. rewrite (skipn_nth _ _ En) in H2. destruct (reached_step _ _ _ _ H2) as (E1 & E2 & E3).
      destruct (step (inp L)) as [r t] eqn:Es. cbn [fst snd] in *. subst r. eexists b, _. split; [reflexivity|]. split; [reflexivity|].
      split; [|split; [exact E2 | unfold same; cbn; auto]]. split; [reflexivity|].
      assert (k < len)%nat by (apply nth_error_Some; rewrite En; discriminate). split; [lia|]. rewrite (firstn_S_nth _ _ En). split; [exact E3|]. rewrite head_of_snoc. cbn [at_line_head].
      assert (Ll : line t = (if at_line_end (inp L) then line (inp L) + 1 else line (inp L))) by (unfold step in Es; destruct H2 as [-> _] in Es; injection Es as <-; reflexivity).
      unfold blank. destruct H2 as [_ [(Ed & El & Ea)|(d & c & Ed & _ & Ea)]]; rewrite Ed, Ll, Ea in *.
      * rewrite El. cbn. destruct (b =? 9), (b =? 32); reflexivity.
      * rewrite last_line_snoc. rewrite Hh, head_of_snoc. unfold NL. destruct (c =? 10).
        -- assert (Et : (line (inp L) <? line (inp L) + 1) = true) by (apply N.ltb_lt; lia). rewrite Et. cbn [forallb]. destruct (b =? 9), (b =? 32); reflexivity.
        -- rewrite N.ltb_irrefl, forallb_app. cbn [forallb]. rewrite andb_true_r. fold (blank c).
           destruct (b =? 9), (b =? 32); cbn [negb andb orb]; rewrite ?andb_true_r, ?andb_false_r; reflexivity.
    + right. assert (k = len) by (apply nth_error_None in En; lia). subst k. split; [reflexivity|]. rewrite skipn_all in H2.
      pose proof (step_end _ _ H2) as [E1 E2]. destruct H2 as [Hr _]. unfold step in *. rewrite Hr in *. eexists. split; [reflexivity|].
      rewrite firstn_all in E2. split; [unfold ended; cbn; auto | unfold same; cbn; auto].
  - left. unfold lnext. rewrite H1. eexists b, _. split; [reflexivity|]. split; [exact H|]. split; [|split; [|unfold same; cbn; auto]].
    + split; [reflexivity|]. split; [apply nth_error_Some; rewrite H; discriminate|]. split; [exact H2 | exact Hh].
    + destruct H2 as [_ [(E & _)|(d & c & E & P & _)]]; rewrite (firstn_S_nth _ _ H) in E; [destruct (firstn k content); discriminate|].
      apply app_inj_tail in E. destruct E as [-> _]. exact P.
  - right. split; [reflexivity|]. unfold lnext. rewrite H1. unfold step. rewrite H2. eexists. split; [reflexivity|]. split; [|unfold same; cbn; auto].
    unfold ended, location in *. cbn. rewrite H3. auto.
Qed.
Lemma put_back_spot : forall k b L, nth_error content k = Some b -> at_ (S k) L ->
  exists L', put_back (Some b) L = Ok L' /\ spot k L' /\ same L L' /\ location L' = location L.
Proof using Type.
  intros k b L H (H1 & H2 & H3 & H4). unfold put_back. rewrite H1. eexists. split; [reflexivity|]. split; [|split; [unfold same; cbn; auto | reflexivity]].
  right. left. exists b. cbn. auto.
Qed.
Lemma put_none_spot : forall k L, pending L = None -> spot k L ->
  exists L', put_back None L = Ok L' /\ spot k L' /\ same L L' /\ location L' = location L.
Proof using Type.
  intros k L H1 H. unfold put_back. rewrite H1. eexists. split; [reflexivity|]. split; [|split; [unfold same; cbn; auto | reflexivity]].
  destruct H as [(_ & H2 & H3 & H5)|[(b & _ & H & _)|(H2 & _ & H3 & H4)]]; [left; split; [reflexivity|]; cbn; auto | congruence | right; right; unfold ended; cbn; auto].
Qed.
Lemma spot_inp : forall k L L', spot k L -> inp L' = inp L -> pending L' = pending L -> at_line_head L' = at_line_head L -> spot k L'.
Proof using Type. intros k L L' H H1 H2 H3. unfold spot, at_, held, ended, location in *. rewrite H1, H2, H3. exact H. Qed.
Lemma ended_inp : forall k L L', ended k L -> inp L' = inp L -> pending L' = pending L -> ended k L'.
Proof using Type. intros k L L' H H1 H2. unfold ended, location in *. rewrite H1, H2. exact H. Qed.
Lemma at_inp : forall k L L', at_ k L -> inp L' = inp L -> pending L' = pending L -> at_line_head L' = at_line_head L -> at_ k L'.
Proof using Type. intros k L L' H H1 H2 H3. unfold at_ in *. rewrite H1, H2, H3. exact H. Qed.
Lemma at_spot : forall k L, at_ k L -> spot k L.
Proof using Type. intros; left; assumption. Qed.
Lemma ended_spot : forall k L, ended k L -> spot k L.
Proof using Type. intros; right; right; assumption. Qed.

(** open interpolations have a positive depth and a terminator *)
Definition wf (L : lexer) : Prop := Forall (fun i => (1 <= i_depth i)%nat /\ i_end i <> []) (stack L).

(** *** A step that succeeds, moves forward (at least [d] bytes) and leaves [final_newline] alone *)
Definition good {R : Type} (d k : nat) (fin : bool) (x : res (R * lexer)) : Prop :=
  exists r L' k', x = Ok (r, L') /\ (d + k <= k')%nat /\ spot k' L' /\ wf L' /\ final_newline L' = fin.
Lemma good_bind : forall {R S : Type} d k fin (x : res (R * lexer)) (g : R * lexer -> res (S * lexer)),
  good d k fin x -> (forall r L' k', (d + k <= k')%nat -> spot k' L' -> wf L' -> final_newline L' = fin -> good 0 k' fin (g (r, L'))) ->
  good d k fin (bind x g).
Proof using Type.
  intros R S d k fin x g (r & L' & k' & -> & H1 & H2 & H3 & H4) H. cbn [bind].
  destruct (H r L' k' H1 H2 H3 H4) as (r' & L'' & k'' & E & H5 & H6 & H7 & H8). exists r', L'', k''. split; [exact E|]. split; [lia | auto].
Qed.
Lemma good_ok : forall {R : Type} k fin (r : R) L, spot k L -> wf L -> final_newline L = fin -> good 0 k fin (Ok (r, L)).
Proof using Type. intros R k fin r L H1 H2 H3. exists r, L, k. auto. Qed.
Lemma good_weaken : forall {R : Type} d d' k k' fin (x : res (R * lexer)), good d' k' fin x -> (d + k <= d' + k')%nat -> good d k fin x.
Proof using Type. intros R d d' k k' fin x (r & L' & k'' & E & H1 & H) Hd. exists r, L', k''. split; [exact E|]. split; [lia | exact H]. Qed.

Lemma same_wf : forall L L', same L L' -> wf L -> wf L'.
Proof using Type. intros L L' (_ & H & _) W. unfold wf. rewrite H. exact W. Qed.
Lemma same_final : forall L L' fin, same L L' -> final_newline L = fin -> final_newline L' = fin.
Proof using Type. intros L L' fin (H & _) E. congruence. Qed.
End POS.

(** read a byte: two cases *)
Ltac rd H b L1 :=
  let Hn := fresh "Hn" in let Hat := fresh "Hat" in let Hl := fresh "Hl" in let Hs := fresh "Hs" in let E := fresh "E" in
  let Hk := fresh "Hk" in
  destruct (lnext_spot _ _ _ H) as [(b & L1 & E & Hn & Hat & Hl & Hs)|(Hk & L1 & E & Hat & Hs)]; rewrite E.

Section GOOD.
Variable content : list byte.
Notation len := (List.length content).
Variable F : Type.
Variable parse_f32 : text -> option F.
Variable show_f32 : F -> text.
Variable f32_zero : F.
Notation good := (good content).
Notation spot := (spot content).

Hint Resolve at_spot ended_spot same_wf same_final : lex.
Ltac fin := match goal with
  | |- Facts.good _ 0 _ _ (Ok _) => apply good_ok; [eauto with lex | eauto with lex | eauto with lex]
  end.

Lemma nth_lt : forall k b, nth_error content k = Some b -> (k < len)%nat.
Proof using Type. intros k b H. apply nth_error_Some. rewrite H. discriminate. Qed.

Lemma block_loop_good : forall fuel k L depth b1 doc acc fin, spot k L -> wf L -> final_newline L = fin -> (len - k < fuel)%nat ->
  good 0 k fin (block_loop fuel depth b1 doc acc L).
Proof using Type.
  induction fuel as [|fuel IH]; intros k L depth b1 doc acc fin H W Hf Hfuel; [lia|]. cbn [block_loop].
  rd H b L1; [pose proof (nth_lt _ _ Hn)|].
  - assert (R : forall dd acc', good 0 k fin (block_loop fuel dd b doc acc' L1)).
    { intros dd acc'. apply (good_weaken _ 0 0 k (S k)); [|lia]. apply IH; eauto with lex. lia. }
    destruct ((b1 =? 47) && (b =? 42)); [apply R|]. destruct ((b1 =? 42) && (b =? 47)); [|apply R].
    destruct (depth - 1 =? 0)%nat; [|apply R]. apply (good_weaken _ 0 0 k (S k)); [fin | lia].
  - apply good_ok; [eapply spot_inp; [apply ended_spot; exact Hat | reflexivity | reflexivity | reflexivity] | exact (same_wf _ _ Hs W) | exact (same_final _ _ _ Hs Hf)].
Qed.
Lemma line_loop_good : forall fuel k L bs doc acc fin, spot k L -> wf L -> final_newline L = fin -> (len - k < fuel)%nat ->
  good 0 k fin (line_loop fuel bs doc acc L).
Proof using Type.
  induction fuel as [|fuel IH]; intros k L bs doc acc fin H W Hf Hfuel; [lia|]. cbn [line_loop].
  rd H b L1; [pose proof (nth_lt _ _ Hn)|].
  - assert (R : forall x acc', good 0 k fin (line_loop fuel x doc acc' L1)).
    { intros dd acc'. apply (good_weaken _ 0 0 k (S k)); [|lia]. apply IH; eauto with lex. lia. }
    destruct (b =? 13); [apply R|]. destruct bs.
    + destruct (b =? 10); [|apply R]. apply (good_weaken _ 0 0 k (S k)); [|lia]. apply IH; [eapply spot_inp; [apply at_spot; exact Hat| reflexivity | reflexivity | reflexivity] | exact (same_wf _ _ Hs W) | exact (same_final _ _ _ Hs Hf) | lia].
    + destruct (N.eqb_spec b 10) as [->|_]; [|apply R]. destruct (put_back_spot _ _ _ _ Hn Hat) as (L2 & -> & H2 & Hs2 & _). cbn [bind].
      apply good_ok; eauto with lex.
  - fin.
Qed.
Lemma skip_block_good : forall k L fin, spot k L -> wf L -> final_newline L = fin -> good 0 k fin (skip_block_comments F L).
Proof using Type.
  intros k L fin H W Hf. unfold skip_block_comments. rd H b L1.
  - pose proof (nth_lt _ _ Hn). apply (good_weaken _ 0 0 k (S k)); [|lia].
    assert (R : forall x y z f, good 0 (S k) fin (do (txt, L2) <- block_loop (fuel_of L1) x y z [] L1; Ok (f txt : option (token F), L2))).
    { intros x y z f. apply good_bind; [apply block_loop_good; eauto with lex; rewrite (spot_fuel content (S k)) by eauto with lex; lia|]. intros. fin. }
    destruct (b =? 42); [apply (R _ _ _ (fun txt => _))|]. destruct (b =? 33); [apply (R _ _ _ (fun txt => _))|]. apply (R _ _ _ (fun txt => _)).
  - apply good_bind; [apply block_loop_good; eauto with lex; rewrite (spot_fuel content k) by eauto with lex; lia|]. intros. fin.
Qed.
Lemma skip_line_good : forall k L fin, spot k L -> wf L -> final_newline L = fin -> good 0 k fin (skip_line_comment F L).
Proof using Type.
  intros k L fin H W Hf. unfold skip_line_comment. rd H b L1.
  - pose proof (nth_lt _ _ Hn). destruct (N.eqb_spec b 10) as [->|_].
    + destruct (put_back_spot _ _ _ _ Hn Hat) as (L2 & -> & H2 & Hs2 & _). cbn [bind]. apply good_ok; eauto with lex.
    + apply (good_weaken _ 0 0 k (S k)); [|lia]. apply good_bind; [apply line_loop_good; eauto with lex; rewrite (spot_fuel content (S k)) by eauto with lex; lia|]. intros. fin.
  - apply good_bind; [apply line_loop_good; eauto with lex; rewrite (spot_fuel content k) by eauto with lex; lia|]. intros. fin.
Qed.

(** numbers *)
Lemma hash_loop_good : forall n k L buf after fin, spot k L -> wf L -> final_newline L = fin ->
  exists r L' k', hash_loop n buf after L = (r, L') /\ (k <= k')%nat /\ spot k' L' /\ wf L' /\ final_newline L' = fin.
Proof using Type.
  induction n as [|n IH]; intros k L buf after fin H W Hf; cbn [hash_loop]; [eauto 8|].
  rd H b L1.
  - destruct (existsb _ _); [|eauto 12 with lex].
    destruct (IH (S k) L1 buf (after ++ [b]) fin) as (r & L' & k' & E' & H1 & H2); eauto with lex. rewrite E'. exists r, L', k'. split; [reflexivity|]. split; [lia | exact H2].
  - eauto 12 with lex.
Qed.
Lemma number_loop_good : forall fuel k L i e r buf fin, spot k L -> wf L -> final_newline L = fin -> (len - k < fuel)%nat ->
  good 0 k fin (number_loop fuel i e r buf L).
Proof using Type.
  induction fuel as [|fuel IH]; intros k L i e r buf fin H W Hf Hfuel; [lia|]. cbn [number_loop].
  rd H b L1.
  - pose proof (nth_lt _ _ Hn).
    assert (R : forall i e r buf, good 0 k fin (number_loop fuel i e r buf L1)).
    { intros. apply (good_weaken _ 0 0 k (S k)); [|lia]. apply IH; eauto with lex. lia. }
    destruct (b =? 95); [apply R|]. destruct (_ || _ || _); [destruct (r =? 16); apply R|]. destruct (_ && e); [apply R|].
    destruct (b =? 35).
    { destruct (hash_loop_good 3 (S k) L1 (buf ++ [b]) [] fin) as (x & L2 & k2 & E2 & H1 & H2 & H3 & H4); eauto with lex. rewrite E2.
      apply (good_weaken _ 0 0 k k2); [apply good_ok; auto | lia]. }
    destruct (is_radix_digit r b); [apply R|]. destruct (put_back_spot _ _ _ _ Hn Hat) as (L2 & -> & H2 & Hs2 & _). cbn [bind]. apply good_ok; eauto with lex.
  - destruct (put_none_spot content k L1) as (L2 & -> & H2 & Hs2 & _); [apply Hat | eauto with lex |]. cbn [bind]. apply good_ok; eauto with lex.
Qed.
Lemma read_number_good : forall k L first fin, spot k L -> wf L -> final_newline L = fin -> good 0 k fin (read_number F parse_f32 show_f32 f32_zero first L).
Proof using Type.
  intros k L first fin H W Hf. unfold read_number. apply good_bind.
  - unfold read_number_inner. destruct (first =? 46); [apply number_loop_good; auto; rewrite (spot_fuel content k) by exact H; lia|].
    destruct (first =? 48); [|apply number_loop_good; auto; rewrite (spot_fuel content k) by exact H; lia].
    rd H b L1.
    + destruct (b =? 120).
      * apply (good_weaken _ 0 0 k (S k)); [|lia]. apply number_loop_good; eauto with lex. rewrite (spot_fuel content (S k)) by eauto with lex. lia.
      * destruct (put_back_spot _ _ _ _ Hn Hat) as (L2 & -> & H2 & Hs2 & _). cbn [bind]. apply number_loop_good; eauto with lex. rewrite (spot_fuel content k) by exact H2. lia.
    + destruct (put_none_spot content k L1) as (L2 & -> & H2 & Hs2 & _); [apply Hat | eauto with lex |]. cbn [bind]. apply number_loop_good; eauto with lex. rewrite (spot_fuel content k) by exact H2. lia.
  - intros [[i r] buf] L' k' Hk' H' W' Hf'. assert (RE : forall e, spot k' (error e L')) by (intro e; eapply spot_inp; [exact H' | reflexivity | reflexivity | reflexivity]).
    destruct i.
    + destruct (i32_from_str_radix buf r); [fin|]. destruct (if r =? 10 then parse_f32 buf else None) as [v|]; [|apply good_ok; [apply RE | exact W' | exact Hf']].
      destruct (text_eqb _ _); apply good_ok; auto.
    + destruct (parse_f32 buf); apply good_ok; auto.
Qed.
Lemma ident_loop_good : forall fuel k L buf fin, spot k L -> wf L -> final_newline L = fin -> (len - k < fuel)%nat ->
  good 0 k fin (ident_loop fuel buf L).
Proof using Type.
  induction fuel as [|fuel IH]; intros k L buf fin H W Hf Hfuel; [lia|]. cbn [ident_loop].
  rd H b L1.
  - pose proof (nth_lt _ _ Hn). destruct (is_ident_byte b || is_digit b).
    + apply (good_weaken _ 0 0 k (S k)); [|lia]. apply IH; eauto with lex. lia.
    + destruct (put_back_spot _ _ _ _ Hn Hat) as (L2 & -> & H2 & Hs2 & _). cbn [bind]. apply good_ok; eauto with lex.
  - destruct (put_none_spot content k L1) as (L2 & -> & H2 & Hs2 & _); [apply Hat | eauto with lex |]. cbn [bind]. apply good_ok; eauto with lex.
Qed.
Lemma read_ident_good : forall k L first fin, spot k L -> wf L -> final_newline L = fin -> good 0 k fin (read_ident first L).
Proof using Type.
  intros k L first fin H W Hf. unfold read_ident. apply good_bind; [apply ident_loop_good; auto; rewrite (spot_fuel content k) by exact H; lia|].
  intros [buf ws] L' k' _ H' W' Hf'. apply good_ok; auto.
Qed.
Lemma resource_loop_good : forall fuel k L st bs buf fin, spot k L -> wf L -> final_newline L = fin -> (len - k < fuel)%nat ->
  good 0 k fin (resource_loop fuel st bs buf L).
Proof using Type.
  induction fuel as [|fuel IH]; intros k L st bs buf fin H W Hf Hfuel; [lia|]. cbn [resource_loop].
  rd H b L1.
  - pose proof (nth_lt _ _ Hn).
    assert (R : forall x buf, good 0 k fin (resource_loop fuel st x buf L1)).
    { intros. apply (good_weaken _ 0 0 k (S k)); [|lia]. apply IH; eauto with lex. lia. }
    destruct bs; [apply R|]. destruct (b =? 92); [apply R|]. destruct (b =? 39); [|apply R].
    apply (good_weaken _ 0 0 k (S k)); [apply good_ok; eauto with lex | lia].
  - apply good_ok; [eapply spot_inp; [apply ended_spot; exact Hat | reflexivity | reflexivity | reflexivity] | exact (same_wf _ _ Hs W) | exact (same_final _ _ _ Hs Hf)].
Qed.
Lemma read_resource_good : forall k L fin, spot k L -> wf L -> final_newline L = fin -> good 0 k fin (read_resource L).
Proof using Type.
  intros k L fin H W Hf. unfold read_resource. apply good_bind; [apply resource_loop_good; auto; rewrite (spot_fuel content k) by exact H; lia|].
  intros buf L' k' _ H' W' Hf'. apply good_ok; auto.
Qed.

(** what [ws_loop] skips, by its counter *)
Definition ws_skipped (nl : N) (k k' : nat) : Prop :=
  (nl = 0 -> forall j, (k <= j < k')%nat -> nth_error content j = Some 13 \/ exists b, nth_error content j = Some b /\ blank b = true /\ ~ indentation content j) /\
  (nl = 1 -> spaces (span content k k')) /\
  (nl = 2 -> exists s1, spaces s1 /\ (span content k k' = s1 \/ exists s2, spaces s2 /\ span content k k' = s1 ++ 10 :: s2)).
Lemma span_nil : forall k, span content k k = [].
Proof using Type. intro k. unfold span. rewrite Nat.sub_diag. reflexivity. Qed.
Lemma span_cons : forall k k' b, nth_error content k = Some b -> (S k <= k')%nat -> span content k k' = b :: span content (S k) k'.
Proof using Type. intros k k' b H Hk. unfold span. rewrite (skipn_nth _ _ _ H). replace (k' - k)%nat with (S (k' - S k)) by lia. reflexivity. Qed.
Lemma ws_skipped_nil : forall nl k, ws_skipped nl k k.
Proof using Type. intros nl k. unfold ws_skipped. rewrite span_nil. split; [intros _ j Hj; lia|]. split; [intros _; constructor|]. intros _. exists []. split; [constructor | left; reflexivity]. Qed.
Lemma ws_skipped_space : forall nl k k' b, nth_error content k = Some b -> (S k <= k')%nat -> (b = 13 \/ b = 9 \/ b = 32) ->
  (nl = 0 -> b = 13 \/ (blank b = true /\ ~ indentation content k)) -> ws_skipped nl (S k) k' -> ws_skipped nl k k'.
Proof using Type.
  intros nl k k' b Hn Hk Hb H0 (A & B & C). split; [|split].
  - intros E j Hj. destruct (Nat.eq_dec j k) as [->|Hne]; [|apply A; [exact E | lia]]. destruct (H0 E) as [->|(H1 & H2)]; [left; exact Hn | right; exists b; auto].
  - intro E. rewrite (span_cons _ _ _ Hn Hk). constructor; [exact Hb | exact (B E)].
  - intro E. rewrite (span_cons _ _ _ Hn Hk). destruct (C E) as (s1 & H1 & H2). exists (b :: s1). split; [constructor; assumption|].
    destruct H2 as [->|(s2 & H2 & ->)]; [left; reflexivity | right; exists s2; split; [exact H2 | reflexivity]].
Qed.
(** white space: the byte returned was the last one read *)
Definition ws_post (nl : N) (k : nat) (fin : bool) (x : res (option byte * lexer)) : Prop :=
  (exists b L' k', x = Ok (Some b, L') /\ (k <= k')%nat /\ nth_error content k' = Some b /\ at_ content (S k') L' /\
     location L' = place (firstn k' content) /\ wf L' /\ final_newline L' = fin /\ ws_skipped nl k k' /\ b <> 13) \/
  (exists L', x = Ok (None, L') /\ ended content len L' /\ wf L' /\ final_newline L' = fin /\ ws_skipped nl k len).
Lemma ws_loop_post : forall fuel k L nl fin, spot k L -> wf L -> final_newline L = fin -> (len - k < fuel)%nat -> (nl = 0 \/ nl = 1 \/ nl = 2) ->
  ws_post nl k fin (ws_loop fuel nl L).
Proof using Type.
  clear F parse_f32 show_f32 f32_zero. induction fuel as [|fuel IH]; intros k L nl fin H W Hf Hfuel Hnl; [lia|]. cbn [ws_loop].
  rd H b L1.
  - pose proof (nth_lt _ _ Hn) as Hlt.
    assert (R : forall nl' L2, inp L2 = inp L1 -> pending L2 = pending L1 -> at_line_head L2 = at_line_head L1 -> stack L2 = stack L1 -> final_newline L2 = final_newline L1 ->
              (nl' = 0 \/ nl' = 1 \/ nl' = 2) -> (forall k', (S k <= k')%nat -> ws_skipped nl' (S k) k' -> ws_skipped nl k k') ->
              ws_post nl k fin (ws_loop fuel nl' L2)).
    { intros nl' L2 E1 E2 E5 E3 E4 Hnl' Hsk. destruct (IH (S k) L2 nl' fin) as [(b' & L' & k' & Eq & H1 & H2 & H3 & H4 & H5 & H6 & H7 & H8)|(L' & Eq & H2 & H3 & H4 & H5)].
      - eapply spot_inp; [apply at_spot; exact Hat | exact E1 | exact E2 | exact E5].
      - unfold wf. rewrite E3. exact (same_wf _ _ Hs W).
      - rewrite E4. eauto with lex.
      - lia.
      - exact Hnl'.
      - left. exists b', L', k'. split; [exact Eq|]. split; [lia|]. repeat (split; [assumption|]). split; [apply Hsk; [lia | exact H7] | exact H8].
      - right. exists L'. repeat (split; [assumption|]). apply Hsk; [lia | exact H5]. }
    destruct (N.eqb_spec b 13) as [->|N13].
    { apply R; try reflexivity; [exact Hnl|]. intros k' Hk' Hsk. eapply ws_skipped_space; eauto. }
    destruct (((b =? 32) || (b =? 9)) && (negb (at_line_head L1) || (0 <? nl))) eqn:T.
    { apply andb_true_iff in T. destruct T as [T1 T2]. assert (Hb : blank b = true) by (unfold blank; rewrite orb_comm; exact T1).
      apply R; try reflexivity; [exact Hnl|]. intros k' Hk' Hsk. eapply ws_skipped_space; eauto.
      - apply orb_true_iff in T1. rewrite !N.eqb_eq in T1. tauto.
      - intros E0. subst nl. cbn in T2. rewrite orb_false_r in T2. right. split; [exact Hb|]. intros (Hi & _).
        destruct Hat as (_ & _ & _ & Hh). rewrite Hh, (firstn_S_nth _ _ _ Hn), head_of_snoc, Hi, Hb in T2. discriminate. }
    destruct ((b =? 10) && (nl =? 2)) eqn:T'.
    { apply andb_true_iff in T'. rewrite !N.eqb_eq in T'. destruct T' as [-> ->]. apply R; try reflexivity; [auto|]. intros k' Hk' (_ & B & _).
      split; [discriminate|]. split; [discriminate|]. intros _. exists []. split; [constructor|]. right. exists (span content (S k) k'). split; [apply B; reflexivity|].
      rewrite (span_cons _ _ _ Hn Hk'). reflexivity. }
    left. exists b, L1, k. split; [reflexivity|]. split; [lia|]. split; [exact Hn|]. split; [exact Hat|]. split; [exact Hl|]. split; [eauto with lex|]. split; [eauto with lex|]. split; [apply ws_skipped_nil | exact N13].
  - right. exists L1. split; [reflexivity|]. subst k. split; [exact Hat|]. split; [eauto with lex|]. split; [eauto with lex|]. apply ws_skipped_nil.
Qed.
Lemma skip_ws_post : forall k L nl fin, spot k L -> wf L -> final_newline L = fin -> ws_post (if nl : bool then 2 else 0) k fin (skip_ws nl L).
Proof using Type. intros k L nl fin H W Hf. unfold skip_ws. apply ws_loop_post; auto; [rewrite (spot_fuel content k) by exact H; lia | destruct nl; auto]. Qed.

Lemma string_loop_good : forall fuel k L st end_ bs idx buf fin, spot k L -> wf L -> final_newline L = fin -> (len - k < fuel)%nat -> end_ <> [] ->
  good 0 k fin (string_loop fuel st end_ bs idx buf L).
Proof using Type.
  induction fuel as [|fuel IH]; intros k L st end_ bs idx buf fin H W Hf Hfuel Hend; [lia|]. cbn [string_loop].
  rd H b L1.
  - pose proof (nth_lt _ _ Hn).
    assert (R : forall x i buf, good 0 k fin (string_loop fuel st end_ x i buf L1)).
    { intros. apply (good_weaken _ 0 0 k (S k)); [|lia]. apply IH; eauto with lex. lia. }
    destruct (_ && _); [destruct (_ =? _)%nat; [|apply R]; apply (good_weaken _ 0 0 k (S k)); [apply good_ok; eauto with lex | lia]|].
    destruct (_ && _); [apply R|]. cbv zeta. destruct bs.
    + destruct (_ || _); [|apply R].
      destruct (skip_ws_post (S k) L1 true fin) as [(b' & L2 & k' & -> & H1 & H2 & H3 & _ & H5 & H6 & _)|(L2 & -> & H1 & H2 & H3 & _)]; eauto with lex; cbn [bind].
      * destruct (put_back_spot _ _ _ _ H2 H3) as (L3 & -> & H7 & Hs3 & _). cbn [bind]. apply (good_weaken _ 0 0 k k'); [|lia]. apply IH; eauto with lex. pose proof (nth_lt _ _ H2). lia.
      * destruct (put_none_spot content len L2) as (L3 & -> & H7 & Hs3 & _); [apply H1 | eauto with lex |]. cbn [bind]. apply (good_weaken _ 0 0 k len); [|lia]. apply IH; eauto with lex. lia.
    + destruct (b =? 91); [|destruct (b =? 92); apply R]. apply (good_weaken _ 0 0 k (S k)); [|lia]. apply good_ok.
      * eapply spot_inp; [apply at_spot; exact Hat | reflexivity | reflexivity | reflexivity].
      * unfold wf. cbn. constructor; [cbn; auto | exact (same_wf _ _ Hs W)].
      * exact (same_final _ _ _ Hs Hf).
  - apply good_ok; [eapply spot_inp; [apply ended_spot; exact Hat | reflexivity | reflexivity | reflexivity] | exact (same_wf _ _ Hs W) | exact (same_final _ _ _ Hs Hf)].
Qed.
Lemma read_string_good : forall k L end_ ic fin, spot k L -> wf L -> final_newline L = fin -> end_ <> [] -> good 0 k fin (read_string F end_ ic L).
Proof using Type.
  intros k L end_ ic fin H W Hf Hend. unfold read_string. apply good_bind; [apply string_loop_good; auto; rewrite (spot_fuel content k) by exact H; lia|].
  intros [buf op] L' k' _ H' W' Hf'. apply good_ok; auto.
Qed.
Lemma raw_loop_good : forall fuel k L st t buf fin, spot k L -> wf L -> final_newline L = fin -> (len - k < fuel)%nat ->
  good 0 k fin (raw_loop fuel st t buf L).
Proof using Type.
  induction fuel as [|fuel IH]; intros k L st t buf fin H W Hf Hfuel; [lia|]. cbn [raw_loop].
  rd H b L1.
  - pose proof (nth_lt _ _ Hn). cbv zeta. apply (good_weaken _ 0 0 k (S k)); [|lia].
    destruct (ends_with t (buf ++ [b])); [apply good_ok; eauto with lex|]. apply IH; eauto with lex. lia.
  - apply good_ok; [eapply spot_inp; [apply ended_spot; exact Hat | reflexivity | reflexivity | reflexivity] | exact (same_wf _ _ Hs W) | exact (same_final _ _ _ Hs Hf)].
Qed.
Lemma raw_inner_good : forall k L t fin, spot k L -> wf L -> final_newline L = fin -> good 0 k fin (read_raw_string_inner F t L).
Proof using Type.
  intros k L t fin H W Hf. unfold read_raw_string_inner. apply good_bind; [apply raw_loop_good; auto; rewrite (spot_fuel content k) by exact H; lia|].
  intros buf L' k' _ H' W' Hf'. apply good_ok; auto.
Qed.
Lemma term_loop_good : forall fuel k L acc fin, spot k L -> wf L -> final_newline L = fin -> (len - k < fuel)%nat ->
  good 0 k fin (term_loop fuel acc L).
Proof using Type.
  induction fuel as [|fuel IH]; intros k L acc fin H W Hf Hfuel; [lia|]. cbn [term_loop].
  rd H b L1.
  - pose proof (nth_lt _ _ Hn). apply (good_weaken _ 0 0 k (S k)); [|lia]. destruct (b =? 41); [apply good_ok; eauto with lex|]. apply IH; eauto with lex. lia.
  - apply good_ok; [eapply spot_inp; [apply ended_spot; exact Hat | reflexivity | reflexivity | reflexivity] | exact (same_wf _ _ Hs W) | exact (same_final _ _ _ Hs Hf)].
Qed.
Lemma read_raw_good : forall k L fin, spot k L -> wf L -> final_newline L = fin -> good 0 k fin (read_raw_string F L).
Proof using Type.
  intros k L fin H W Hf. unfold read_raw_string.
  assert (RE : forall e k L', spot k L' -> spot k (error e L')) by (intros e k' L' H'; eapply spot_inp; [exact H' | reflexivity | reflexivity | reflexivity]).
  rd H b L1.
  - pose proof (nth_lt _ _ Hn). apply (good_weaken _ 0 0 k (S k)); [|lia].
    destruct (b =? 10); [apply good_ok; [apply RE; eauto with lex | exact (same_wf _ _ Hs W) | exact (same_final _ _ _ Hs Hf)]|].
    destruct (b =? 40).
    { apply good_bind; [apply term_loop_good; eauto with lex; rewrite (spot_fuel content (S k)) by eauto with lex; lia|].
      intros [[|x t]|] L' k' _ H' W' Hf'; [apply good_ok; [apply RE | |]; auto | apply raw_inner_good; auto | apply good_ok; auto]. }
    destruct (b =? 123); [|apply raw_inner_good; eauto with lex].
    assert (H1 : spot (S k) L1) by eauto with lex. rd H1 c L2.
    + destruct (c =? 34); [apply (good_weaken _ 0 0 (S k) (S (S k))); [|lia]; apply raw_inner_good; eauto with lex|].
      destruct (put_back_spot _ _ _ _ Hn0 Hat0) as (L3 & -> & H2 & Hs2 & _). cbn [bind]. apply raw_inner_good; eauto 6 with lex.
    + destruct (put_none_spot content (S k) L2) as (L3 & -> & H2 & Hs2 & _); [apply Hat0 | eauto with lex |]. cbn [bind]. apply raw_inner_good; eauto 6 with lex.
  - apply good_ok; [apply RE; eauto with lex | exact (same_wf _ _ Hs W) | exact (same_final _ _ _ Hs Hf)].
Qed.
Lemma check_close_good : forall k L p fin, spot k L -> wf L -> final_newline L = fin -> good 0 k fin (check_close p L).
Proof using Type.
  intros k L p fin H W Hf. unfold check_close. destruct (punct_eq_dec p (close p)); [apply good_ok; auto|].
  rd H b L1.
  - destruct (put_back_spot _ _ _ _ Hn Hat) as (L2 & -> & H2 & Hs2 & _). cbn [bind]. apply good_ok; eauto with lex.
  - destruct (put_none_spot content k L1) as (L2 & -> & H2 & Hs2 & _); [apply Hat | eauto with lex |]. cbn [bind]. apply good_ok; eauto with lex.
Qed.
End GOOD.
