(** Following a path; the types that are declared on the way. *)
From Coq Require Import List NArith ZArith Bool String Lia.
From Verif Require Import Common.Text Lexer.Punct Lexer.Model Parse.Ast Parse.Model Parse.Spec Parse.Facts Parse.Grow Stmt.Ast Stmt.Model Stmt.Spec
  Stmt.Sound Tree.Ast Tree.Model Tree.Spec Tree.Sound.
Import ListNotations.
Open Scope nat_scope.

(** ** One name at a time *)
Definition move (c : place) (w : text) : option place :=
  if text_eqb w VAR then Some {| c_type := c_type c; c_proc := c_proc c; c_var := Some {| v_flags := 0; v_path := [] |} |}
  else match c_var c with
  | Some t =>
      Some {| c_type := c_type c; c_proc := c_proc c;
             c_var := Some (match flag_of w with
                            | Some f => {| v_flags := N.lor (v_flags t) f; v_path := v_path t |}
                            | None => {| v_flags := v_flags t; v_path := v_path t ++ [w] |}
                            end) |}
  | None =>
  match kind_of w with
  | Some verb => Some {| c_type := c_type c; c_proc := Some {| d_verb := verb; d_final := false |}; c_var := None |}
  | None =>
  match c_proc c with
  | Some d =>
      if text_eqb w FINAL then Some {| c_type := c_type c; c_proc := Some {| d_verb := d_verb d; d_final := true |}; c_var := None |} else None
  | None => Some {| c_type := c_type c ++ [w]; c_proc := None; c_var := None |}
  end end end.
Fixpoint follow (c : place) (p : list text) : option place :=
  match p with [] => Some c | w :: p' => match move c w with Some c' => follow c' p' | None => None end end.
Lemma follow_app c p q : follow c (p ++ q) = match follow c p with Some c' => follow c' q | None => None end.
Proof. revert c. induction p as [|w p IH]; intros c; [reflexivity|]. cbn [app follow]. destruct (move c w); [apply IH|reflexivity]. Qed.

Lemma kind_view w : match kind_of w with Some v => (w, v) = (PROC, false) \/ (w, v) = (VERB, true) | None => w <> PROC /\ w <> VERB end.
Proof.
  unfold kind_of. change (lit "proc") with PROC. change (lit "verb") with VERB.
  destruct (text_eqb_spec w PROC) as [->|]; [auto|]. destruct (text_eqb_spec w VERB) as [->|]; auto.
Qed.
Lemma kind_proc : kind_of PROC = Some false. Proof. reflexivity. Qed.
Lemma kind_verb : kind_of VERB = Some true. Proof. reflexivity. Qed.
Lemma kind_final : kind_of FINAL = None. Proof. reflexivity. Qed.
Lemma plain_kind w : plain w -> kind_of w = None.
Proof. intros (_ & H1 & H2). pose proof (kind_view w) as V. destruct (kind_of w); [|reflexivity]. destruct V as [V|V]; congruence. Qed.
Lemma eqb_ne w v : w <> v -> text_eqb w v = false.
Proof. intros H. destruct (text_eqb_spec w v); congruence. Qed.

Lemma follow_types ts : Forall plain ts -> forall pre, follow {| c_type := pre; c_proc := None; c_var := None |} ts = Some {| c_type := pre ++ ts; c_proc := None; c_var := None |}.
Proof.
  induction 1 as [|w ts H HF IH]; intros pre; cbn [follow]; [rewrite app_nil_r; reflexivity|].
  unfold move. cbn [c_var c_proc c_type]. destruct H as (N1 & N2 & N3). rewrite (eqb_ne w VAR N1), (plain_kind w) by (repeat split; assumption).
  rewrite IH, <- app_assoc. reflexivity.
Qed.
Lemma follow_front ts front : Forall (fun x => x = PROC \/ x = VERB \/ x = FINAL) front -> forall d,
  match d with Some _ => True | None => match front with f :: _ => f = PROC \/ f = VERB | [] => True end end ->
  exists d', follow {| c_type := ts; c_proc := d; c_var := None |} front = Some {| c_type := ts; c_proc := d'; c_var := None |}.
Proof.
  induction 1 as [|w front H HF IH]; intros d Hd; cbn [follow]; [eauto|]. unfold move. cbn [c_var c_proc c_type].
  destruct H as [->|[->| ->]].
  - change (text_eqb PROC VAR) with false. cbv iota. rewrite kind_proc. apply IH. exact I.
  - change (text_eqb VERB VAR) with false. cbv iota. rewrite kind_verb. apply IH. exact I.
  - change (text_eqb FINAL VAR) with false. cbv iota. rewrite kind_final. destruct d as [d|]; [|exfalso; destruct Hd as [Q|Q]; vm_compute in Q; discriminate Q].
    change (text_eqb FINAL FINAL) with true. cbv iota. apply IH. exact I.
Qed.
Lemma follow_finals ts v fs : Forall (eq FINAL) fs -> forall f,
  follow {| c_type := ts; c_proc := Some {| d_verb := v; d_final := f |}; c_var := None |} fs =
  Some {| c_type := ts; c_proc := Some {| d_verb := v; d_final := match fs with [] => f | _ => true end |}; c_var := None |}.
Proof.
  induction 1 as [|w fs H HF IH]; intros f; [reflexivity|]. subst w. cbn [follow]. unfold move. cbn [c_var c_proc c_type].
  change (text_eqb FINAL VAR) with false. cbv iota. rewrite kind_final. change (text_eqb FINAL FINAL) with true. cbv iota. cbn [d_verb]. rewrite IH. destruct fs; reflexivity.
Qed.
Lemma follow_proc ts ws d : proc_part ws d -> follow {| c_type := ts; c_proc := None; c_var := None |} ws = Some {| c_type := ts; c_proc := Some d; c_var := None |}.
Proof.
  intros [front w verb fs H1 H2 H3 H4]. rewrite follow_app. destruct (follow_front ts front H2 None) as [d' E]; [destruct front; auto|]. rewrite E. cbn [follow].
  assert (M : move {| c_type := ts; c_proc := d'; c_var := None |} w = Some {| c_type := ts; c_proc := Some {| d_verb := verb; d_final := false |}; c_var := None |}).
  { destruct H3 as [H3|H3]; injection H3 as -> ->; reflexivity. }
  rewrite M, follow_finals by exact H4. destruct fs; reflexivity.
Qed.
Lemma follow_vars ts d q : forall t, exists t', follow {| c_type := ts; c_proc := d; c_var := Some t |} q = Some {| c_type := ts; c_proc := d; c_var := Some t' |}.
Proof.
  induction q as [|w q IH]; intros t; cbn [follow]; [eauto|]. unfold move. cbn [c_var c_proc c_type]. destruct (text_eqb w VAR); apply IH.
Qed.
Lemma follow_var ts d q n p : var_part q n p -> forall t, follow {| c_type := ts; c_proc := d; c_var := Some t |} q =
  Some {| c_type := ts; c_proc := d; c_var := Some {| v_flags := N.lor (v_flags t) n; v_path := v_path t ++ p |} |}.
Proof.
  induction 1 as [|w f q n p H HV IH|w q n p H1 H2 HV IH]; intros t; cbn [follow].
  - rewrite N.lor_0_r, app_nil_r. destruct t; reflexivity.
  - unfold move. cbn [c_var c_proc c_type]. assert (N : w <> VAR).
    { cbn [var_words In] in H. repeat (destruct H as [H|H]; [injection H as <- <-; vm_compute; discriminate|]). destruct H. }
    rewrite (eqb_ne _ _ N), (word_flag w f H), IH. cbn [v_flags v_path]. rewrite N.lor_assoc. reflexivity.
  - unfold move. cbn [c_var c_proc c_type]. rewrite (eqb_ne _ _ H1). pose proof (flag_word w) as V. destruct (flag_of w) as [f|].
    { exfalso. apply H2. apply (in_map fst) in V. exact V. }
    rewrite IH. cbn [v_flags v_path]. rewrite <- app_assoc. reflexivity.
Qed.
Lemma leads_follow p c : leads p c -> follow root_place p = Some c.
Proof.
  induction 1 as [ts H|ts ws d H HP|p ts d old q n t HL IH HO HV].
  - apply (follow_types ts H []).
  - rewrite follow_app. unfold root_place. rewrite (follow_types ts H []). apply follow_proc, HP.
  - rewrite follow_app, IH, follow_app.
    assert (M : forall c0, move c0 VAR = Some {| c_type := c_type c0; c_proc := c_proc c0; c_var := Some {| v_flags := 0; v_path := [] |} |}) by reflexivity.
    assert (E : exists v, follow {| c_type := ts; c_proc := d; c_var := None |} old = Some {| c_type := ts; c_proc := d; c_var := v |}).
    { destruct old as [|o old]; [eexists; reflexivity|]. cbn in HO. rewrite HO. cbn [follow]. rewrite M. cbn [c_type c_proc]. destruct (follow_vars ts d old {| v_flags := 0; v_path := [] |}) as [t' ->]. eauto. }
    destruct E as [v ->]. cbn [follow]. rewrite M. cbn [c_type c_proc]. rewrite (follow_var _ _ _ _ _ HV). reflexivity.
Qed.

Lemma var_part_word q n t w f : var_part q n t -> In (w, f) var_words -> var_part (q ++ [w]) (N.lor n f) t.
Proof.
  intros HV HI. induction HV as [|w' f' q n t H HV IH|w' q n t H1 H2 HV IH]; cbn [app].
  - rewrite N.lor_comm. econstructor; [exact HI|constructor].
  - rewrite <- N.lor_assoc. econstructor; eassumption.
  - constructor; assumption.
Qed.
Lemma var_part_type q n t w : var_part q n t -> w <> VAR -> ~ In w (map fst var_words) -> var_part (q ++ [w]) n (t ++ [w]).
Proof.
  intros HV N HI. induction HV as [|w' f' q n t H HV IH|w' q n t H1 H2 HV IH]; cbn [app].
  - constructor; [assumption|assumption|constructor].
  - econstructor; eassumption.
  - constructor; assumption.
Qed.
Lemma leads_move p c w c' : leads p c -> move c w = Some c' -> leads (p ++ [w]) c'.
Proof.
  intros HL. unfold move. destruct (text_eqb_spec w VAR) as [->|NV].
  - intros E. injection E as <-. destruct HL as [ts H|ts ws d H HP|p ts d old q n t HL HO HV]; cbn [c_type c_proc].
    + apply (Le_var ts ts None [] [] 0%N []); [constructor; exact H|exact I|constructor].
    + apply (Le_var (ts ++ ws) ts (Some d) [] [] 0%N []); [constructor; assumption|exact I|constructor].
    + replace ((p ++ old ++ VAR :: q) ++ [VAR]) with (p ++ (old ++ VAR :: q) ++ [VAR]) by (rewrite <- !app_assoc; reflexivity).
      apply (Le_var p ts d (old ++ VAR :: q) [] 0%N []); [exact HL|destruct old; [reflexivity|exact HO]|constructor].
  - destruct HL as [ts H|ts ws d H HP|p ts d old q n t HL HO HV]; cbn [c_type c_proc c_var].
    + pose proof (kind_view w) as V. destruct (kind_of w) as [v|]; intros E; injection E as <-.
      * apply Le_proc; [exact H|]. apply (Pp [] w v []); auto; constructor.
      * destruct V. apply Le_type. apply Forall_app. split; [exact H|]. constructor; [repeat split; assumption|constructor].
    + destruct HP as [front w0 v fs H1 H2 H3 H4]. rewrite <- app_assoc. pose proof (kind_view w) as V. destruct (kind_of w) as [v'|].
      * intros E; injection E as <-. apply Le_proc; [exact H|].
        apply (Pp (front ++ w0 :: fs) w v' []); auto.
        -- destruct front as [|f front]; [|exact H1]. destruct H3 as [H3|H3]; injection H3 as -> _; cbn; auto.
        -- apply Forall_app. split; [exact H2|]. constructor; [destruct H3 as [H3|H3]; injection H3 as -> _; auto|]. eapply Forall_impl; [|exact H4]. intros x <-. auto.
      * destruct (text_eqb_spec w FINAL) as [->|N]; [|discriminate]. intros E; injection E as <-. cbn [d_verb]. apply Le_proc; [exact H|].
        rewrite <- app_assoc. cbn [app]. pose proof (Pp front w0 v (fs ++ [FINAL]) H1 H2 H3) as Q.
        replace (match fs ++ [FINAL] with [] => false | _ => true end) with true in Q by (destruct fs; reflexivity). apply Q.
        apply Forall_app. split; [exact H4|]. constructor; [reflexivity|constructor].
    + intros E; injection E as <-. cbn [v_flags v_path]. replace ((p ++ old ++ VAR :: q) ++ [w]) with (p ++ old ++ VAR :: (q ++ [w])) by (rewrite <- !app_assoc; reflexivity).
      pose proof (flag_word w) as V. destruct (flag_of w) as [f|]; apply Le_var; auto; [apply var_part_word; assumption|apply var_part_type; assumption].
Qed.
Lemma leads_nil : leads [] root_place.
Proof. apply (Le_type []). constructor. Qed.
Lemma follow_leads p : forall pre c c', leads pre c -> follow c p = Some c' -> leads (pre ++ p) c'.
Proof.
  induction p as [|w p IH]; intros pre c c' HL; cbn [follow]; [intros E; injection E as <-; rewrite app_nil_r; exact HL|].
  destruct (move c w) as [c1|] eqn:M; [|discriminate]. intros E. change (pre ++ w :: p) with (pre ++ [w] ++ p). rewrite app_assoc. eapply IH; [|exact E]. eapply leads_move; eassumption.
Qed.
Lemma leads_iff p c : leads p c <-> follow root_place p = Some c.
Proof. split; [apply leads_follow|]. intros H. apply (follow_leads p [] _ _ leads_nil H). Qed.
Lemma leads_app pre c p c' : leads pre c -> leads (pre ++ p) c' <-> follow c p = Some c'.
Proof. intros H. rewrite leads_iff, follow_app, (leads_follow _ _ H). reflexivity. Qed.

Lemma leads_plain p c : leads p c -> Forall plain p <-> (c_proc c = None /\ c_var c = None).
Proof.
  intros HL. split.
  - intros HF. apply leads_follow in HL. unfold root_place in HL. rewrite (follow_types p HF []) in HL. injection HL as <-. auto.
  - destruct HL as [ts H|ts ws d H HP|p ts d old q n t HL HO HV]; cbn; [auto|intros []; discriminate|intros []; discriminate].
Qed.
Lemma leads_plain_type p c : leads p c -> c_proc c = None -> c_var c = None -> c_type c = p.
Proof. intros HL H1 H2. assert (HF : Forall plain p) by (apply (leads_plain p c HL); auto). apply leads_follow in HL. unfold root_place in HL. rewrite (follow_types p HF []) in HL. injection HL as <-. reflexivity. Qed.
Lemma proc_part_head ws d : proc_part ws d -> exists w r, ws = w :: r /\ ~ plain w.
Proof.
  intros [front w v fs H1 H2 H3 H4]. destruct front as [|f front]; cbn.
  - exists w. eexists. split; [reflexivity|]. intros (N1 & N2 & N3). destruct H3 as [H3|H3]; injection H3 as -> _; congruence.
  - exists f. eexists. split; [reflexivity|]. intros (N1 & N2 & N3). destruct H1; congruence.
Qed.
Lemma leads_outside p c : leads p c -> outside p <-> c_type c = [].
Proof.
  induction 1 as [ts H|ts ws d H HP|p ts d old q n t HL IH HO HV]; cbn [c_type] in *.
  - destruct ts as [|w ts]; cbn; [tauto|]. inversion H; subst. split; [contradiction|discriminate].
  - destruct ts as [|w ts]; cbn.
    + destruct (proc_part_head _ _ HP) as (w & r & -> & N). cbn. tauto.
    + inversion H; subst. split; [contradiction|discriminate].
  - destruct p as [|w p]; cbn in *.
    + inversion HL as [ts' H E|ts' ws d' H HP E|]; subst.
      * split; [reflexivity|]. intros _. destruct old as [|o old]; cbn; [|subst o]; intros (N & _); apply N; reflexivity.
      * exfalso. apply app_eq_nil in E as [_ ->]. destruct (proc_part_head _ _ HP) as (w & r & E & _). discriminate.
    + exact IH.
Qed.

(** ** Types in the order in which they first occur *)
Lemma fresh_ext l : forall s s', (forall x, In x s <-> In x s') -> fresh s l = fresh s' l.
Proof.
  induction l as [|x l IH]; intros s s' H; cbn; [reflexivity|].
  destruct (in_dec types_dec x s) as [I|I]; destruct (in_dec types_dec x s') as [I'|I']; try (exfalso; apply H in I || apply H in I'; contradiction).
  - apply IH, H.
  - f_equal. apply IH. intros y. cbn. rewrite H. reflexivity.
Qed.
Lemma fresh_app a b : forall s, fresh s (a ++ b) = fresh s a ++ fresh (a ++ s) b.
Proof.
  induction a as [|x a IH]; intros s; cbn; [reflexivity|]. destruct (in_dec types_dec x s) as [I|I]; rewrite IH; [|cbn; f_equal]; f_equal; apply fresh_ext; intros y; rewrite !in_app_iff; cbn; rewrite ?in_app_iff.
  - split; [tauto|]. intros [->|H]; tauto.
  - tauto.
Qed.
Lemma fresh_in l : forall s x, In x (fresh s l) <-> In x l /\ ~ In x s.
Proof.
  induction l as [|y l IH]; intros s x; cbn; [tauto|]. destruct (in_dec types_dec y s) as [I|I].
  - rewrite IH. split; [tauto|]. intros [[->|H] N]; tauto.
  - cbn. rewrite IH. cbn. split; [intros [->|[H N]]; tauto|]. intros [[->|H] N]; [tauto|]. destruct (types_dec y x); [tauto|]. right. tauto.
Qed.
Lemma fresh_seen l s : incl l s -> fresh s l = [].
Proof. induction l as [|x l IH]; intros H; cbn; [reflexivity|]. destruct (in_dec types_dec x s) as [I|I]; [apply IH; intros y Hy; apply H; right; exact Hy|]. exfalso. apply I, H. left. reflexivity. Qed.
Lemma extensions_app p l l' : extensions p (l ++ l') = extensions p l ++ extensions (p ++ l) l'.
Proof. revert p. induction l as [|w l IH]; intros p; cbn; [rewrite app_nil_r; reflexivity|]. rewrite IH, <- app_assoc. reflexivity. Qed.
Lemma ancestry_app p l : ancestry (p ++ l) = ancestry p ++ extensions p l.
Proof. unfold ancestry. rewrite extensions_app. reflexivity. Qed.

Section EVENTS.
Variable F : Type.
Notation adds := (adds F). Notation mems := (mems F).
Lemma adds_app a b : adds (a ++ b) = adds a ++ adds b.
Proof using Type. apply flat_map_app. Qed.
Lemma mems_app a b : mems (a ++ b) = mems a ++ mems b.
Proof using Type. apply flat_map_app. Qed.
(** The calls [ev] do what is declared by [ds], where the types on the way to [c] are there already. *)
Definition means (c : place) (ev : list (event F)) (ds : list (decl F)) : Prop :=
  mems ev = members_of F ds /\ forall seen, incl (ancestry (c_type c)) seen -> fresh seen (adds ev) = fresh seen (types_named F ds).
Lemma means_nil c : means c [] [].
Proof using Type. split; reflexivity. Qed.
Lemma means_app c e1 d1 e2 d2 : means c e1 d1 -> means c e2 d2 -> means c (e1 ++ e2) (d1 ++ d2).
Proof using Type.
  intros [M1 A1] [M2 A2]. split; [rewrite mems_app, M1, M2; symmetry; apply flat_map_app|]. intros seen H. unfold types_named. rewrite adds_app, flat_map_app, !fresh_app.
  fold (types_named F d1) (types_named F d2). rewrite (A1 seen H). f_equal. rewrite <- A2.
  - apply fresh_ext. intros x. rewrite !in_app_iff. pose proof (fresh_in (adds e1) seen x) as Q1. pose proof (fresh_in (types_named F d1) seen x) as Q2.
    rewrite (A1 seen H) in Q1. destruct (in_dec types_dec x seen); tauto.
  - intros x Hx. apply in_app_iff. right. apply H, Hx.
Qed.
(** a walk from [c] to the type of [c'], and what happens there *)
Lemma means_walk c c' l e1 e2 ds : adds e1 = extensions (c_type c) l -> mems e1 = [] -> c_type c' = c_type c ++ l -> means c' e2 ds ->
  means c (e1 ++ e2) (DType F (c_type c') :: ds).
Proof using Type.
  intros HA HM HT [M2 A2]. split; [rewrite mems_app, HM, M2; reflexivity|]. intros seen H. rewrite adds_app, HA, fresh_app. cbn [types_named flat_map]. fold (types_named F ds).
  rewrite HT, ancestry_app, <- app_assoc, (fresh_app (ancestry (c_type c))), (fresh_seen _ _ H), fresh_app. cbn [app].
  assert (E : forall l0, fresh (ancestry (c_type c) ++ seen) l0 = fresh seen l0).
  { intros l0. apply fresh_ext. intros x. rewrite in_app_iff. split; [intros [Q|Q]; [apply H, Q|exact Q]|tauto]. }
  rewrite E. f_equal. rewrite A2.
  - apply fresh_ext. intros x. rewrite !in_app_iff. split; [tauto|]. intros [Q|[Q|Q]]; auto.
  - rewrite HT, ancestry_app. intros x Hx. apply in_app_iff in Hx as [Hx|Hx]; apply in_app_iff; [right; apply H, Hx|left; exact Hx].
Qed.
End EVENTS.
