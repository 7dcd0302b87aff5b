From Coq Require Import List ZArith Bool String Lia.
From Verif Require Import Diag.Model Diag.Spec.
Import ListNotations.

Section P.
  Context {D : Type}.

  Lemma diag_get_find m k :
    diag_get m k = match find (fun p : string * level => String.eqb k (fst p)) m with
                   | Some (_, l) => Some l | None => None end.
  Proof.
    induction m as [|[k' l] m IH]; simpl; [reflexivity|]. destruct (String.eqb k k'); auto.
  Qed.

  Lemma set_configured_effective c (e : dmerror D) :
    set_configured_severity c e =
    match effective c e with
    | Some s => Some {| payload := payload e; sev := s; errortype := errortype e |}
    | None => None
    end.
  Proof.
    unfold set_configured_severity, config_warninglevel, effective.
    destruct e as [p s [t|]]; simpl; [|reflexivity]. rewrite diag_get_find.
    destruct (find _ (diagnostics c)) as [[? []]|]; reflexivity.
  Qed.

  Lemma applies_to_allows l s : applies_to l s = true <-> In s (level_allows l).
  Proof. destruct l, s; simpl; intuition discriminate. Qed.

  Lemma register_all_recorded (es : list (dmerror D)) : forall cx,
    cfg (register_all cx es) = cfg cx /\
    exists es', recorded (cfg cx) es es' /\ errors (register_all cx es) = errors cx ++ es'.
  Proof.
    induction es as [|e es IH]; intros cx; simpl.
    - split; [reflexivity|]. exists []. split; [constructor|]. rewrite app_nil_r; reflexivity.
    - assert (Hc : cfg (register_error cx e) = cfg cx).
      { unfold register_error. destruct (set_configured_severity (cfg cx) e); [|reflexivity].
        destruct (registerable_error (cfg cx) d); reflexivity. }
      destruct (IH (register_error cx e)) as [Hc' (es' & Hr & He)]. rewrite Hc in Hc', Hr.
      split; [exact Hc'|]. unfold register_all in *. rewrite He.
      unfold register_error. rewrite set_configured_effective.
      destruct (effective (cfg cx) e) as [s|] eqn:E.
      + unfold registerable_error. cbn [sev].
        destruct (applies_to (error_level (cfg cx)) s) eqn:Ea.
        * eexists. split; [|cbn [errors]; rewrite <- app_assoc; reflexivity].
          cbn [app]. apply rec_keep; try assumption. apply applies_to_allows; assumption.
        * exists es'. split; [|reflexivity]. eapply rec_low; try eassumption.
          rewrite <- applies_to_allows. congruence.
      + exists es'. split; [|reflexivity]. apply rec_off; assumption.
  Qed.

  Lemma recorded_fun c (es a b : list (dmerror D)) : recorded c es a -> recorded c es b -> a = b.
  Proof.
    intros Ha. revert b. induction Ha as [|e es es' s E Hin H IH|e es es' E H IH|e es es' s E Hin H IH];
      intros b Hb; inversion Hb; subst; try congruence;
      try (f_equal; [congruence|]; apply IH; assumption);
      try (apply IH; assumption);
      match goal with H1 : effective _ _ = Some ?x, H2 : effective _ _ = Some ?y |- _ =>
        rewrite H1 in H2; inversion H2; subst; contradiction end.
  Qed.

  Lemma diagnostics_lemma (c : config) (p : option severity) (es : list (dmerror D)) (es' : list (dmerror D)) :
    recorded c es es' <->
    errors (register_all {| cfg := c; print_sev := p; errors := []; printed := [] |} es) = es'.
  Proof.
    destruct (register_all_recorded es {| cfg := c; print_sev := p; errors := []; printed := [] |})
      as [_ (es2 & Hr & He)]. cbn [cfg errors] in *. rewrite He. simpl. split.
    - intros H. eapply recorded_fun; eassumption.
    - intros <-. assumption.
  Qed.

  (** Immediate printing: exactly the recorded errors at or above the print severity. *)
  Lemma printed_lemma (c : config) (p : option severity) (es : list (dmerror D)) :
    let cx := register_all {| cfg := c; print_sev := p; errors := []; printed := [] |} es in
    printed cx = match p with
                 | None => []
                 | Some p => filter (fun e => (sev_rank (sev e) <=? sev_rank p)%Z) (errors cx)
                 end.
  Proof.
    cut (forall cx : context D, printed cx = match print_sev cx with
                 | None => []
                 | Some p => filter (fun e => (sev_rank (sev e) <=? sev_rank p)%Z) (errors cx)
                 end ->
          let cx' := register_all cx es in
          print_sev cx' = print_sev cx /\
          printed cx' = match print_sev cx' with
                 | None => []
                 | Some p => filter (fun e => (sev_rank (sev e) <=? sev_rank p)%Z) (errors cx')
                 end).
    { intros H. specialize (H {| cfg := c; print_sev := p; errors := []; printed := [] |}).
      cbn zeta in *. destruct H as [H1 H2]; [destruct p; reflexivity|]. cbn [print_sev] in H1.
      rewrite H2, H1. reflexivity. }
    induction es as [|e es IH]; intros cx Hcx; cbn zeta; [auto|].
    unfold register_all in *. cbn [fold_left].
    assert (Hstep : print_sev (register_error cx e) = print_sev cx /\
      printed (register_error cx e) = match print_sev cx with
                 | None => []
                 | Some p => filter (fun e => (sev_rank (sev e) <=? sev_rank p)%Z) (errors (register_error cx e))
                 end).
    { unfold register_error. destruct (set_configured_severity (cfg cx) e) as [e'|]; [|auto].
      destruct (registerable_error (cfg cx) e'); [|auto]. cbn [print_sev printed errors].
      split; [reflexivity|]. destruct (print_sev cx) as [q|]; [|assumption].
      rewrite filter_app. cbn [filter]. destruct (sev_rank (sev e') <=? sev_rank q)%Z.
      - rewrite Hcx. reflexivity.
      - rewrite Hcx, app_nil_r. reflexivity. }
    destruct Hstep as [Hp Hs]. cbn zeta in IH. destruct (IH (register_error cx e)) as [H1 H2].
    { rewrite Hp. exact Hs. }
    split; [congruence|exact H2].
  Qed.
End P.
