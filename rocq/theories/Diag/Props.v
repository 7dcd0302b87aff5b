(** C20: diagnostics obey the configuration. *)
From Coq Require Import List ZArith Bool String.
From Verif Require Import Diag.Model Diag.Spec Diag.Proofs.
Import ListNotations.

(** For every configuration and every sequence of registered diagnostics, the recorded list is
    exactly the specified one (each kept diagnostic with the configured severity and everything
    else unchanged, in registration order). *)
Theorem C20_recorded_exactly :
  forall (D : Type) (c : config) (p : option severity) (es es' : list (dmerror D)),
  recorded c es es' <->
  errors (register_all {| cfg := c; print_sev := p; errors := []; printed := [] |} es) = es'.
Proof. exact @diagnostics_lemma. Qed.
Print Assumptions C20_recorded_exactly.

(** What is printed immediately is exactly the recorded diagnostics at least as severe as the
    print severity. *)
Theorem C20_printed_exactly :
  forall (D : Type) (c : config) (p : option severity) (es : list (dmerror D)),
  let cx := register_all {| cfg := c; print_sev := p; errors := []; printed := [] |} es in
  printed cx = match p with
               | None => []
               | Some p => filter (fun e => (sev_rank (sev e) <=? sev_rank p)%Z) (errors cx)
               end.
Proof. exact @printed_lemma. Qed.
Print Assumptions C20_printed_exactly.

Open Scope string_scope.
Example C20_demo :
  let c := {| error_level := LWarning; diagnostics := [("a", LDisabled); ("b", LError); ("c", LHint)] |} in
  let e n s t := {| payload := n; sev := s; errortype := t |} in
  recorded c [e 1%nat SError (Some "a"); e 2%nat SHint (Some "b"); e 3%nat SError (Some "c");
              e 4%nat SWarning None; e 5%nat SInfo (Some "zz")]
    [e 2%nat SError (Some "b"); e 4%nat SWarning None].
Proof. cbn zeta. apply (C20_recorded_exactly nat _ None). vm_compute. reflexivity. Qed.
