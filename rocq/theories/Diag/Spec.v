(** C20 specification. *)
From Coq Require Import List ZArith Bool String.
From Verif Require Import Diag.Model.
Import ListNotations.

Section S.
  Context {D : Type}.

  (** The severity configured for a diagnostic: [None] = switched off; its own severity when the
      configuration says nothing about its type. *)
  Definition effective (c : config) (e : dmerror D) : option severity :=
    match errortype e with
    | None => Some (sev e)
    | Some t =>
        match find (fun p => String.eqb t (fst p)) (diagnostics c) with
        | None => Some (sev e)
        | Some (_, LUnset) => Some (sev e)
        | Some (_, LDisabled) => None
        | Some (_, LError) => Some SError
        | Some (_, LWarning) => Some SWarning
        | Some (_, LInfo) => Some SInfo
        | Some (_, LHint) => Some SHint
        end
    end.

  (** How many of the severities (error, warning, info, hint; most severe first) the configured
      error level lets through. *)
  Definition level_allows (l : level) : list severity :=
    match l with
    | LDisabled => []
    | LError => [SError]
    | LWarning => [SError; SWarning]
    | LInfo => [SError; SWarning; SInfo]
    | LHint | LUnset => [SError; SWarning; SInfo; SHint]
    end.

  (** [es'] is what must be recorded for the registered diagnostics [es], in order. *)
  Inductive recorded (c : config) : list (dmerror D) -> list (dmerror D) -> Prop :=
  | rec_nil : recorded c [] []
  | rec_keep e es es' s : effective c e = Some s -> In s (level_allows (error_level c)) ->
      recorded c es es' ->
      recorded c (e :: es) ({| payload := payload e; sev := s; errortype := errortype e |} :: es')
  | rec_off e es es' : effective c e = None -> recorded c es es' -> recorded c (e :: es) es'
  | rec_low e es es' s : effective c e = Some s -> ~ In s (level_allows (error_level c)) ->
      recorded c es es' -> recorded c (e :: es) es'.
End S.
