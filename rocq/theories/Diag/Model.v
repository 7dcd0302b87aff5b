(** Model of crates/dreammaker/src/config.rs (diagnostic levels) and error.rs (Context::register_error). *)
From Coq Require Import List ZArith Bool String.
Import ListNotations.

(** error.rs:359-366 Severity; derived [Ord] follows the discriminants 1..4 *)
Inductive severity := SError | SWarning | SInfo | SHint.
Definition sev_rank (s : severity) : Z :=
  match s with SError => 1 | SWarning => 2 | SInfo => 3 | SHint => 4 end.

(** config.rs:70-85 WarningLevel *)
Inductive level := LError | LWarning | LInfo | LHint | LDisabled | LUnset.

Section M.
  (** Everything else a DMError carries (location, component, description, notes, cause). *)
  Context {D : Type}.

  (** error.rs:419-427 DMError *)
  Record dmerror := { payload : D; sev : severity; errortype : option string }.

  (** config.rs:17-31, restricted to [display.error_level] and [diagnostics] *)
  Record config := { error_level : level; diagnostics : list (string * level) }.

  (** HashMap::get on [diagnostics] *)
  Fixpoint diag_get (m : list (string * level)) (k : string) : option level :=
    match m with
    | [] => None
    | (k', l) :: m' => if String.eqb k k' then Some l else diag_get m' k
    end.

  (** config.rs:123-128 config_warninglevel *)
  Definition config_warninglevel (c : config) (e : dmerror) : option level :=
    match errortype e with
    | Some t => diag_get (diagnostics c) t
    | None => None
    end.

  (** error.rs:463-466 set_severity *)
  Definition set_severity (e : dmerror) (s : severity) : dmerror :=
    {| payload := payload e; sev := s; errortype := errortype e |}.

  (** config.rs:135-144 set_configured_severity *)
  Definition set_configured_severity (c : config) (e : dmerror) : option dmerror :=
    match config_warninglevel c e with
    | Some LError => Some (set_severity e SError)
    | Some LWarning => Some (set_severity e SWarning)
    | Some LInfo => Some (set_severity e SInfo)
    | Some LHint => Some (set_severity e SHint)
    | Some LDisabled => None
    | Some LUnset | None => Some e
    end.

  (** config.rs:153-162 WarningLevel::applies_to *)
  Definition applies_to (l : level) (s : severity) : bool :=
    match l with
    | LDisabled => false
    | LError => (sev_rank s <=? sev_rank SError)%Z
    | LWarning => (sev_rank s <=? sev_rank SWarning)%Z
    | LInfo => (sev_rank s <=? sev_rank SInfo)%Z
    | LHint => (sev_rank s <=? sev_rank SHint)%Z
    | LUnset => true
    end.

  (** config.rs:147-149 registerable_error *)
  Definition registerable_error (c : config) (e : dmerror) : bool :=
    applies_to (error_level c) (sev e).

  (** error.rs:174-190 Context::register_error on the recorded list; the immediate printing to
      stderr (print_severity) is reported as the list of printed errors. *)
  Record context := { cfg : config; print_sev : option severity;
                      errors : list dmerror; printed : list dmerror }.

  Definition register_error (cx : context) (e : dmerror) : context :=
    match set_configured_severity (cfg cx) e with
    | None => cx
    | Some e' =>
        if registerable_error (cfg cx) e' then
          {| cfg := cfg cx; print_sev := print_sev cx;
             errors := errors cx ++ [e'];
             printed := match print_sev cx with
                        | Some p => if (sev_rank (sev e') <=? sev_rank p)%Z
                                    then printed cx ++ [e'] else printed cx
                        | None => printed cx
                        end |}
        else cx
    end.

  Definition register_all (cx : context) (es : list dmerror) : context :=
    fold_left register_error es cx.

  (** error.rs:251-264 print_all_errors: which errors are printed, and the returned flag *)
  Definition print_all_errors (cx : context) (min : severity) : list dmerror * bool :=
    let l := filter (fun e => (sev_rank (sev e) <=? sev_rank min)%Z) (errors cx) in
    (l, match l with [] => false | _ => true end).
End M.
Arguments dmerror : clear implicits.
Arguments context : clear implicits.
