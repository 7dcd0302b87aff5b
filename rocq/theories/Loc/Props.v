(** C05 annotation tree, C18 file registry, C19 locations. *)
From Coq Require Import List ZArith Bool.
From Verif Require Import Common.Order Loc.Model Loc.Spec Loc.Proofs.
Import ListNotations.
Open Scope Z_scope.

(** C05. For every way of building an annotation tree by inserts and merges of half-open ranges
    (with ends that have a proper predecessor): nothing panics, [len] counts the ranges, [iter]
    reports all of them, [get_range s0..e0] exactly those overlapping [s0..e0) (start before e0 and
    s0 before end), [get_location l] exactly those with start <= l <= end, and [get_range_raw
    s0..=e0] exactly those overlapping the closed range. *)
Theorem C05_annotation_lookups :
  forall (V : Type) (b : build V), build_ok b ->
  exists a, run_build b = Some a /\ alen a = length (inserted b) /\
    (exists res, a_iter a = Some res /\ reports b (fun _ _ => true) res) /\
    (forall s0 e0, loc_ok s0 -> loc_ok e0 -> has_pred e0 ->
       exists res, a_get_range a s0 e0 = Some res /\
         reports b (fun s e => beforeb s e0 && beforeb s0 e) res) /\
    (forall l, loc_ok l -> has_pred l ->
       exists res, a_get_location a l = Some res /\
         reports b (fun s e => negb (beforeb l s) && negb (beforeb e l)) res) /\
    (forall s0 e0, loc_ok s0 -> loc_ok e0 ->
       exists res, a_get_range_raw a (s0, e0) = Some res /\
         reports b (fun s e => negb (beforeb e0 s) && beforeb s0 e) res).
Proof. exact @annot_lemma. Qed.
Print Assumptions C05_annotation_lookups.

Example C05_demo_build : build nat :=
  BMerge (BInsert (BInsert BNew (1, (1, 1)) (1, (2, 1)) 10%nat) (1, (1, 5)) (1, (1, 8)) 20%nat)
         (BInsert BNew (1, (1, 5)) (1, (1, 8)) 30%nat).
Example C05_hypotheses_met : build_ok C05_demo_build.
Proof.
  unfold build_ok; simpl. intros s e v [H|[H|[H|[]]]]; inversion H; subst;
    unfold loc_ok, has_pred, lfile, lline, lcol; simpl; repeat split; try discriminate; reflexivity.
Qed.
Example C05_demo_result :
  exists a, run_build C05_demo_build = Some a /\
    a_get_location a (1, (1, 8)) =
      Some [((1, (1, 1)), (1, (2, 0)), 10%nat); ((1, (1, 5)), (1, (1, 7)), 20%nat);
            ((1, (1, 5)), (1, (1, 7)), 30%nat)] /\
    a_get_range a (1, (1, 8)) (1, (1, 9)) = Some [((1, (1, 1)), (1, (2, 0)), 10%nat)].
Proof. eexists; repeat split; vm_compute; reflexivity. Qed.

(** C18. For every history of [register] calls that does not hit the file limit. *)
Theorem C18_registry_partial :
  forall (P : Type) (dec : forall x y : P, {x = y} + {x <> y}) (ps : list P) s ids,
  registers dec fl_new ps = Some (s, ids) ->
  map (get_id dec s) ps = map Some ids /\
  (forall p, (exists id, get_id dec s p = Some id) <-> In p ps) /\
  (forall p q id, get_id dec s p = Some id -> get_id dec s q = Some id -> p = q) /\
  (forall p id, get_id dec s p = Some id -> get_path s id = PPath p) /\
  (forall p id, get_id dec s p = Some id -> register dec s p = Some (s, id)) /\
  (forall p id, get_id dec s p = Some id -> id <> FILEID_BUILTINS) /\
  (Z.of_nat (length (files s)) <= FILEID_MAX ->
   forall p id, get_id dec s p = Some id -> id <> FILEID_BAD) /\
  (NoDup (for_each s) /\ forall p, In p (for_each s) <-> In p ps).
Proof. exact @registry_lemma. Qed.
Print Assumptions C18_registry_partial.

(** The clause "no id is the bad id" fails: the 65535th distinct file is given the bad id, which
    the limit check (off by one) lets through. *)
Theorem C18_bad_id_refuted :
  exists (ps : list Z) s ids p,
    registers Z.eq_dec fl_new ps = Some (s, ids) /\ In p ps /\
    get_id Z.eq_dec s p = Some FILEID_BAD.
Proof. exact bad_id_lemma. Qed.
Print Assumptions C18_bad_id_refuted.

(** Looking up an id panics exactly for the one id after the last registered one ("(unknown)" is
    only reached beyond it). *)
Theorem C18_get_path_panics_iff :
  forall (P : Type) (s : file_list P) file, 0 <= file < 2 ^ 16 ->
  (get_path s file = PPanic <-> file = Z.of_nat (length (files s)) + 1).
Proof. exact @get_path_panics. Qed.
Print Assumptions C18_get_path_panics_iff.

Example C18_demo : exists s, registers Z.eq_dec fl_new [7; 8; 7; 9] = Some (s, [1; 2; 1; 3]) /\
  get_path s 2 = PPath 8 /\ get_path s 4 = PPanic /\ get_path s 5 = PUnknown.
Proof. eexists; repeat split; vm_compute; reflexivity. Qed.

(** C19. *)
Theorem C19_pack :
  forall a b, loc_ok a -> loc_ok b ->
  0 <= pack a < 2 ^ 64 /\ (pack a = pack b <-> a = b) /\ (pack a < pack b <-> before a b).
Proof. exact pack_lemma. Qed.
Print Assumptions C19_pack.

Theorem C19_pred :
  forall l, loc_ok l ->
  (pred l = None <-> l = (0, (0, 0))) /\
  (l = (FILEID_BAD, (0, 0)) -> pred l = Some l) /\
  (has_pred l -> exists p, pred l = Some p /\ loc_ok p /\ before p l /\
     forall q, loc_ok q -> before q l -> q = p \/ before q p).
Proof. exact pred_lemma. Qed.
Print Assumptions C19_pred.

(** [before] is the lexicographic comparison of (file, line, column). *)
Theorem C19_before_meaning :
  forall a b, before a b <->
  lfile a < lfile b \/
  lfile a = lfile b /\ (lline a < lline b \/ lline a = lline b /\ lcol a < lcol b).
Proof. exact before_iff. Qed.
Print Assumptions C19_before_meaning.

Example C19_demo : loc_ok (3, (7, 0)) /\ has_pred (3, (7, 0)) /\
  pred (3, (7, 0)) = Some (3, (6, 65535)) /\ pack (3, (7, 2)) = 844424930590722.
Proof. unfold loc_ok, has_pred, lfile, lline, lcol; simpl; repeat split; try discriminate; reflexivity. Qed.
