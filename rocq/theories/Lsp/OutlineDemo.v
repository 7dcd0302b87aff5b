(** C75: cases that meet the hypotheses, and what the code does not do. *)
From Coq Require Import List Arith NArith ZArith Bool String Lia Sorting.Sorted.
From Verif Require Import Common.Text Loc.Model Loc.Spec Loc.Proofs Lsp.Outline Lsp.OutlineSpec Lsp.OutlineProps.
Import ListNotations.
Open Scope nat_scope.

Definition at_ (l c : Z) : loc := (1, (l, c))%Z.
(** <<
/datum                       1
    var/tmp/size = 3         2
    proc/grow(by)            3
        var/k = by           4
#define BIG 100              5
>> *)
Definition demo : build ann :=
  BInsert (BInsert (BInsert (BInsert (BInsert (BInsert BNew
    (at_ 5 9) (at_ 5 12) (AMacro (lit "BIG")))
    (at_ 4 17) (at_ 4 18) AOther)
    (at_ 4 9) (at_ 5 1) (ALocal [] (lit "k")))
    (at_ 3 18) (at_ 5 1) (ABody [lit "datum"; lit "proc"; lit "grow"] 0))
    (at_ 2 5) (at_ 2 21) (AVariable [lit "datum"; lit "var"; lit "tmp"; lit "size"]))
    (at_ 1 7) (at_ 5 1) (ABlock [lit "datum"]).
Example demo_ok : build_ok demo.
Proof.
  intros s e v H. cbn [demo inserted app] in H. cbn [In] in H.
  repeat (destruct H as [H|H]; [injection H; intros; subst; unfold at_, loc_ok, has_pred, lfile, lline, lcol; cbn; repeat split; try lia; intros Q; discriminate Q|]). destruct H.
Qed.
Definition in_fileb (items : list item) (file : Z) : bool :=
  forallb (fun i => (lfile (start_of i) =? file)%Z && (lfile (last_of i) =? file)%Z && (1 <=? lline (start_of i))%Z && negb (beforeb (last_of i) (start_of i))) items.
Lemma in_fileb_ok items file : in_fileb items file = true -> in_file items file.
Proof.
  intros G i Hi. unfold in_fileb in G. rewrite forallb_forall in G. specialize (G i Hi). rewrite !andb_true_iff, negb_true_iff, !Z.eqb_eq, Z.leb_le in G.
  destruct G as [[[G1 G2] G3] G4]. unfold before. rewrite G4. repeat split; auto; discriminate.
Qed.
Theorem C75_demo :
  exists annotations, run_build demo = Some annotations /\
  document_symbols annotations 1 = Some (Some
    [ Sym (lit "datum") None KClass ((0, 6), (4, 0))%Z ((0, 6), (0, 6))%Z (Some
        [ Sym (lit "size") None KField ((1, 4), (1, 19))%Z ((1, 4), (1, 4))%Z None;
          Sym (lit "grow") None KMethod ((2, 17), (4, 0))%Z ((2, 17), (2, 17))%Z (Some
            [ Sym (lit "k") None KVariable ((3, 8), (4, 0))%Z ((3, 8), (3, 8))%Z None ]) ]);
      Sym (lit "BIG") None KConstant ((4, 8), (4, 10))%Z ((4, 8), (4, 8))%Z None ])
  /\ nested (map reported (inserted demo)) /\ in_file (map reported (inserted demo)) 1.
Proof.
  eexists. split; [vm_compute; reflexivity|]. split; [vm_compute; reflexivity|]. split.
  - assert (G : forallb (fun i => forallb (fun j => (negb (beforeb (start_of i) (start_of j)) && negb (beforeb (last_of j) (last_of i)))
       || (negb (beforeb (start_of j) (start_of i)) && negb (beforeb (last_of i) (last_of j))) || (beforeb (last_of i) (start_of j) || beforeb (last_of j) (start_of i)))
       (map reported (inserted demo))) (map reported (inserted demo)) = true) by (vm_compute; reflexivity).
    intros i j Hi Hj. rewrite forallb_forall in G. specialize (G i Hi). rewrite forallb_forall in G. specialize (G j Hj).
    unfold within, apart, before. rewrite !orb_true_iff, !andb_true_iff, !negb_true_iff in G. destruct G as [[[G1 G2]|[G1 G2]]|G].
    + left. rewrite G1, G2. split; discriminate.
    + right. left. rewrite G1, G2. split; discriminate.
    + right. right. exact G.
  - apply in_fileb_ok. vm_compute. reflexivity.
Qed.
Print Assumptions C75_demo.

(** the detail: of /obj/item/proc/use(), within a block /obj it is item, within /obj/item there is none *)
Theorem C75_detail_demo :
  name_and_detail [lit "obj"; lit "item"; lit "proc"; lit "use"] 0 = Some (lit "use", Some (lit "item"))
  /\ name_and_detail [lit "obj"; lit "item"; lit "proc"; lit "use"] 1 = Some (lit "use", Some (lit "item"))
  /\ name_and_detail [lit "obj"; lit "item"; lit "proc"; lit "use"] 2 = Some (lit "use", None).
Proof. repeat split; vm_compute; reflexivity. Qed.
Print Assumptions C75_detail_demo.

Definition region_lines : text :=
  lit "//#region outer" ++ [10%N] ++ lit "  // #region" ++ [13%N; 10%N] ++ lit "// #endregion" ++ [10%N] ++ lit "//#regions" ++ [10%N] ++ lit "//#endregion" ++ [10%N] ++ lit "// #endregion" ++ [10%N] ++ lit "//  #region".
Theorem C75_folds_demo : folding_ranges region_lines = [(1, 2); (0, 4)].
Proof. vm_compute. reflexivity. Qed.
Print Assumptions C75_folds_demo.

Definition include_demo : build ann := BInsert (BInsert BNew (at_ 2 1) (at_ 2 20) (AInclude (lit "a.dm"))) (at_ 4 8) (at_ 4 15) (AResource (lit "x.dmi")).
Theorem C75_links_demo :
  exists annotations, run_build include_demo = Some annotations /\
  document_links text (fun p => Some (lit "/home/" ++ p)) annotations 1
    = Some (Fine (Some [((1, 0), (1, 19), lit "/home/a.dm"); ((3, 7), (3, 14), lit "/home/x.dmi")]%Z)).
Proof. eexists. split; [vm_compute; reflexivity|]. vm_compute. reflexivity. Qed.
Print Assumptions C75_links_demo.

(** Refuted: the ranges of the outline do not include the last character: the end, which the protocol excludes, is the last location, not the one
    after.  A macro of one character has an empty range.  (The links add one column.) *)
Theorem C75_end_refuted :
  exists annotations, run_build (BInsert BNew (at_ 5 9) (at_ 5 10) (AMacro (lit "B"))) = Some annotations
  /\ document_symbols annotations 1 = Some (Some [Sym (lit "B") None KConstant ((4, 8), (4, 8))%Z ((4, 8), (4, 8))%Z None])
  /\ document_links text (fun p => Some p) annotations 1 = Some (Fine (Some [])).
Proof. eexists. split; [vm_compute; reflexivity|]. split; vm_compute; reflexivity. Qed.
Print Assumptions C75_end_refuted.

(** Refuted: what is inside of a block is below it.  Not if it starts at the last location of the block. *)
Theorem C75_inside_refuted :
  exists annotations i j, run_build (BInsert (BInsert BNew (at_ 1 7) (at_ 1 13) (ABlock [lit "mob"])) (at_ 1 12) (at_ 1 13) (AVariable [lit "mob"; lit "x"])) = Some annotations
  /\ within i j /\ in_file [i; j] 1
  /\ document_symbols annotations 1 = Some (Some
       [Sym (lit "mob") None KClass ((0, 6), (0, 11))%Z ((0, 6), (0, 6))%Z (Some []); Sym (lit "x") (Some (lit "mob")) KField ((0, 11), (0, 11))%Z ((0, 11), (0, 11))%Z None])
  /\ i = reported (at_ 1 12, at_ 1 13, AVariable [lit "mob"; lit "x"]) /\ j = reported (at_ 1 7, at_ 1 13, ABlock [lit "mob"]).
Proof.
  eexists. exists (reported (at_ 1 12, at_ 1 13, AVariable [lit "mob"; lit "x"])), (reported (at_ 1 7, at_ 1 13, ABlock [lit "mob"])).
  split; [vm_compute; reflexivity|]. split; [split; intros Q; vm_compute in Q; discriminate Q|]. split; [|split; [|split]; vm_compute; reflexivity].
  apply in_fileb_ok. vm_compute. reflexivity.
Qed.
Print Assumptions C75_inside_refuted.

(** Refuted: what is below something is inside of it.  Not where ranges overlap. *)
Theorem C75_overlap_refuted :
  exists annotations, run_build (BInsert (BInsert BNew (at_ 1 1) (at_ 3 1) (ABlock [lit "mob"])) (at_ 2 1) (at_ 5 1) (AVariable [lit "mob"; lit "x"])) = Some annotations
  /\ document_symbols annotations 1 = Some (Some
       [Sym (lit "mob") None KClass ((0, 0), (2, 0))%Z ((0, 0), (0, 0))%Z (Some [Sym (lit "x") None KField ((1, 0), (4, 0))%Z ((1, 0), (1, 0))%Z None])]).
Proof. eexists. split; [vm_compute; reflexivity|]. vm_compute. reflexivity. Qed.
Print Assumptions C75_overlap_refuted.
