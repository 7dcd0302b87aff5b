(** C46: a constant with one of everything, and what does not come back. *)
From Coq Require Import List NArith ZArith Bool String Lia Sorted.
From Verif Require Import Common.Text Common.Utf8 Common.Decimal Loc.Model Lexer.Spec Lexer.QuoteProps Parse.Ast Const.Model Const.Spec Const.Lexing Const.Texts Const.Roundtrip Const.Props Const.Maps
  Dmm.Model Dmm.TgmModel Dmm.TgmSpec Dmm.TgmProps.
Import ListNotations.
Open Scope nat_scope.

(** Numbers with one digit after the point, in tenths *)
Definition tenths : f32 Z := {|
  f_of_int := fun z => (10 * z)%Z; f_neg := Z.opp; f_zero := 0%Z; f_one := 10%Z; f_is_zero := Z.eqb 0; f_eq := Z.eqb;
  f_arith := fun op a b => match op with BAdd => (a + b)%Z | BSub => (a - b)%Z | _ => (a * b / 10)%Z end;
  f_less := fun _ => Z.ltb; f_to_u32 := fun f => Z.to_N (f / 10); f_of_u32 := fun n => (10 * Z.of_N n)%Z; f_trig := fun _ f => f;
  f_format := fun f => (if Z.ltb f 0 then lit "-" else []) ++ print_N (Z.to_N (Z.div (Z.abs f) 10)) ++
                       (if Z.eqb (Z.modulo f 10) 0 then [] else lit "." ++ print_N (Z.to_N (Z.modulo (Z.abs f) 10)));
  f_parse := fun t => match t with [a; b; c] => Some (10 * (Z.of_N a - 48) + (Z.of_N c - 48))%Z | _ => None end;
  f_show := fun _ => [] |}.
Notation const := (constant Z).
Notation shown c := (show Z tenths c).
Definition no_rgb : arguments_t Z -> option text := fun _ => None.
Definition start : loc := (1, (3, 7))%Z.
Notation eval t := (evaluate_str Z tenths no_rgb start (encode t)).

Definition demo : const :=
  CList [(CPrefab (Pop [lit "obj"; lit "item"] [(lit "name", CString (lit "a b")); (lit "pixel_x", CFloat (-25)%Z)]), None);
         (CString (lit "key"), Some (CNew (Some (Pop [lit "mob"] [])) (Some [(CFloat 120%Z, None); (CNull None, None)])));
         (CString (lit "say \""hi\"""), Some (CCall FnIcon [(CResource (lit "a/b.dmi"), None); (CString [233; 10; 120]%N, None)]));
         (CNew None None, None); (CFloat 35%Z, None); (CList [], None)].
Example demo_text : shown demo =
  lit "list(/obj/item {name = ""a b""; pixel_x = -2.5},""key"" = new /mob(12, null), {""say \""hi\""""} = icon('a/b.dmi', {""" ++ [233; 10; 120]%N ++ lit """}), new,3.5,list())".
Proof. vm_compute. reflexivity. Qed.

Ltac all_of := repeat (first [apply Forall_nil | apply Forall_cons; [first [vm_compute; tauto | unfold scalar, ident_byte, digit; lia | unfold scalar, ident_byte, digit; cbn; lia]|]]).
Ltac is_name := split; [eexists; eexists; split; [reflexivity|unfold digit; cbn; lia]|split; [cbn; all_of|discriminate]].
Ltac no_occ := let Q := fresh in intro Q; apply contains_iff in Q; vm_compute in Q; discriminate.
Ltac esc := cbn; repeat first [apply es_nil | apply es_plain; [lia|lia|] | apply es_esc; [lia|lia|]].
Ltac str := apply ok_string; split; [cbn; all_of|split; [let Q := fresh in intro Q; apply contains_iff in Q; vm_compute in Q; discriminate|intros _; esc]].
Ltac popd := apply ok_Pop; [discriminate|repeat (apply Forall_cons; [is_name|]); apply Forall_nil| |].
Lemma demo_ok : ok Z tenths demo.
Proof.
  apply ok_list. apply ok_args_one.
  { apply ok_prefab. popd.
    - cbn [map fst]. apply NoDup_cons; [intros [Q|[]]; discriminate|]. apply NoDup_cons; [intros []|apply NoDup_nil].
    - apply ok_vars_cons; [is_name|str|]. apply ok_vars_cons; [is_name| |apply ok_vars_nil]. apply ok_float. right. exists (lit "2.5"), 25%Z. split; [reflexivity|]. split; [|reflexivity].
      apply (L_float Z tenths (lit "2") (lit ".5") [] 25%Z); [discriminate|cbn; all_of| |left; reflexivity|discriminate|reflexivity]. right. exists (lit "5"). split; [reflexivity|]. split; [discriminate|cbn; all_of]. }
  apply ok_args_pair; [str| |].
  { apply ok_new.
    - intros q Q. injection Q as <-. popd; [constructor|apply ok_vars_nil].
    - intros l Q. injection Q as <-. apply ok_args_one; [|apply ok_args_one; [apply ok_null|apply ok_args_nil]]. apply ok_float. left.
      change (f_format Z tenths 120%Z) with (lit "12"). apply (L_int Z tenths (lit "12")); [discriminate|cbn; all_of|left; discriminate|reflexivity]. }
  apply ok_args_pair; [str| |].
  { apply ok_call. apply ok_args_one; [|apply ok_args_one; [str|apply ok_args_nil]]. apply ok_resource. split; [cbn; all_of|]. split; vm_compute; intuition discriminate. }
  apply ok_args_one; [apply ok_new; discriminate|]. apply ok_args_one; [|apply ok_args_one; [apply ok_list; apply ok_args_nil|apply ok_args_nil]].
  apply ok_float. left. change (f_format Z tenths 35%Z) with (lit "3" ++ lit ".5" ++ []). apply (L_float Z tenths (lit "3") (lit ".5") [] 35%Z); [discriminate|cbn; all_of| |left; reflexivity|discriminate|reflexivity].
  right. exists (lit "5"). split; [reflexivity|]. split; [discriminate|cbn; all_of].
Qed.
Lemma start_valid : place_valid start.
Proof. cbv. repeat split; lia || discriminate. Qed.
Example C46_demo : eval (shown demo) = Some demo.
Proof. apply C46_roundtrip; [exact start_valid|exact demo_ok]. Qed.

(** ** What does not come back *)
(** [var/obj/x = null] has a hint, which is not printed. *)
Theorem C46_hint_refuted : exists c : const, eval (shown c) = Some (CNull None) /\ c <> CNull None.
Proof. exists (CNull (Some [lit "obj"])). split; [vm_compute; reflexivity|discriminate]. Qed.
(** One token too many is not noticed; two are. *)
Theorem C46_trailing_token_refuted : eval (lit "1 2") = Some (CFloat 10%Z) /\ eval (lit "1 )") = Some (CFloat 10%Z) /\ eval (lit "1 2 3") = None.
Proof. vm_compute. auto. Qed.
(** A string with an interpolation *)
Theorem C46_interpolation_refuted : eval (shown (CString (lit "a[b]"))) = None.
Proof. vm_compute. reflexivity. Qed.
(** A raw string that ends in a backslash: the closing quote is taken for an escaped one, and that the string does not end is
    reported nowhere. *)
Theorem C46_backslash_refuted : eval (shown (CString (lit "a\"))) = Some (CString (lit "a\""")) /\ eval (lit "@""a\""") = Some (CString (lit "a\")).
Proof. vm_compute. auto. Qed.
(** A resource with an escaped quote *)
Theorem C46_resource_refuted : eval (shown (CResource (lit "a'b"))) <> Some (CResource (lit "a'b")).
Proof. vm_compute. discriminate. Qed.

(** ** Maps *)
Notation saved m := (save (fun c => encode (shown c)) m).
Definition one (c : const) : map_ const :=
  Map 1 [(0%Z, [Prefab (lit "/obj/item") [(lit "x", c)]; Prefab (lit "/turf") []])] {| g3_dim := (1, 1, 1)%nat; g3_data := [0%Z] |}.
Definition reloaded (c : const) : read_out (map_ const) :=
  match saved (one c) with Some bs => parse_map (evaluate_str Z tenths no_rgb start) bs | None => RPanic end.
Definition item : const := CList [(CString (lit "key;}"), Some (CNew (Some (Pop [lit "mob"] [])) (Some [(CFloat 120%Z, None)]))); (CResource (lit "a/b.dmi"), None)].
Lemma item_storable : storable Z item.
Proof.
  apply st_list. apply st_args_pair; [|apply st_new|apply st_args_one; [|apply st_args_nil]].
  - apply st_string; [intros c Hc Q; vm_compute in Hc, Q; intuition congruence|]. intros a Q.
    assert (K : last (lit "key;}") 0%N = 92%N) by (rewrite Q; apply last_last). vm_compute in K. discriminate.
  - intros q Q. injection Q as <-. reflexivity.
  - intros l Q. injection Q as <-. apply st_args_one; [apply st_float|apply st_args_nil].
  - apply st_resource; [intros c Hc Q; vm_compute in Hc, Q; intuition congruence|]. intros a b Q.
    assert (K : contains (lit "//") (lit "a/b.dmi") = true) by (apply contains_iff; exists a, b; exact Q). vm_compute in K. discriminate.
Qed.
Lemma item_ok : ok Z tenths item.
Proof.
  apply ok_list. apply ok_args_pair; [str| |apply ok_args_one; [|apply ok_args_nil]].
  - apply ok_new.
    + intros q Q. injection Q as <-. popd; [constructor|apply ok_vars_nil].
    + intros l Q. injection Q as <-. apply ok_args_one; [|apply ok_args_nil]. apply ok_float. left.
      change (f_format Z tenths 120%Z) with (lit "12"). apply (L_int Z tenths (lit "12")); [discriminate|cbn; all_of|left; discriminate|reflexivity].
  - apply ok_resource. split; [cbn; all_of|]. split; vm_compute; intuition discriminate.
Qed.
Ltac clean := let a := fresh in let b := fresh in let Q := fresh in let K := fresh in
  intros a b Q; match type of Q with ?t = _ => assert (K : contains (lit "//") t = true) by (apply contains_iff; exists a, b; exact Q) end; vm_compute in K; discriminate.
Ltac none := let c := fresh in let H := fresh in let Q := fresh in intros c H Q; vm_compute in H, Q; intuition congruence.
Lemma one_carried : carried Z tenths (one item).
Proof.
  assert (HP : forall p, Forall scalar p -> has_none_of (line_blanks ++ lit "{,)") p -> has_no_comment p -> path_ok p) by (intros; split; auto).
  split; [cbn; lia|]. split; [discriminate|]. split; [cbn; repeat constructor|]. split.
  - cbn [one dictionary]. apply Forall_cons; [|apply Forall_nil]. split; [cbn; unfold KEY_MAX; lia|]. split; [discriminate|]. cbn [snd]. apply Forall_cons; [|apply Forall_cons; [|apply Forall_nil]].
    + split; [apply HP; [cbn; all_of|none|clean]|]. split; [cbn [vars map fst]; apply NoDup_cons; [intros []|apply NoDup_nil]|]. cbn [vars]. apply Forall_cons; [|apply Forall_nil]. cbn [fst snd].
      split; [|split; [exact item_ok|exact item_storable]]. split; [cbn; all_of|]. split; [none|]. split; [clean|]. split; [intros r Q; discriminate|].
      exists [], 120%N. split; [reflexivity|]. cbn. intuition discriminate.
    + split; [apply HP; [cbn; all_of|none|clean]|]. split; constructor.
  - split; [reflexivity|]. split; [cbn; lia|]. cbn. repeat constructor; unfold KEY_MAX; lia.
Qed.
Example C46_map_demo : exists bs, saved (one item) = Some bs /\ short_lines bs /\ parse_map (evaluate_str Z tenths no_rgb start) bs = ROk (one item).
Proof.
  destruct (C46_map_roundtrip Z tenths no_rgb start (one item) start_valid one_carried) as [H1 H2].
  assert (K : keys_fit (one item)) by (repeat constructor). apply H1 in K. destruct (saved (one item)) as [bs|] eqn:E; [|congruence]. exists bs.
  assert (S : short_lines bs).
  { vm_compute in E. injection E as <-. intros a l b Q _. apply (f_equal (@List.length N)) in Q. rewrite !app_length in Q. cbn [List.length] in Q. lia. }
  split; [reflexivity|]. split; [exact S|]. apply (proj1 (H2 bs eq_refl)). exact S.
Qed.

(** A string with escaped quotes is saved in braces, and the closing brace ends the variables of the object: the next object of
    the tile has another path afterwards, and nobody is told. *)
Theorem C46_escaped_quotes_refuted : reloaded (CString (lit "say \""hi\""")) =
  ROk (Map 1 [(0%Z, [Prefab (lit "/obj/item") [(lit "x", CString (lit "say \""hi\"""))]; Prefab (lit "}/turf") []])] {| g3_dim := (1, 1, 1)%nat; g3_data := [0%Z] |}).
Proof. vm_compute. reflexivity. Qed.
(** A type with variables cannot be loaded again. *)
Theorem C46_prefab_refuted : reloaded (CPrefab (Pop [lit "mob"] [(lit "x", CNull None)])) = RErr.
Proof. vm_compute. reflexivity. Qed.
Print Assumptions C46_roundtrip.
Print Assumptions C46_injective.
Print Assumptions C46_map_roundtrip.
