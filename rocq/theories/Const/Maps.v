(** C46, continued: maps whose values are constants come back from the file they are saved to. *)
From Coq Require Import List NArith ZArith Bool String Lia Sorted.
From Verif Require Import Common.Text Common.Utf8 Loc.Model Lexer.Spec Lexer.QuoteProps Const.Model Const.Spec Const.Lexing Const.Texts Const.Roundtrip Const.Props
  Dmm.Model Dmm.TgmModel Dmm.TgmSpec Dmm.TgmProps.
Import ListNotations.
Open Scope nat_scope.

Section MAPS.
Variable F : Type.
Variable fl : f32 F.
Notation constant := (constant F).
Notation show := (show F fl).
Notation evaluate_str := (evaluate_str F fl).

(** Which constants a map file can hold: strings without quotes, line breaks and tabs that do not end in a backslash,
    resources without the signs of the format, and no variables in braces. *)
Inductive storable : constant -> Prop :=
  | st_null h : storable (CNull h)
  | st_new p a : (forall q, p = Some q -> pop_vars F q = []) -> (forall l, a = Some l -> storable_args l) -> storable (CNew p a)
  | st_list l : storable_args l -> storable (CList l)
  | st_call f l : storable_args l -> storable (CCall f l)
  | st_prefab p : pop_vars F p = [] -> storable (CPrefab p)
  | st_string s : has_none_of (34%N :: line_blanks) s -> (forall a, s <> a ++ [92%N]) -> storable (CString s)
  | st_resource s : has_none_of (line_blanks ++ lit """;}") s -> has_no_comment s -> storable (CResource s)
  | st_float f : storable (CFloat f)
with storable_args : arguments_t F -> Prop :=
  | st_args_nil : storable_args []
  | st_args_one k l : storable k -> storable_args l -> storable_args ((k, None) :: l)
  | st_args_pair k v l : storable k -> storable v -> storable_args l -> storable_args ((k, Some v) :: l).

Definition plain (c : N) : Prop := ~ In c (47%N :: line_blanks ++ lit """;}").
Lemma plain_ok w r : Forall plain w -> value_ok r -> value_ok (w ++ r).
Proof using Type.
  induction 1 as [|c w Hc Hw IH]; intro Hr; [exact Hr|]. cbn [app]. apply value_char; [intro Q; apply Hc; right; exact Q|intros ->; exfalso; apply Hc; left; reflexivity|auto].
Qed.
Ltac plains := repeat (apply Forall_cons; [unfold plain; cbn; lia|]); try apply Forall_nil.
Definition fits (t : text) : Prop := forall r, value_ok r -> value_ok (encode t ++ r).
Lemma fits_nil : fits [].
Proof using Type. intros r Hr. exact Hr. Qed.
Lemma fits_app a b : fits a -> fits b -> fits (a ++ b).
Proof using Type. intros Ha Hb r Hr. rewrite encode_app, <- app_assoc. auto. Qed.
Lemma fits_plain w : Forall plain w -> Forall (fun c => c < 128)%N w -> fits w.
Proof using Type. intros H1 H2 r Hr. rewrite (encode_ascii w H2). apply plain_ok; assumption. Qed.
Lemma ident_plain w : Forall ident_byte w -> Forall plain w.
Proof using Type. apply Forall_impl. intros c Hc. unfold ident_byte in Hc. unfold plain. cbn. lia. Qed.
Lemma digits_plain w : Forall digit w -> Forall plain w.
Proof using Type. apply Forall_impl. intros c Hc. unfold digit in Hc. unfold plain. cbn. lia. Qed.
Lemma fits_name w : name w -> fits w.
Proof using Type.
  intros Hn. pose proof Hn as (_ & H & _). apply fits_plain; [apply ident_plain; exact H|]. eapply Forall_impl; [|exact H]. intros a Ha. unfold ident_byte in Ha. lia.
Qed.
Lemma fits_path p : Forall name p -> fits (show_path p).
Proof using Type.
  induction 1 as [|i p Hi Hp IH]; [exact fits_nil|]. unfold show_path. cbn [map List.concat]. apply fits_app; [|exact IH]. intros r Hr.
  rewrite encode_app. change (encode (lit "/")) with [47%N]. cbn [app]. apply value_char; [cbn; lia| |apply fits_name; assumption].
  intros _ r' Q. rewrite (encode_name i Hi) in Q. destruct Hi as ((b & w & -> & _) & H & _). inversion H as [|? ? Hb _]; subst. injection Q as -> _. unfold ident_byte in Hb. lia.
Qed.
Lemma encode_last s : forall a, encode s = a ++ [92%N] -> exists s', s = s' ++ [92%N].
Proof using Type.
  destruct s as [|x s] using rev_ind; intros a E; [destruct a; discriminate|]. rewrite encode_app in E. exists s. f_equal.
  change (encode [x]) with (encode_char x ++ []) in E. rewrite app_nil_r in E. destruct (N.lt_ge_cases x 128) as [H|H].
  - rewrite (encode_low x H) in E. apply app_inj_tail in E. destruct E as [_ ->]. reflexivity.
  - exfalso. pose proof (encode_high x H) as Hh. destruct (encode_char_nonempty x) as (b & r & Hne).
    assert (Hn : encode_char x <> []) by (rewrite Hne; discriminate). destruct (exists_last Hn) as (l & y & Q). rewrite Q in E, Hh.
    rewrite app_assoc in E. apply app_inj_tail in E. destruct E as [_ ->]. apply Forall_app in Hh. destruct Hh as [_ Hh]. inversion Hh as [|? ? Q' _]. lia.
Qed.
Lemma none_encode bad s : Forall (fun c => c < 128)%N bad -> has_none_of bad s -> has_none_of bad (encode s).
Proof using Type.
  intros Hb H c Hc Q. rewrite Forall_forall in Hb. specialize (Hb c Q). apply (H c); [apply in_encode; assumption|exact Q].
Qed.
Lemma quote_plain s : has_none_of (34%N :: line_blanks) s -> quote s = [34%N] ++ s ++ [34%N].
Proof using Type.
  intro H. assert (K : forall p c, In c p -> In c (34%N :: line_blanks) -> contains p s = false).
  { intros p c Hp Hc. destruct (contains p s) eqn:E; [|reflexivity]. apply contains_iff in E. destruct E as (a & b & ->). exfalso. apply (H c); [|exact Hc].
    apply in_or_app. right. apply in_or_app. left. exact Hp. }
  unfold quote. rewrite (K [34; 125]%N 34%N), (K [34]%N 34%N), (K [10]%N 10%N); cbn; tauto.
Qed.
Lemma fits_string s : has_none_of (34%N :: line_blanks) s -> (forall a, s <> a ++ [92%N]) -> fits (quote s).
Proof using Type.
  intros H1 H2 r Hr. rewrite (quote_plain s H1), !encode_app. change (encode [34%N]) with [34%N]. cbn [app]. rewrite <- app_assoc. cbn [app]. apply value_string; [|exact Hr].
  assert (H : has_none_of (34%N :: line_blanks) (encode s)) by (apply none_encode; [repeat constructor|exact H1]).
  split; [|split].
  - intros c Hc Q. apply (H c Hc). right. exact Q.
  - intros a b E. exfalso. apply (H 34%N); [rewrite E; apply in_or_app; right; left; reflexivity|left; reflexivity].
  - intros a E. destruct (encode_last s a E) as (s' & Q). exact (H2 s' Q).
Qed.
Lemma fits_bytes w : has_none_of (line_blanks ++ lit """;}") w -> has_no_comment w -> forall r, value_ok r -> (forall r', r <> 47%N :: r') -> value_ok (w ++ r).
Proof using Type.
  induction w as [|c w IH]; intros H1 H2 r Hr Hn; [exact Hr|]. cbn [app]. apply value_char.
  - apply H1. left. reflexivity.
  - intros -> r' Q. destruct w as [|d w]; [exact (Hn r' Q)|]. injection Q as -> _. exact (H2 [] w eq_refl).
  - apply IH; [intros d Hd; apply H1; right; exact Hd| |exact Hr|exact Hn]. intros a b E. apply (H2 (c :: a) b). rewrite E. reflexivity.
Qed.
Lemma fits_resource s : has_none_of (line_blanks ++ lit """;}") s -> has_no_comment s -> fits (lit "'" ++ s ++ lit "'").
Proof using Type.
  intros H1 H2 r Hr. rewrite !encode_app. change (encode (lit "'")) with [39%N]. cbn [app]. apply value_char; [cbn; lia|lia|]. rewrite <- app_assoc. cbn [app].
  apply fits_bytes.
  - apply none_encode; [cbn; repeat constructor|exact H1].
  - intros a b E. assert (C : contains [47; 47]%N (encode s) = true) by (apply contains_iff; exists a, b; exact E).
    rewrite contains_encode2 in C by lia. apply contains_iff in C. destruct C as (a' & b' & C). exact (H2 a' b' C).
  - apply value_char; [cbn; lia|lia|exact Hr].
  - intros r' Q. discriminate.
Qed.
Ltac fixed := apply fits_plain; [cbn; plains|cbn; repeat (apply Forall_cons; [lia|]); apply Forall_nil].
Lemma fits_digits w : Forall digit w -> fits w.
Proof using Type. intro H. apply fits_plain; [apply digits_plain; exact H|]. eapply Forall_impl; [|exact H]. unfold digit. intros a Ha. lia. Qed.
Lemma fits_literal w v : literal F fl w v -> fits w.
Proof using Type.
  intros [w' _ H _ _|i f x v' _ Hi Hf Hx _ _|v' _|v' _]; [apply fits_digits; exact H| |fixed|fixed].
  apply fits_app; [apply fits_digits; exact Hi|]. apply fits_app.
  - destruct Hf as [->|(d & -> & _ & Hd)]; [exact fits_nil|]. apply fits_app; [fixed|apply fits_digits; exact Hd].
  - destruct Hx as [->|(s & d & -> & Hs & _ & Hd)]; [exact fits_nil|]. apply fits_app; [fixed|]. apply fits_app; [|apply fits_digits; exact Hd].
    destruct Hs as [<-|[<-|[]]]; fixed.
Qed.
Lemma fits_float f : float_ok F fl f -> fits (f_format F fl f).
Proof using Type.
  intros [H|(w & v & -> & H & _)]; [exact (fits_literal _ _ H)|]. apply fits_app; [fixed|exact (fits_literal _ _ H)].
Qed.
Lemma fits_fn f : fits (fn_name f).
Proof using Type. destruct f; fixed. Qed.
Lemma fits_args l : Forall (fun kv => fits (show (fst kv)) /\ forall v, snd kv = Some v -> fits (show v)) l -> forall b, fits (show_args F show b l).
Proof using Type.
  induction 1 as [|[k v] l [Hk Hv] Hl IH]; intro b; [exact fits_nil|]. cbn [fst snd] in Hk, Hv.
  change (show_args F show b ((k, v) :: l)) with ((if b then [] else lit ", ") ++ show k ++ (match v with Some v => lit " = " ++ show v | None => [] end) ++ show_args F show false l).
  apply fits_app; [destruct b; [exact fits_nil|fixed]|]. apply fits_app; [exact Hk|]. apply fits_app; [|apply IH].
  destruct v as [v|]; [|exact fits_nil]. apply fits_app; [fixed|apply Hv; reflexivity].
Qed.
Lemma fits_elements l : Forall (fun kv => fits (show (fst kv)) /\ forall v, snd kv = Some v -> fits (show v)) l -> forall b p, fits (show_elements F show b p l).
Proof using Type.
  induction 1 as [|[k v] l [Hk Hv] Hl IH]; intros b p; [exact fits_nil|]. cbn [fst snd] in Hk, Hv.
  change (show_elements F show b p ((k, v) :: l)) with ((if b then [] else lit "," ++ if p then lit " " else []) ++ show k ++ (match v with Some v => lit " = " ++ show v | None => [] end) ++
    show_elements F show false (match v with Some _ => true | None => false end) l).
  apply fits_app; [destruct b; [exact fits_nil|]; destruct p; fixed|]. apply fits_app; [exact Hk|]. apply fits_app; [|apply IH].
  destruct v as [v|]; [|exact fits_nil]. apply fits_app; [fixed|apply Hv; reflexivity].
Qed.
Lemma fits_pop p : ok_pop F fl p -> pop_vars F p = [] -> fits (show_pop F fl p).
Proof using Type.
  intros [path vars _ H _ _] E. cbn in E. subst vars. change (show_pop F fl (Pop path [])) with (show_path path ++ []). rewrite app_nil_r. apply fits_path. exact H.
Qed.
Scheme storable_i := Induction for storable Sort Prop with storable_args_i := Induction for storable_args Sort Prop.
Combined Scheme storable_both from storable_i, storable_args_i.
Lemma fits_all : (forall c, storable c -> ok F fl c -> fits (show c)) /\
  (forall l, storable_args l -> ok_args F fl l -> Forall (fun kv => fits (show (fst kv)) /\ forall v, snd kv = Some v -> fits (show v)) l).
Proof using Type.
  apply (storable_both (fun c _ => ok F fl c -> fits (show c))
    (fun l _ => ok_args F fl l -> Forall (fun kv => fits (show (fst kv)) /\ forall v, snd kv = Some v -> fits (show v)) l)).
  - intros h _. change (show (CNull h)) with (lit "null"). fixed.
  - intros p a Hp Ha IH Ho. inversion Ho as [|? ? Op Oa| | | | | |]; subst.
    change (show (CNew p a)) with (lit "new" ++ (match p with Some p => lit " " ++ show_pop F fl p | None => [] end) ++ (match a with Some l => lit "(" ++ show_args F show true l ++ lit ")" | None => [] end)).
    apply fits_app; [fixed|]. apply fits_app.
    + destruct p as [p|]; [|exact fits_nil]. apply fits_app; [fixed|]. apply fits_pop; auto.
    + destruct a as [l|]; [|exact fits_nil]. apply fits_app; [fixed|]. apply fits_app; [|fixed]. apply fits_args. exact (IH l eq_refl (Oa l eq_refl)).
  - intros l Hl IH Ho. inversion Ho as [| |? Ol| | | | |]; subst. change (show (CList l)) with (lit "list(" ++ show_elements F show true false l ++ lit ")").
    apply fits_app; [fixed|]. apply fits_app; [|fixed]. apply fits_elements. auto.
  - intros f l Hl IH Ho. inversion Ho as [| | |? ? Ol| | | |]; subst. change (show (CCall f l)) with (fn_name f ++ lit "(" ++ show_args F show true l ++ lit ")").
    apply fits_app; [apply fits_fn|]. apply fits_app; [fixed|]. apply fits_app; [|fixed]. apply fits_args. auto.
  - intros p Hp Ho. inversion Ho; subst. apply fits_pop; assumption.
  - intros s H1 H2 _. apply fits_string; assumption.
  - intros s H1 H2 _. apply fits_resource; assumption.
  - intros f Ho. inversion Ho; subst. apply fits_float. assumption.
  - intros _. constructor.
  - intros k l Hk IHk Hl IHl Ho. inversion Ho; subst. constructor; [|auto]. cbn [fst snd]. split; [auto|discriminate].
  - intros k v l Hk IHk Hv IHv Hl IHl Ho. inversion Ho; subst. constructor; [|auto]. cbn [fst snd]. split; [auto|]. intros v' Q. injection Q as <-. auto.
Qed.
Theorem value_of_constant c : ok F fl c -> storable c -> value_ok (encode (show c)).
Proof using Type. intros Ho Hs. rewrite <- (app_nil_r (encode (show c))). apply (proj1 fits_all c Hs Ho). constructor. Qed.

(** A map whose variables hold such constants *)
Definition carried_prefab (f : prefab constant) : Prop :=
  path_ok (path f) /\ NoDup (map fst (vars f)) /\ Forall (fun kv => name_ok (fst kv) /\ ok F fl (snd kv) /\ storable (snd kv)) (vars f).
Definition carried (m : map_ constant) : Prop :=
  (1 <= key_length m <= 3)%Z /\ dictionary m <> [] /\ StronglySorted Z.lt (map fst (dictionary m)) /\
  Forall (fun e => (0 <= fst e <= KEY_MAX)%Z /\ snd e <> [] /\ Forall carried_prefab (snd e)) (dictionary m) /\
  grid3_ok (grid m) /\ (let '(dz, dy, dx) := g3_dim (grid m) in 1 <= dz /\ 1 <= dy /\ 1 <= dx)%nat /\
  Forall (fun k => 0 <= k <= KEY_MAX)%Z (g3_data (grid m)).

(** The whole of it: saving with the printer of constants and loading with their evaluator *)
Theorem C46_map_roundtrip rgb l m : place_valid l -> carried m ->
  (save (fun c => encode (show c)) m <> None <-> keys_fit m) /\
  (forall bs, save (fun c => encode (show c)) m = Some bs ->
     (short_lines bs -> parse_map (evaluate_str rgb l) bs = ROk m) /\ (~ short_lines bs -> parse_map (evaluate_str rgb l) bs = RPanic)).
Proof using Type.
  intros Hl (H1 & H2 & H3 & H4 & H5 & H6 & H7). apply C09_roundtrip. repeat (split; [assumption|]). split; [|auto].
  eapply Forall_impl; [|exact H4]. intros e (K1 & K2 & K3). split; [exact K1|]. split; [exact K2|]. eapply Forall_impl; [|exact K3].
  intros f (P1 & P2 & P3). split; [exact P1|]. split; [exact P2|]. eapply Forall_impl; [|exact P3]. intros kv (Q1 & Q2 & Q3). split; [exact Q1|]. split.
  - apply C46_roundtrip; assumption.
  - apply value_of_constant; assumption.
Qed.
End MAPS.
