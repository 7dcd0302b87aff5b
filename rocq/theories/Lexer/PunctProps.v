(** Punctuation is read by maximal munch (C11). *)
From Coq Require Import List NArith ZArith Lia Bool String.
From Verif Require Import Common.Text Common.Utf8 Lexer.Tracker Lexer.Punct Lexer.Model Lexer.Spec Lexer.Facts.
Import ListNotations.
Open Scope N_scope.

(** ** Facts about the tables, by computation *)
Definition symbols : list (list byte * punct) := firstn 70 PUNCT_TABLE.
Definition items_of (needle : list byte) : list (list byte * punct) := filter (fun e => starts_with needle (fst e)) symbols.
Lemma in_items_of : forall needle e, In e (items_of needle) <-> In e symbols /\ starts_with needle (fst e) = true.
Proof. intros needle e. exact (filter_In (fun e => starts_with needle (fst e)) e symbols). Qed.
Fixpoint prefixes (l : list byte) : list (list byte) :=
  match l with [] => [] | x :: l' => [x] :: map (cons x) (prefixes l') end.
Definition all_prefixes : list (list byte) := flat_map (fun e => prefixes (fst e)) symbols.
Lemma in_all_prefixes : forall p, In p all_prefixes <-> exists e, In e symbols /\ In p (prefixes (fst e)).
Proof. intro p. exact (in_flat_map (fun e => prefixes (fst e)) symbols p). Qed.
Definition ent_dec : forall a b : list byte * punct, {a = b} + {a <> b}.
Proof. decide equality; [apply punct_eq_dec | apply list_eq_dec, N.eq_dec]. Defined.
Definition items_dec := list_eq_dec ent_dec.
Definition bool_of {A B : Prop} (d : {A} + {B}) : bool := if d then true else false.

Lemma symbols_spec : forall w p, spells w p <-> In (w, p) symbols.
Proof.
  intros w p. unfold spells. assert (E : PUNCT_TABLE = symbols ++ [([105; 110], PIn)]) by reflexivity. rewrite E, in_app_iff. split.
  - intros [[H|[H|[]]] Hp]; [exact H|]. injection H as _ <-. congruence.
  - intro H. split; [left; exact H|]. intros ->.
    assert (C : forallb (fun e => negb (bool_of (punct_eq_dec (snd e) PIn))) symbols = true) by (vm_compute; reflexivity).
    rewrite forallb_forall in C. specialize (C _ H). cbn in C. discriminate.
Qed.
Global Opaque symbols items_of all_prefixes.
Lemma starts_prefixes : forall needle w, needle <> [] -> starts_with needle w = true -> In needle (prefixes w).
Proof.
  induction needle as [|x n IH]; intros w Hn H; [congruence|]. destruct w as [|y w]; [discriminate|].
  cbn [starts_with] in H. apply andb_true_iff in H. destruct H as [H1 H2]. apply N.eqb_eq in H1. subst y. cbn [prefixes].
  destruct n as [|z n]; [left; reflexivity|]. right. apply in_map. apply IH; [discriminate | exact H2].
Qed.
Lemma items_prefixes : forall needle, needle <> [] -> items_of needle <> [] -> In needle all_prefixes.
Proof.
  intros needle Hn H. destruct (items_of needle) as [|e l] eqn:E; [congruence|].
  assert (I : In e (items_of needle)) by (rewrite E; left; reflexivity). apply in_items_of in I. destruct I as [I1 I2].
  apply in_all_prefixes. exists e. split; [exact I1|]. apply starts_prefixes; assumption.
Qed.
Lemma speedy_ok : forall b, filter_punct_table b = items_of [b].
Proof.
  intro b. destruct (N.ltb_spec b 127) as [H|H].
  - assert (C : forallb (fun n => bool_of (items_dec (filter_punct_table (N.of_nat n)) (items_of [N.of_nat n]))) (seq 0 127) = true) by (vm_compute; reflexivity).
    rewrite forallb_forall in C. specialize (C (N.to_nat b)). rewrite N2Nat.id in C.
    destruct (items_dec (filter_punct_table b) (items_of [b])) as [E|E]; [exact E|]. cbn in C.
    assert (In (N.to_nat b) (seq 0 127)) by (apply in_seq; lia). specialize (C H0). discriminate.
  - unfold filter_punct_table. rewrite nth_overflow by (cbn [SPEEDY_TABLE List.length]; lia). cbn.
    destruct (items_of [b]) as [|e l] eqn:E; [reflexivity|]. exfalso.
    assert (I : In [b] all_prefixes) by (apply items_prefixes; [discriminate | rewrite E; discriminate]).
    assert (C : forallb (fun p => match p with x :: _ => x <? 127 | [] => false end) all_prefixes = true) by (vm_compute; reflexivity).
    rewrite forallb_forall in C. specialize (C _ I). cbn in C. apply N.ltb_lt in C. lia.
Qed.
Lemma starts_with_trans : forall a b c, starts_with (a ++ b) c = true -> starts_with a c = true.
Proof. intros a b c. rewrite !starts_with_spec. intros (r & ->). exists (b ++ r). rewrite app_assoc. reflexivity. Qed.
Lemma skip_until_none : forall f l, (forall x, In x l -> f x = false) -> skip_until f l = [].
Proof.
  induction l as [|x l IH]; intro H; [reflexivity|]. cbn [skip_until]. rewrite (H x) by (left; reflexivity). apply IH. intros y Hy. apply H. right. exact Hy.
Qed.
Lemma filter_punct_ok : forall needle b, needle <> [] -> filter_punct (items_of needle) (needle ++ [b]) = items_of (needle ++ [b]).
Proof.
  intros needle b Hn. destruct (items_of (needle ++ [b])) as [|e l] eqn:E.
  - unfold filter_punct. rewrite skip_until_none; [reflexivity|]. intros x Hx. destruct (starts_with (needle ++ [b]) (fst x)) eqn:Es; [|reflexivity]. exfalso.
    apply in_items_of in Hx. assert (In x (items_of (needle ++ [b]))) by (apply in_items_of; split; [apply Hx | exact Es]).
    rewrite E in H. destruct H.
  - rewrite <- E. assert (I : In (needle ++ [b]) all_prefixes) by (apply items_prefixes; [destruct needle; discriminate | rewrite E; discriminate]).
    assert (C : forallb (fun p => (List.length p <=? 1)%nat || bool_of (items_dec (filter_punct (items_of (removelast p)) p) (items_of p))) all_prefixes = true) by (vm_compute; reflexivity).
    rewrite forallb_forall in C. specialize (C _ I). rewrite removelast_last in C.
    destruct (items_dec (filter_punct (items_of needle) (needle ++ [b])) (items_of (needle ++ [b]))) as [E'|E']; [exact E'|].
    rewrite app_length in C. cbn [bool_of List.length] in C. rewrite orb_false_r in C. apply Nat.leb_le in C. destruct needle; [congruence | cbn in C; lia].
Qed.
Lemma items_head : forall needle e l, needle <> [] -> items_of needle = e :: l -> fst e = needle /\ (List.length needle < 8)%nat.
Proof.
  intros needle e l Hn E. assert (I : In needle all_prefixes) by (apply items_prefixes; [exact Hn | rewrite E; discriminate]).
  assert (C : forallb (fun p => match items_of p with e :: _ => text_eqb (fst e) p && (List.length p <? 8)%nat | [] => false end) all_prefixes = true) by (vm_compute; reflexivity).
  rewrite forallb_forall in C. specialize (C _ I). rewrite E in C. apply andb_true_iff in C. destruct C as [C1 C2]. apply text_eqb_eq in C1. apply Nat.ltb_lt in C2. auto.
Qed.
Lemma symbols_nonempty : forall w p, In (w, p) symbols -> w <> [].
Proof.
  intros w p H. assert (C : forallb (fun e => negb (text_eqb (fst e) [])) symbols = true) by (vm_compute; reflexivity).
  rewrite forallb_forall in C. specialize (C _ H). cbn in C. intros ->. discriminate.
Qed.
Lemma prefix_longer : forall w needle r, prefix w (needle ++ r) -> (List.length needle <= List.length w)%nat -> exists m, w = needle ++ m.
Proof.
  intros w needle r (q & E) Hl. revert w E Hl. induction needle as [|x n IH]; intros w E Hl; [exists w; reflexivity|].
  destruct w as [|y w]; [cbn in Hl; lia|]. cbn in E. injection E as -> E. destruct (IH w E) as (m & ->); [cbn in Hl; lia|]. exists m. reflexivity.
Qed.
Lemma in_items : forall needle m p, In (needle ++ m, p) symbols -> In (needle ++ m, p) (items_of needle).
Proof. intros needle m p H. apply in_items_of. split; [exact H|]. cbn [fst]. apply starts_with_spec. exists m. reflexivity. Qed.
Lemma firstn_app_exact : forall (l l' : list byte) n, n = List.length l -> firstn n (l ++ l') = l.
Proof. intros l l' n ->. rewrite firstn_app, Nat.sub_diag, firstn_all. cbn. apply app_nil_r. Qed.

Section LOOP.
Variable content : list byte.
Notation len := (List.length content).

Lemma punct_loop_spec : forall fuel needle cand L k, spot content k L -> pending L = None -> (len - k < fuel)%nat -> needle <> [] -> items_of needle <> [] ->
  exists p w m L', punct_loop fuel needle (items_of needle) cand L = Ok (Some p, L') /\ longest w p (needle ++ skipn k content) /\ w = needle ++ m /\
    spot content (k + List.length m) L' /\ same L L'.
Proof.
  induction fuel as [|fuel IH]; intros needle cand L k H Hp Hf Hn Hi; [lia|].
  destruct (items_of needle) as [|it more] eqn:Ei; [congruence|]. destruct (items_head _ _ _ Hn Ei) as [Eh Hlen8].
  assert (Hit : In (needle, snd it) symbols). { assert (I : In it (items_of needle)) by (rewrite Ei; left; reflexivity). apply in_items_of in I. rewrite <- Eh. destruct it; apply I. }
  cbn [punct_loop]. rewrite Eh, text_eqb_refl.
  (* the answer is [needle] itself, unless a longer entry is possible *)
  assert (Stop : forall L', spot content k L' -> same L L' ->
            (forall m p', m <> [] -> prefix (needle ++ m) (needle ++ skipn k content) -> ~ In (needle ++ m, p') symbols) ->
            exists p w m L'', Ok (Some (snd it), L') = Ok (Some p, L'') /\ longest w p (needle ++ skipn k content) /\ w = needle ++ m /\ spot content (k + List.length m) L'' /\ same L L'').
  { intros L' H' Hs' Hno. exists (snd it), needle, [], L'. split; [reflexivity|]. split.
    - split; [apply symbols_spec; exact Hit|]. split; [exists (skipn k content); reflexivity|]. intros w' p' Hw' Hpre.
      destruct (Nat.le_gt_cases (List.length w') (List.length needle)) as [|Hgt]; [assumption|]. exfalso.
      destruct (prefix_longer _ _ _ Hpre) as (m & ->); [lia|]. apply symbols_spec in Hw'. apply (Hno m p'); [intros ->; rewrite app_nil_r in Hgt; lia | exact Hpre | exact Hw'].
    - rewrite app_nil_r. split; [reflexivity|]. rewrite Nat.add_0_r. auto. }
  destruct more as [|it2 more].
  { apply Stop; [exact H | unfold same; auto |]. intros m p' Hm _ Hin. apply in_items in Hin. rewrite Ei in Hin. destruct Hin as [E|[]].
    apply (f_equal fst) in E. rewrite Eh in E. cbn in E. rewrite <- (app_nil_r needle) in E at 1. apply app_inv_head in E. congruence. }
  destruct (lnext_spot content k L H) as [(b & L1 & E & Hb & Hat & Hl & Hs)|(Hk & L1 & E & Hat & Hs)]; rewrite E.
  2:{ apply Stop; [apply ended_spot; exact Hat | exact Hs |]. intros m p' Hm (r & Er) Hin. subst k. rewrite skipn_all, <- app_assoc in Er. apply app_inv_head in Er. destruct m; [congruence | discriminate]. }
  apply Nat.ltb_lt in Hlen8. rewrite Hlen8. rewrite <- Ei, filter_punct_ok by exact Hn.
  assert (Hk : (k < len)%nat) by (apply nth_error_Some; rewrite Hb; discriminate).
  destruct (items_of (needle ++ [b])) as [|e l] eqn:Eb.
  - assert (Hl2 : (1 <? List.length (needle ++ [b]))%nat = true) by (apply Nat.ltb_lt; rewrite app_length; cbn; destruct needle; [congruence | cbn; lia]).
    destruct fuel; cbn [punct_loop]; rewrite Hl2, last_last; destruct (put_back_spot _ _ _ _ Hb Hat) as (L2 & -> & H2 & Hs2 & _); cbn [bind];
    (apply Stop; [exact H2 | unfold same in *; intuition congruence |];
     intros m p' Hm (r & Er) Hin; rewrite (skipn_nth _ _ _ Hb), <- app_assoc in Er; apply app_inv_head in Er;
     destruct m as [|c m]; [congruence|]; injection Er as <- Er;
     change (b :: m) with ([b] ++ m) in Hin; rewrite app_assoc in Hin; apply in_items in Hin; rewrite Eb in Hin; destruct Hin).
  - destruct (IH (needle ++ [b]) (Some (snd it)) L1 (S k)) as (p & w & m & L' & E' & Hlo & Hw & H' & Hs').
    + apply at_spot. exact Hat.
    + apply Hat.
    + lia.
    + destruct needle; discriminate.
    + rewrite Eb. discriminate.
    + rewrite Eb in E'. rewrite E'. exists p, w, (b :: m), L'. split; [reflexivity|]. rewrite (skipn_nth _ _ _ Hb). rewrite <- app_assoc in Hlo, Hw. cbn [app] in Hlo, Hw.
      split; [exact Hlo|]. split; [exact Hw|]. cbn [List.length]. rewrite Nat.add_succ_r. split; [exact H' | unfold same in *; intuition congruence].
Qed.

Lemma read_punct_spec : forall k first L, nth_error content k = Some first -> at_ content (S k) L ->
  (exists p w L', read_punct first L = Ok (Some p, L') /\ longest w p (skipn k content) /\ spot content (k + List.length w) L' /\ same L L') \/
  (read_punct first L = Ok (None, L) /\ forall w p, spells w p -> ~ prefix w (skipn k content)).
Proof.
  intros k first L Hn Hat. unfold read_punct. rewrite speedy_ok. pose proof (at_spot _ _ _ Hat) as H. destruct (items_of [first]) as [|e l] eqn:Ei.
  - right. split.
    + assert (E : forall f c, punct_loop f [first] [] c L = Ok (c, L)) by (intros [|f] c; reflexivity). apply E.
    + intros w p Hw (r & Er). apply symbols_spec in Hw. rewrite (skipn_nth _ _ _ Hn) in Er. pose proof (symbols_nonempty _ _ Hw). destruct w as [|x w]; [congruence|].
      injection Er as <- _. change (first :: w) with ([first] ++ w) in Hw. apply in_items in Hw. rewrite Ei in Hw. destruct Hw.
  - left. rewrite <- Ei. destruct (punct_loop_spec (fuel_of L) [first] None L (S k)) as (p & w & m & L' & E & Hlo & -> & H' & Hs').
    + exact H.
    + apply Hat.
    + rewrite (spot_fuel content (S k)) by exact H. lia.
    + discriminate.
    + rewrite Ei. discriminate.
    + exists p, ([first] ++ m), L'. split; [exact E|]. rewrite (skipn_nth _ _ _ Hn). split; [exact Hlo|]. split; [|exact Hs'].
      cbn [app List.length]. replace (k + S (List.length m))%nat with (S k + List.length m)%nat by lia. exact H'.
Qed.
End LOOP.

(** ** C11 *)
(** For every input content and every position [k] in it: the punctuation read at the byte number [k] is the longest spelling of the
    table that the remaining input begins with, and reading stops right behind it; if there is none, nothing more is read. *)
Theorem C11_maximal_munch :
  forall content k first L, nth_error content k = Some first -> at_ content (S k) L ->
  match read_punct first L with
  | Ok (Some p, L') => exists w, longest w p (skipn k content) /\ bytes L' = skipn (k + List.length w) content /\ errs L' = errs L
  | Ok (None, L') => (forall w p, spells w p -> ~ prefix w (skipn k content)) /\ bytes L' = skipn (S k) content
  | Panic | Stuck => False
  end.
Proof.
  intros content k first L Hn Hat. destruct (read_punct_spec content k first L Hn Hat) as [(p & w & L' & -> & H1 & H2 & H3)|(-> & H)].
  - exists w. split; [exact H1|]. split; [apply spot_bytes; exact H2 | apply H3].
  - split; [exact H|]. apply spot_bytes, at_spot. exact Hat.
Qed.
Print Assumptions C11_maximal_munch.

(** Each punctuation has one spelling. *)
Theorem C11_spelling : forall w p, spells w p -> value p = w.
Proof.
  intros w p H. apply symbols_spec in H. assert (C : forallb (fun e => text_eqb (value (snd e)) (fst e)) symbols = true) by (vm_compute; reflexivity).
  rewrite forallb_forall in C. specialize (C _ H). apply text_eqb_eq in C. exact C.
Qed.
Print Assumptions C11_spelling.
