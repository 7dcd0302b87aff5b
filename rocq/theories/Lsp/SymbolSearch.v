(** Workspace symbol search.  Models crates/dm-langserver/src/symbol_search.rs.  Property C30. *)
From Coq Require Import List NArith Arith Lia Bool String.
From Verif Require Import Common.Text.
Import ListNotations.
Open Scope N_scope.

Section Search.
  (** Rust's Unicode tables are parameters: [char::to_lowercase] (one or more characters), [char::is_alphanumeric]
      and [str::to_lowercase] (which is not character-wise: final sigma). *)
  Context (lower : chr -> list chr) (alphanumeric : chr -> bool) (str_lower : text -> text).

  (** symbol_search.rs:72-76 simplify *)
  Definition simplify (s : text) : text := filter alphanumeric (flat_map lower s).

  (** [a.zip(&mut b).all(|(x, y)| x == y)] and what is left in [b]: zip takes from [a] first, so [b] loses nothing
      when [a] runs out first. *)
  Fixpoint zip_all (a b : text) : bool * text :=
    match a, b with
    | [], _ => (true, b)
    | _ :: _, [] => (true, [])
    | x :: a', y :: b' => if x =? y then zip_all a' b' else (false, b')
    end.
  Definition is_nil (t : text) : bool := match t with [] => true | _ => false end.

  (** symbol_search.rs:79-85 starts_with *)
  Definition starts_with (fulltext query : text) : bool :=
    let '(all, query_chars) := zip_all (simplify fulltext) (simplify query) in all && is_nil query_chars.

  (** symbol_search.rs:87-98 contains: the loop; each turn drops one character of the text *)
  Fixpoint contains_loop (fulltext query : text) : bool :=
    let '(all, clone) := zip_all fulltext query in
    if all && is_nil clone then true
    else match fulltext with [] => false | _ :: fulltext' => contains_loop fulltext' query end.
  Definition contains (fulltext query : text) : bool := contains_loop (simplify fulltext) (simplify query).

  (** symbol_search.rs:100-104 any_alphanumeric *)
  Definition any_alphanumeric (t : text) : bool := existsb alphanumeric (flat_map lower t).

  (** symbol_search.rs:4-11 Query *)
  Inductive query := Anything (q : text) | Define (q : text) | Type_ (q : text) | Var (q : text) | Proc (q : text).

  Definition strip_prefix (p t : text) : option text := if Text.starts_with p t then Some (skipn (List.length p) t) else None.

  (** symbol_search.rs:15-36 Query::parse *)
  Definition parse (q : text) : option query :=
    if negb (any_alphanumeric q) then None
    else match strip_prefix (lit "#") q with
         | Some r => Some (Define (str_lower r))
         | None =>
             match strip_prefix (lit "var/") q with
             | Some r => if negb (any_alphanumeric r) then None else Some (Var (str_lower r))
             | None =>
                 match strip_prefix (lit "proc/") q with
                 | Some r => if negb (any_alphanumeric r) then None else Some (Proc (str_lower r))
                 | None => Some (if contains_char 47 q then Type_ (str_lower q) else Anything (str_lower q))
                 end
             end
         end.

  (** [str::contains(&str)] *)
  Fixpoint str_contains (t pat : text) : bool :=
    Text.starts_with pat t || match t with [] => false | _ :: t' => str_contains t' pat end.

  (** symbol_search.rs:39-69 *)
  Definition matches_define (q : query) (name : text) : bool :=
    match q with Anything q => starts_with name q | Define q => starts_with name q | _ => false end.
  Definition matches_type (q : query) (name path : text) : bool :=
    match q with Anything q => starts_with name q | Type_ q => str_contains (str_lower path) q | _ => false end.
  Definition matches_on_type (q : query) : bool := match q with Anything _ | Proc _ | Var _ => true | _ => false end.
  Definition matches_var (q : query) (name : text) : bool :=
    match q with Anything q | Var q => starts_with name q | _ => false end.
  Definition matches_proc (q : query) (name : text) : bool :=
    match q with Anything q | Proc q => starts_with name q | _ => false end.

  (** ** Proofs *)
  Lemma zip_all_spec : forall a b, (let '(all, rest) := zip_all a b in all && is_nil rest) = true <-> exists r, a = b ++ r.
  Proof.
    induction a as [|x a IH]; intros b; cbn [zip_all].
    - destruct b as [|y b]; cbn; split; auto; try discriminate.
      + exists []. reflexivity.
      + intros [r H]. discriminate.
    - destruct b as [|y b]; [split; [intros _; exists (x :: a); reflexivity | reflexivity]|].
      destruct (N.eqb_spec x y) as [->|Hne].
      + rewrite IH. split; intros [r H]; exists r; [rewrite H; reflexivity | injection H as ->; reflexivity].
      + cbn [andb]. split; [discriminate|]. intros [r H]. injection H as H _. contradiction.
  Qed.
  Lemma contains_loop_spec : forall a b, contains_loop a b = true <-> exists l r, a = l ++ b ++ r.
  Proof.
    induction a as [|x a IH]; intros b; cbn [contains_loop].
    - pose proof (zip_all_spec [] b) as Z. destruct (zip_all [] b) as [all rest]. destruct (all && is_nil rest) eqn:E.
      + split; [|reflexivity]. intros _. destruct (proj1 Z eq_refl) as [r ->]. exists [], r. reflexivity.
      + split; [discriminate|]. intros (l & r & H). destruct l; [|discriminate]. exfalso. assert (false = true) by (apply Z; exists r; exact H). discriminate.
    - pose proof (zip_all_spec (x :: a) b) as Z. destruct (zip_all (x :: a) b) as [all rest]. destruct (all && is_nil rest) eqn:E.
      + split; [|reflexivity]. intros _. destruct (proj1 Z eq_refl) as [r ->]. exists [], r. reflexivity.
      + rewrite IH. split.
        * intros (l & r & ->). exists (x :: l), r. reflexivity.
        * intros (l & r & H). destruct l as [|y l]; [|injection H as _ H; exists l, r; exact H].
          exfalso. assert (false = true) by (apply Z; exists r; exact H). discriminate.
  Qed.
  Lemma str_contains_spec : forall t pat, str_contains t pat = true <-> exists l r, t = l ++ pat ++ r.
  Proof.
    induction t as [|c t IH]; intros pat; cbn [str_contains]; rewrite orb_true_iff, starts_with_spec.
    - split; [intros [[r H]|H]; [exists [], r; exact H | discriminate]|]. intros (l & r & H). left. destruct l; [exists r; exact H | discriminate].
    - rewrite IH. split.
      + intros [[r H]|(l & r & H)]; [exists [], r; exact H | exists (c :: l), r; rewrite H; reflexivity].
      + intros (l & r & H). destruct l as [|y l]; [left; exists r; exact H | right; injection H as _ H; exists l, r; exact H].
  Qed.
  Lemma any_alnum_spec : forall t, any_alphanumeric t = true <-> simplify t <> [].
  Proof.
    intro t. unfold any_alphanumeric, simplify. induction (flat_map lower t) as [|c l IH]; cbn; [split; [discriminate | congruence]|].
    destruct (alphanumeric c); cbn; [split; [discriminate | reflexivity] | exact IH].
  Qed.
  Lemma strip_prefix_spec : forall p t, match strip_prefix p t with Some r => t = p ++ r | None => forall r, t <> p ++ r end.
  Proof.
    intros p t. unfold strip_prefix. pose proof (starts_with_spec p t) as S. destruct (Text.starts_with p t).
    - destruct (proj1 S eq_refl) as [r ->]. rewrite skipn_app, Nat.sub_diag, skipn_all. reflexivity.
    - intros r H. assert (false = true) by (apply S; exists r; exact H). discriminate.
  Qed.
End Search.

(** ** C30 *)
(** prefix and infix search on the lower-cased alphanumeric characters, exactly *)
Theorem C30_prefix_and_infix :
  forall lower alphanumeric fulltext q,
  (starts_with lower alphanumeric fulltext q = true <->
     exists r, filter alphanumeric (flat_map lower fulltext) = filter alphanumeric (flat_map lower q) ++ r) /\
  (contains lower alphanumeric fulltext q = true <->
     exists l r, filter alphanumeric (flat_map lower fulltext) = l ++ filter alphanumeric (flat_map lower q) ++ r).
Proof.
  intros. split.
  - unfold starts_with. rewrite <- (zip_all_spec (simplify lower alphanumeric fulltext)). reflexivity.
  - apply contains_loop_spec.
Qed.
Print Assumptions C30_prefix_and_infix.

(** What each form of a query finds: [#q] defines, [var/q] variables, [proc/q] procs, anything with a slash types
    (by a part of the path), anything else all four (by a prefix of the name); a query in which nothing
    alphanumeric is left is rejected. *)
Inductive kind := KDefine | KType | KVar | KProc.
(** main.rs:1447-1560 the handler of workspace/symbol: members are looked at only when [matches_on_type] *)
Definition finds lower alphanumeric str_lower (q : query) (k : kind) (name path : text) : bool :=
  match k with
  | KDefine => matches_define lower alphanumeric q name
  | KType => matches_type lower alphanumeric str_lower q name path
  | KVar => matches_on_type q && matches_var lower alphanumeric q name
  | KProc => matches_on_type q && matches_proc lower alphanumeric q name
  end.

Inductive meaning : text -> (kind -> Prop) -> text -> bool -> Prop :=
| m_define : forall r, meaning (lit "#" ++ r) (eq KDefine) r false
| m_var : forall r, meaning (lit "var/" ++ r) (eq KVar) r false
| m_proc : forall r, meaning (lit "proc/" ++ r) (eq KProc) r false
| m_type : forall q, (forall r, q <> lit "#" ++ r /\ q <> lit "var/" ++ r /\ q <> lit "proc/" ++ r) -> In 47 q -> meaning q (eq KType) q true
| m_any : forall q, (forall r, q <> lit "#" ++ r) -> ~ In 47 q -> meaning q (fun _ => True) q false.

Theorem C30_queries :
  forall lower alphanumeric str_lower q,
  (* some reading of the query applies *)
  (exists ks q' by_path, meaning q ks q' by_path) /\
  forall ks q' by_path, meaning q ks q' by_path ->
  (* rejected exactly when nothing alphanumeric is left *)
  (parse lower alphanumeric str_lower q = None <-> filter alphanumeric (flat_map lower q) = [] \/
     (by_path = false /\ ~ ks KDefine /\ filter alphanumeric (flat_map lower q') = [])) /\
  (* otherwise it finds exactly the symbols of its kinds whose name begins (path contains) the text searched *)
  (forall pq k name path, parse lower alphanumeric str_lower q = Some pq ->
     (finds lower alphanumeric str_lower pq k name path = true <->
      ks k /\ if by_path then exists l r, str_lower path = l ++ str_lower q' ++ r
              else exists r, filter alphanumeric (flat_map lower name) = filter alphanumeric (flat_map lower (str_lower q')) ++ r)).
Proof.
  intros lower alphanumeric str_lower q.
  pose proof (strip_prefix_spec (lit "#") q) as S1. pose proof (strip_prefix_spec (lit "var/") q) as S2. pose proof (strip_prefix_spec (lit "proc/") q) as S3.
  assert (Hs : contains_char 47 q = true <-> In 47 q) by (unfold contains_char; rewrite existsb_exists; split; [intros (x & H & E); apply N.eqb_eq in E; subst x; exact H | intro H; exists 47; split; [exact H | reflexivity]]).
  assert (Hany : forall t, negb (any_alphanumeric lower alphanumeric t) = true <-> filter alphanumeric (flat_map lower t) = []).
  { intro t. rewrite negb_true_iff, <- not_true_iff_false, any_alnum_spec. unfold simplify. destruct (filter _ _); split; try congruence; intros H; exfalso; apply H; discriminate. }
  assert (Hst : forall name t, starts_with lower alphanumeric name t = true <-> exists r, filter alphanumeric (flat_map lower name) = filter alphanumeric (flat_map lower t) ++ r) by (intros; apply (C30_prefix_and_infix lower alphanumeric name t)).
  split.
  - destruct (strip_prefix (lit "#") q) as [r|]; [exists (eq KDefine), r, false; rewrite S1; constructor|].
    destruct (strip_prefix (lit "var/") q) as [r|]; [exists (eq KVar), r, false; rewrite S2; constructor|].
    destruct (strip_prefix (lit "proc/") q) as [r|]; [exists (eq KProc), r, false; rewrite S3; constructor|].
    destruct (contains_char 47 q) eqn:E; [exists (eq KType), q, true; constructor; [intro r; auto | apply Hs; reflexivity]|].
    exists (fun _ => True), q, false. constructor; [intros r; auto|]. intro H. apply Hs in H. discriminate.
  - intros ks q' by_path M. unfold parse.
    assert (Hk : forall k k' : kind, k = k' <-> k = k') by tauto.
    assert (Hinj : forall r p, lit p ++ r = lit p ++ r) by reflexivity.
    inversion M as [r E1 E2 E3 E4|r E1 E2 E3 E4|r E1 E2 E3 E4|q0 H1 H2 E1 E2 E3 E4|q0 H1 H2 E1 E2 E3 E4]; subst q' by_path ks; try subst q0.
    + rewrite E1 in *. destruct (strip_prefix (lit "#") q) as [r0|]; [|contradiction (S1 r); symmetry; exact E1]. assert (r0 = r) as -> by (rewrite <- E1 in S1; apply app_inv_head in S1; congruence).
      destruct (negb (any_alphanumeric lower alphanumeric q)) eqn:En.
      * split; [split; [intros _; left; apply Hany; exact En | reflexivity] | discriminate].
      * split; [split; [discriminate|]; intros [H|(_ & H & _)]; [apply Hany in H; congruence | contradiction H; reflexivity]|].
        intros pq k name path E. injection E as <-. destruct k; cbn [finds matches_define matches_type matches_var matches_proc matches_on_type andb]; try (split; [discriminate | intros [H _]; discriminate]).
        rewrite Hst. tauto.
    + rewrite E1 in *. destruct (strip_prefix (lit "#") q) as [r0|]; [exfalso; rewrite <- E1 in S1; discriminate|].
      destruct (strip_prefix (lit "var/") q) as [r0|]; [|contradiction (S2 r); symmetry; exact E1]. assert (r0 = r) as -> by (rewrite <- E1 in S2; apply app_inv_head in S2; congruence).
      destruct (negb (any_alphanumeric lower alphanumeric q)) eqn:En.
      * split; [split; [intros _; left; apply Hany; exact En | reflexivity] | discriminate].
      * destruct (negb (any_alphanumeric lower alphanumeric r)) eqn:En'.
        -- split; [split; [intros _; right; split; [reflexivity|]; split; [discriminate | apply Hany; exact En'] | reflexivity] | discriminate].
        -- split; [split; [discriminate|]; intros [H|(_ & _ & H)]; apply Hany in H; congruence|].
           intros pq k name path E. injection E as <-. destruct k; cbn [finds matches_define matches_type matches_var matches_proc matches_on_type andb]; try (split; [discriminate | intros [H _]; discriminate]).
           rewrite Hst. tauto.
    + rewrite E1 in *. destruct (strip_prefix (lit "#") q) as [r0|]; [exfalso; rewrite <- E1 in S1; discriminate|].
      destruct (strip_prefix (lit "var/") q) as [r0|]; [exfalso; rewrite <- E1 in S2; discriminate|].
      destruct (strip_prefix (lit "proc/") q) as [r0|]; [|contradiction (S3 r); symmetry; exact E1]. assert (r0 = r) as -> by (rewrite <- E1 in S3; apply app_inv_head in S3; congruence).
      destruct (negb (any_alphanumeric lower alphanumeric q)) eqn:En.
      * split; [split; [intros _; left; apply Hany; exact En | reflexivity] | discriminate].
      * destruct (negb (any_alphanumeric lower alphanumeric r)) eqn:En'.
        -- split; [split; [intros _; right; split; [reflexivity|]; split; [discriminate | apply Hany; exact En'] | reflexivity] | discriminate].
        -- split; [split; [discriminate|]; intros [H|(_ & _ & H)]; apply Hany in H; congruence|].
           intros pq k name path E. injection E as <-. destruct k; cbn [finds matches_define matches_type matches_var matches_proc matches_on_type andb]; try (split; [discriminate | intros [H _]; discriminate]).
           rewrite Hst. tauto.
    + destruct (strip_prefix (lit "#") q) as [r0|]; [destruct (H1 r0) as (X & _); contradiction|].
      destruct (strip_prefix (lit "var/") q) as [r0|]; [destruct (H1 r0) as (_ & X & _); contradiction|].
      destruct (strip_prefix (lit "proc/") q) as [r0|]; [destruct (H1 r0) as (_ & _ & X); contradiction|].
      assert (Ec : contains_char 47 q = true) by (apply Hs; exact H2). rewrite Ec.
      destruct (negb (any_alphanumeric lower alphanumeric q)) eqn:En.
      * split; [split; [intros _; left; apply Hany; exact En | reflexivity] | discriminate].
      * split; [split; [discriminate|]; intros [H|(H & _)]; [apply Hany in H; congruence | discriminate]|].
        intros pq k name path E. injection E as <-. destruct k; cbn [finds matches_define matches_type matches_var matches_proc matches_on_type andb]; try (split; [discriminate | intros [H _]; discriminate]).
        rewrite str_contains_spec. tauto.
    + destruct (strip_prefix (lit "#") q) as [r0|]; [contradiction (H1 r0)|].
      destruct (strip_prefix (lit "var/") q) as [r0|]; [exfalso; apply H2; rewrite S2; cbn; auto 10|].
      destruct (strip_prefix (lit "proc/") q) as [r0|]; [exfalso; apply H2; rewrite S3; cbn; auto 10|].
      assert (Ec : contains_char 47 q = false) by (apply not_true_iff_false; rewrite Hs; exact H2). rewrite Ec.
      destruct (negb (any_alphanumeric lower alphanumeric q)) eqn:En.
      * split; [split; [intros _; left; apply Hany; exact En | reflexivity] | discriminate].
      * split; [split; [discriminate|]; intros [H|(_ & H & _)]; [apply Hany in H; congruence | contradiction H; exact I]|].
        intros pq k name path E. injection E as <-. destruct k; cbn [finds matches_define matches_type matches_var matches_proc matches_on_type andb]; rewrite Hst; tauto.
Qed.
Print Assumptions C30_queries.

(** The test whether a type's members are looked at is exact: it passes iff some variable or proc could match. *)
Theorem C30_members :
  forall lower alphanumeric q,
  matches_on_type q = true <-> exists name, matches_var lower alphanumeric q name = true \/ matches_proc lower alphanumeric q name = true.
Proof.
  intros lower alphanumeric q. assert (Hr : forall t, starts_with lower alphanumeric t t = true) by (intro t; apply (C30_prefix_and_infix lower alphanumeric t t); exists []; rewrite app_nil_r; reflexivity).
  destruct q as [t|t|t|t|t]; cbn [matches_on_type matches_var matches_proc]; split; try reflexivity; try discriminate; try (intros (name & [H|H]); discriminate); intros _; exists t; auto.
Qed.
Print Assumptions C30_members.

(** For ASCII names (DM identifiers): case and punctuation of the query and of the name do not matter. *)
Definition ascii_low (c : chr) : list chr := [if (65 <=? c) && (c <=? 90) then c + 32 else c].
Definition ascii_alnum (c : chr) : bool := ((48 <=? c) && (c <=? 57)) || ((65 <=? c) && (c <=? 90)) || ((97 <=? c) && (c <=? 122)).
Definition ascii_str_low (t : text) : text := flat_map ascii_low t.
Lemma ascii_low_idem : forall t, flat_map ascii_low (ascii_str_low t) = flat_map ascii_low t.
Proof.
  unfold ascii_str_low. induction t as [|c t IH]; [reflexivity|]. cbn [flat_map]. rewrite flat_map_app, IH. f_equal. unfold ascii_low. cbn [flat_map app]. f_equal.
  destruct (N.leb_spec 65 c), (N.leb_spec c 90); cbn [andb]; try reflexivity; destruct (N.leb_spec 65 (c + 32)), (N.leb_spec (c + 32) 90); cbn [andb]; try reflexivity; try lia;
   destruct (N.leb_spec 65 c), (N.leb_spec c 90); cbn [andb]; try reflexivity; lia.
Qed.
Theorem C30_ascii :
  forall q name path pq, ~ In 47 q -> (forall r, q <> 35 :: r) -> parse ascii_low ascii_alnum ascii_str_low q = Some pq ->
  forall k, finds ascii_low ascii_alnum ascii_str_low pq k name path = true <->
  exists r, filter ascii_alnum (flat_map ascii_low name) = filter ascii_alnum (flat_map ascii_low q) ++ r.
Proof.
  intros q name path pq H1 H2 E k. destruct (C30_queries ascii_low ascii_alnum ascii_str_low q) as [_ G].
  destruct (G (fun _ => True) q false ltac:(constructor; [exact H2 | exact H1])) as [_ F]. rewrite (F pq k name path E), ascii_low_idem. tauto.
Qed.
Print Assumptions C30_ascii.

Example C30_demo :
  starts_with ascii_low ascii_alnum (lit "New_Player") (lit "newpl") = true /\ contains ascii_low ascii_alnum (lit "New_Player") (lit "W_P") = true /\
  starts_with ascii_low ascii_alnum (lit "New") (lit "newp") = false /\
  option_map (fun q => (matches_var ascii_low ascii_alnum q (lit "Max_HP"), matches_proc ascii_low ascii_alnum q (lit "Max_HP"))) (parse ascii_low ascii_alnum ascii_str_low (lit "var/maxh")) = Some (true, false) /\
  parse ascii_low ascii_alnum ascii_str_low (lit "proc/_") = None.
Proof. repeat split. Qed.
