(** C25: model of AtomMap::save (crates/spaceman-dmm/src/map_repr.rs:94-164) and its theorems. *)
From Coq Require Import List Arith ZArith Lia Bool Sorting.Permutation.
From Verif Require Import Common.Order Editor.Pool Editor.Atoms.
From Verif Require Dmm.Model Dmm.Spec Dmm.Props.
Import ListNotations.
Open Scope nat_scope.

(** ** HashMap / BTreeMap as association lists *)
Section Assoc.
  Context {A B : Type} (eqb : A -> A -> bool).
  Definition get (k : A) (l : list (A * B)) : option B := option_map snd (find (fun q => eqb k (fst q)) l).
  (** insert: keeps the old key, replaces the value *)
  Fixpoint put (k : A) (v : B) (l : list (A * B)) : list (A * B) :=
    match l with
    | [] => [(k, v)]
    | (k', v') :: l' => if eqb k k' then (k', v) :: l' else (k', v') :: put k v l'
    end.
  Definition has (k : A) (l : list (A * B)) : bool := match get k l with Some _ => true | None => false end.

  Hypothesis eqb_refl : forall a, eqb a a = true.
  Hypothesis eqb_sym : forall a b, eqb a b = eqb b a.
  Hypothesis eqb_trans : forall a b c, eqb a b = true -> eqb b c = true -> eqb a c = true.

  Lemma eqb_same : forall a b c, eqb a b = true -> eqb a c = eqb b c.
  Proof.
    intros a b c H. destruct (eqb b c) eqn:E; [eapply eqb_trans; eassumption|].
    destruct (eqb a c) eqn:E2; [|reflexivity]. rewrite <- E. symmetry. eapply eqb_trans; [rewrite eqb_sym; exact H | exact E2].
  Qed.
  Lemma get_eq : forall a b l, eqb a b = true -> get a l = get b l.
  Proof.
    intros a b l H. unfold get. f_equal. induction l as [|q l IH]; [reflexivity|]. cbn [find]. rewrite (eqb_same a b (fst q) H), IH. reflexivity.
  Qed.
  Lemma get_put : forall k v k' l, get k' (put k v l) = if eqb k' k then Some v else get k' l.
  Proof.
    intros k v k' l. induction l as [|[k0 v0] l IH]; cbn [put].
    - unfold get. cbn [find fst]. destruct (eqb k' k); reflexivity.
    - destruct (eqb k k0) eqn:E.
      + unfold get. cbn [find fst]. rewrite (eqb_sym k k0) in E. rewrite (eqb_sym k' k0), (eqb_same k0 k k' E), (eqb_sym k k'). destruct (eqb k' k); reflexivity.
      + unfold get in *. cbn [find fst]. destruct (eqb k' k0) eqn:E2; [|exact IH].
        destruct (eqb k' k) eqn:E3; [|reflexivity]. rewrite <- (eqb_same k' k k0 E3) in E. congruence.
  Qed.
  Lemma in_put : forall k v l a b, In (a, b) (put k v l) -> (eqb k a = true /\ b = v) \/ In (a, b) l.
  Proof.
    intros k v l a b. induction l as [|[k0 v0] l IH]; cbn [put In].
    - intros [H|[]]. injection H as <- <-. left. auto.
    - destruct (eqb k k0) eqn:E; cbn [In].
      + intros [H|H]; [injection H as <- <-; left; auto | right; right; exact H].
      + intros [H|H]; [right; left; exact H|]. destruct (IH H); [left; assumption | right; right; assumption].
  Qed.
  Lemma get_in : forall k v l, get k l = Some v -> exists k', In (k', v) l /\ eqb k k' = true.
  Proof using Type.
    intros k v l H. unfold get in H. destruct (find _ l) as [[k' v']|] eqn:E; [|discriminate]. cbn in H. injection H as ->.
    apply find_some in E. exists k'. exact E.
  Qed.
  Lemma in_get : forall k v l, In (k, v) l -> get k l <> None.
  Proof.
    intros k v l H. unfold get. destruct (find _ l) as [q|] eqn:E; [discriminate|]. pose proof (find_none _ _ E _ H) as Hn. cbn in Hn. rewrite eqb_refl in Hn. discriminate.
  Qed.
  Lemma get_filter : forall f k v l, get k l = Some v -> f v = true -> get k (filter (fun q => f (snd q)) l) = Some v.
  Proof using Type.
    intros f k v l. unfold get. induction l as [|[k0 v0] l IH]; cbn [find filter]; [discriminate|]. cbn [fst snd].
    destruct (eqb k k0) eqn:E.
    - cbn. intro H. injection H as ->. intro Hf. rewrite Hf. cbn [find fst]. rewrite E. reflexivity.
    - intros H Hf. destruct (f v0); cbn [find fst]; [rewrite E|]; apply IH; assumption.
  Qed.
  Lemma put_length : forall k v l, get k l = None -> List.length (put k v l) = S (List.length l).
  Proof using Type.
    intros k v l. unfold get. induction l as [|[k0 v0] l IH]; cbn [put find fst]; [reflexivity|].
    destruct (eqb k k0); [discriminate|]. intro H. cbn [List.length]. rewrite IH by exact H. reflexivity.
  Qed.
  Lemma put_length_le : forall k v l, List.length (put k v l) <= S (List.length l).
  Proof using Type.
    intros k v l. induction l as [|[k0 v0] l IH]; cbn [put List.length]; [apply le_n|]. destruct (eqb k k0); cbn [List.length]; [apply le_S, le_n | apply le_n_S, IH].
  Qed.
  Lemma put_keys : forall k v l x, In x (map fst (put k v l)) -> x = k \/ In x (map fst l).
  Proof using Type.
    intros k v l x. induction l as [|[k0 v0] l IH]; cbn [put map fst In]; [intros [H|[]]; left; symmetry; exact H|].
    destruct (eqb k k0); cbn [map fst In]; [intros [H|H]; right; [left|right]; exact H|].
    intros [H|H]; [right; left; exact H|]. destruct (IH H) as [H'|H']; [left; exact H' | right; right; exact H'].
  Qed.
End Assoc.

Section Save.
  Context {P SK V : Type}.
  (** [Prefab == Prefab] (dmm.rs:176-180): an equivalence (variables in any order) *)
  Variable peq : P -> P -> bool.
  Hypothesis peq_refl : forall a, peq a a = true.
  Hypothesis peq_sym : forall a b, peq a b = peq b a.
  Hypothesis peq_trans : forall a b c, peq a b = true -> peq b c = true -> peq a c = true.

  (** slices compare elementwise *)
  Fixpoint leq (a b : list P) : bool :=
    match a, b with
    | [], [] => true
    | x :: a', y :: b' => peq x y && leq a' b'
    | _, _ => false
    end.
  Lemma leq_refl : forall a, leq a a = true.
  Proof. induction a as [|x a IH]; cbn [leq]; [reflexivity|]. rewrite peq_refl, IH. reflexivity. Qed.
  Lemma leq_sym : forall a b, leq a b = leq b a.
  Proof. induction a as [|x a IH]; intros [|y b]; cbn [leq]; try reflexivity. rewrite peq_sym, IH. reflexivity. Qed.
  Lemma leq_trans : forall a b c, leq a b = true -> leq b c = true -> leq a c = true.
  Proof.
    induction a as [|x a IH]; intros [|y b] [|z c]; cbn [leq]; try congruence; try reflexivity.
    rewrite !andb_true_iff. intros [A1 A2] [B1 B2]. split; [eapply peq_trans; eassumption | eapply IH; eassumption].
  Qed.
  Lemma leq_spec : forall a b, leq a b = true <-> Forall2 (fun x y => peq x y = true) a b.
  Proof.
    induction a as [|x a IH]; intros [|y b]; cbn [leq]; split; intro H; try discriminate; try (inversion H; fail); try constructor.
    - apply andb_true_iff in H. tauto.
    - apply andb_true_iff in H. apply IH. tauto.
    - inversion H; subst. apply andb_true_iff. split; [assumption | apply IH; assumption].
  Qed.

  (** grid position (x, row from the top, z), map_repr.rs:96-104 *)
  Definition coord := (nat * nat * nat)%type.
  Definition ceqb (a b : coord) : bool :=
    let '(x, y, z) := a in let '(x', y', z') := b in (x =? x') && (y =? y') && (z =? z').
  Lemma ceqb_eq : forall a b, ceqb a b = true <-> a = b.
  Proof.
    intros [[x y] z] [[x' y'] z']. cbn. rewrite !andb_true_iff, !Nat.eqb_eq. split; [intros [[-> ->] ->]; reflexivity | intro H; injection H as -> -> ->; auto].
  Qed.

  (** the instances in the order the code visits them, with their grid position; [None] = [size.1 - 1 - y] underflows *)
  Definition entry (h : nat) (z : nat) (i : instance P) : option (coord * P) :=
    if iy i <? h then Some ((ix i, h - 1 - iy i, z), pop i) else None.
  Definition entries (m : atom_map P SK V) : option (list (coord * P)) :=
    all_some (flat_map (fun q => map (fun k => entry (snd (size m)) (fst q) (snd k)) (keys_iter (instances (snd q))))
                       (enumerate 0 (levels m))).
  (** coords.entry(c).or_default().push(p) *)
  Definition push_at (c : coord) (p : P) (l : list (coord * list P)) : list (coord * list P) :=
    put ceqb c (match get ceqb c l with Some ps => ps ++ [p] | None => [p] end) l.
  Definition group (es : list (coord * P)) : list (coord * list P) :=
    fold_left (fun acc e => push_at (fst e) (snd e) acc) es [].

  Notation key := Z.
  Definition dictionary := list (key * list P).

  (** lines 121-127: every tile's contents, not yet keyed *)
  Definition unkeyed (coords : list (coord * list P)) : list (list P * key) :=
    fold_left (fun rev c => put leq (snd c) Dmm.Model.key_invalid rev) coords [].
  (** lines 135-141 *)
  Definition take_base (base : dictionary) (st : list (list P * key) * dictionary) : list (list P * key) * dictionary :=
    fold_left (fun st kv => let '(rev, dict) := st in
      if has leq (snd kv) rev then (put leq (snd kv) (fst kv) rev, put Z.eqb (fst kv) (snd kv) dict) else st) base st.
  (** line 144 *)
  Definition retain_keyed (rev : list (list P * key)) : list (list P * key) :=
    filter (fun q => negb (snd q =? Dmm.Model.key_invalid)%Z) rev.

  (** lines 153-155; [None] = Key::next overflows *)
  Fixpoint first_free (fuel : nat) (k : key) (dict : dictionary) : option key :=
    if has Z.eqb k dict then
      match fuel, Dmm.Model.key_next k with
      | S n, Some k' => first_free n k' dict
      | _, _ => None
      end
    else Some k.

  (** lines 148-160.  The grid is a function on positions inside the map, 0 elsewhere. *)
  Record state := { s_rev : list (list P * key); s_dict : dictionary; s_key : key; s_grid : coord -> key }.
  Definition in_bounds (w h d : nat) (c : coord) : bool := let '(x, y, z) := c in (x <? w) && (y <? h) && (z <? d).
  Definition place (w h d : nat) (st : state) (c : coord * list P) : option state :=
    if negb (in_bounds w h d (fst c)) then None
    else
      match get leq (snd c) (s_rev st) with
      | Some k => Some {| s_rev := s_rev st; s_dict := s_dict st; s_key := s_key st;
                          s_grid := fun p => if ceqb p (fst c) then k else s_grid st p |}
      | None =>
          match first_free (Z.to_nat Dmm.Model.KEY_MAX) (s_key st) (s_dict st) with
          | None => None
          | Some k => Some {| s_rev := put leq (snd c) k (s_rev st); s_dict := put Z.eqb k (snd c) (s_dict st); s_key := k;
                              s_grid := fun p => if ceqb p (fst c) then k else s_grid st p |}
          end
      end.
  Fixpoint place_all (w h d : nat) (st : state) (cs : list (coord * list P)) : option state :=
    match cs with [] => Some st | c :: cs' => match place w h d st c with Some st' => place_all w h d st' cs' | None => None end end.

  Record saved := { out_dict : dictionary; out_grid : coord -> key; out_key_length : Z }.

  (** lines 94-164 save.  [order] is the HashMap's iteration order of the tiles, [base] the base map's
      dictionary in the order of its HashMap copy. *)
  Definition save (m : atom_map P SK V) (order : list (coord * list P)) (base : option dictionary) : option saved :=
    let '(rev, dict) :=
      match base with
      | None => ([], [])
      | Some b => let '(rev, dict) := take_base b (unkeyed order, []) in (retain_keyed rev, dict)
      end in
    match place_all (fst (size m)) (snd (size m)) (List.length (levels m))
            {| s_rev := rev; s_dict := dict; s_key := 0%Z; s_grid := fun _ => 0%Z |} order with
    | None => None
    | Some st => Some {| out_dict := s_dict st; out_grid := s_grid st;
                         out_key_length := Dmm.Model.adjust_key_length 1 (map fst (s_dict st)) |}
    end.

  (** the possible iteration orders of the tiles of [m] *)
  Definition order_of (m : atom_map P SK V) (order : list (coord * list P)) : Prop :=
    exists es, entries m = Some es /\ Permutation order (group es).

  (** ** Specification: the atoms of the tile at column x, height y (from the bottom, 0-based), level z, in pool order *)
  Definition tile (m : atom_map P SK V) (x y z : nat) : list P :=
    match nth_error (levels m) z with
    | None => []
    | Some l => map pop (filter (fun i => (ix i =? x) && (iy i =? y)) (map snd (keys_iter (instances l))))
    end.
  Definition row (m : atom_map P SK V) (y : nat) : nat := snd (size m) - 1 - y.
  Definition inside (m : atom_map P SK V) : Prop :=
    forall z l i inst, nth_error (levels m) z = Some l -> In (i, inst) (keys_iter (instances l)) ->
      ix inst < fst (size m) /\ iy inst < snd (size m).

  (** ** grouping *)
  Lemma ceqb_refl : forall a, ceqb a a = true. Proof. intro a. apply ceqb_eq. reflexivity. Qed.
  Lemma ceqb_sym : forall a b, ceqb a b = ceqb b a.
  Proof. intros a b. destruct (ceqb a b) eqn:E, (ceqb b a) eqn:E2; try reflexivity; apply ceqb_eq in E || apply ceqb_eq in E2; subst; rewrite ceqb_refl in *; congruence. Qed.
  Lemma ceqb_trans : forall a b c, ceqb a b = true -> ceqb b c = true -> ceqb a c = true.
  Proof. intros a b c H1 H2. apply ceqb_eq in H1, H2. subst. apply ceqb_refl. Qed.

  Definition atoms_at (c : coord) (es : list (coord * P)) : list P := map snd (filter (fun e => ceqb (fst e) c) es).
  Lemma group_get : forall es acc c, get ceqb c (fold_left (fun acc e => push_at (fst e) (snd e) acc) es acc) =
    match get ceqb c acc, atoms_at c es with
    | Some ps, ps' => Some (ps ++ ps')
    | None, [] => None
    | None, ps' => Some ps'
    end.
  Proof.
    induction es as [|[c0 p] es IH]; intros acc c; cbn [fold_left fst snd].
    - unfold atoms_at. cbn. destruct (get ceqb c acc); [rewrite app_nil_r|]; reflexivity.
    - rewrite IH. unfold push_at. rewrite (get_put ceqb ceqb_sym ceqb_trans). unfold atoms_at. cbn [filter fst].
      rewrite (ceqb_sym c0 c). destruct (ceqb c c0) eqn:E.
      + apply ceqb_eq in E. subst c0. cbn [map snd]. destruct (get ceqb c acc) as [ps|]; [rewrite <- app_assoc; reflexivity | reflexivity].
      + reflexivity.
  Qed.
  Lemma put_fst : forall c (v : list P) l, map fst (put ceqb c v l) = if has ceqb c l then map fst l else map fst l ++ [c].
  Proof.
    intros c v l. unfold has, get. induction l as [|[c0 v0] l IH]; cbn [put map find fst]; [reflexivity|].
    destruct (ceqb c c0); cbn [map fst option_map]; [reflexivity|]. rewrite IH. destruct (option_map snd _); reflexivity.
  Qed.
  Lemma group_nodup : forall es acc, NoDup (map fst acc) -> NoDup (map fst (fold_left (fun acc e => push_at (fst e) (snd e) acc) es acc)).
  Proof.
    induction es as [|[c0 p] es IH]; intros acc H; cbn [fold_left]; [exact H|]. apply IH. unfold push_at. rewrite put_fst. cbn [fst].
    destruct (has ceqb c0 acc) eqn:E; [exact H|].
    apply (NoDup_Add (a := c0) (l := map fst acc)); [rewrite <- (app_nil_r (map fst acc)) at 1; apply Add_app|]. split; [exact H|].
    intro Hin. apply in_map_iff in Hin. destruct Hin as ([c1 v1] & Hc & Hin). cbn in Hc. subst c1.
    unfold has in E. pose proof (in_get ceqb ceqb_refl c0 v1 acc Hin). destruct (get ceqb c0 acc); [discriminate | contradiction].
  Qed.
  Lemma nodup_in_get : forall (l : list (coord * list P)) c v, NoDup (map fst l) -> (In (c, v) l <-> get ceqb c l = Some v).
  Proof.
    intros l c v Hn. split.
    - intro H. destruct (get ceqb c l) as [v'|] eqn:E; [|contradiction (in_get ceqb ceqb_refl c v l H)].
      apply (get_in ceqb) in E. destruct E as (c' & Hin & He). apply ceqb_eq in He. subst c'. f_equal.
      clear -Hn H Hin. induction l as [|[c0 v0] l IH]; [destruct H|]. cbn in Hn. inversion Hn as [|? ? H1 H2]; subst.
      destruct H as [H|H], Hin as [Hin|Hin]; try congruence.
      + injection H as -> ->. contradiction H1. apply (in_map fst) in Hin. exact Hin.
      + injection Hin as -> ->. contradiction H1. apply (in_map fst) in H. exact H.
      + apply IH; assumption.
    - intro E. apply (get_in ceqb) in E. destruct E as (c' & Hin & He). apply ceqb_eq in He. subst c'. exact Hin.
  Qed.

  (** the tiles the code sees are the specification's *)
  Lemma all_some_map : forall A B (f : A -> option B) l r, all_some (map f l) = Some r -> Forall2 (fun x y => f x = Some y) l r.
  Proof.
    induction l as [|x l IH]; intros r H; cbn [map all_some] in H; [injection H as <-; constructor|].
    destruct (f x) as [y|] eqn:E; [|discriminate]. destruct (all_some (map f l)) as [r'|]; [|discriminate]. cbn in H. injection H as <-. constructor; auto.
  Qed.
  Lemma all_some_app : forall A (a b : list (option A)), all_some (a ++ b) =
    match all_some a, all_some b with Some x, Some y => Some (x ++ y) | _, _ => None end.
  Proof.
    intros A a b. induction a as [|[x|] a IH]; cbn [app all_some]; [destruct (all_some b); reflexivity| |reflexivity].
    rewrite IH. destruct (all_some a), (all_some b); reflexivity.
  Qed.
  Lemma level_entries : forall h z (k : list (nat * instance P)) es x y, all_some (map (fun q => entry h z (snd q)) k) = Some es -> y < h ->
    forall z', atoms_at (x, h - 1 - y, z') es = if z =? z' then map pop (filter (fun i => (ix i =? x) && (iy i =? y)) (map snd k)) else [].
  Proof.
    intros h z k. induction k as [|[i inst] k IH]; intros es x y H Hy z'; cbn [map all_some snd] in H.
    - injection H as <-. destruct (z =? z'); reflexivity.
    - unfold entry at 1 in H. destruct (Nat.ltb_spec (iy inst) h) as [L|L]; [|discriminate].
      destruct (all_some _) as [es'|] eqn:E; [|discriminate]. cbn in H. injection H as <-.
      unfold atoms_at. cbn [filter fst map snd]. fold (atoms_at (x, h - 1 - y, z') es').
      specialize (IH es' x y eq_refl Hy z').
      assert (Hc : ceqb (ix inst, h - 1 - iy inst, z) (x, h - 1 - y, z') = (ix inst =? x) && (iy inst =? y) && (z =? z')).
      { cbn. f_equal. f_equal. destruct (Nat.eqb_spec (iy inst) y); destruct (Nat.eqb_spec (h - 1 - iy inst) (h - 1 - y)); try reflexivity; lia. }
      rewrite Hc. destruct (Nat.eqb_spec z z') as [->|Hne].
      + rewrite andb_true_r. destruct ((ix inst =? x) && (iy inst =? y)); cbn [map snd]; unfold atoms_at in IH; rewrite IH; reflexivity.
      + rewrite andb_false_r. unfold atoms_at in IH. exact IH.
  Qed.
  Lemma atoms_at_app : forall c a b, atoms_at c (a ++ b) = atoms_at c a ++ atoms_at c b.
  Proof. intros. unfold atoms_at. rewrite filter_app, map_app. reflexivity. Qed.
  Lemma entries_tile : forall (m : atom_map P SK V) es x y z, entries m = Some es -> y < snd (size m) ->
    atoms_at (x, row m y, z) es = tile m x y z.
  Proof.
    intros m es x y z H Hy. unfold entries in H. unfold tile, row.
    assert (G : forall (ls : list (level P V)) z0 es, all_some (flat_map (fun q => map (fun k => entry (snd (size m)) (fst q) (snd k)) (keys_iter (instances (snd q)))) (enumerate z0 ls)) = Some es ->
      atoms_at (x, snd (size m) - 1 - y, z) es = if z0 <=? z then match nth_error ls (z - z0) with None => [] | Some l => map pop (filter (fun i => (ix i =? x) && (iy i =? y)) (map snd (keys_iter (instances l)))) end else []).
    { clear es H. induction ls as [|l ls IH]; intros z0 es H; cbn [enumerate flat_map fst snd] in H.
      - injection H as <-. destruct (z0 <=? z); [destruct (z - z0)|]; reflexivity.
      - rewrite all_some_app in H. destruct (all_some (map _ (keys_iter (instances l)))) as [e1|] eqn:E1; [|discriminate].
        destruct (all_some (flat_map _ (enumerate (S z0) ls))) as [e2|] eqn:E2; [|discriminate]. injection H as <-.
        rewrite atoms_at_app, (level_entries _ _ _ _ x y E1 Hy), (IH (S z0) e2 E2).
        destruct (Nat.eqb_spec z0 z) as [->|Hne].
        + rewrite Nat.leb_refl, Nat.sub_diag. cbn [nth_error]. destruct (Nat.leb_spec (S z) z); [lia|]. apply app_nil_r.
        + cbn [app]. destruct (Nat.leb_spec (S z0) z), (Nat.leb_spec z0 z); try lia; [|reflexivity].
          replace (z - z0) with (S (z - S z0)) by lia. reflexivity. }
    rewrite (G (levels m) 0 es H). cbn [Nat.leb]. rewrite Nat.sub_0_r. reflexivity.
  Qed.
  Lemma entries_total : forall m : atom_map P SK V, inside m -> exists es, entries m = Some es.
  Proof.
    intros m Hin. unfold entries.
    assert (G : forall (os : list (option (coord * P))), (forall o, In o os -> o <> None) -> exists es, all_some os = Some es).
    { induction os as [|[o|] os IH]; intro H; [exists []; reflexivity| |contradiction (H None (or_introl eq_refl)); reflexivity].
      destruct IH as [es E]; [intros; apply H; right; assumption|]. cbn. rewrite E. eexists. reflexivity. }
    apply G. intros o Ho. apply in_flat_map in Ho. destruct Ho as ([z l] & Hz & Ho). apply in_map_iff in Ho. destruct Ho as ([i inst] & <- & Hi).
    cbn [fst snd] in *. apply in_enumerate in Hz. destruct Hz as [_ Hz]. rewrite Nat.sub_0_r in Hz. destruct (Hin z l i inst Hz Hi) as [_ Hy].
    unfold entry. destruct (Nat.ltb_spec (iy inst) (snd (size m))); [discriminate | lia].
  Qed.

  Lemma order_tile : forall m order x y z, order_of m order -> y < snd (size m) ->
    forall ps, (In ((x, row m y, z), ps) order <-> tile m x y z = ps /\ ps <> []).
  Proof.
    intros m order x y z (es & He & Hp) Hy ps.
    assert (Hnd : NoDup (map fst (group es))) by (apply group_nodup; constructor).
    assert (In ((x, row m y, z), ps) order <-> In ((x, row m y, z), ps) (group es)) as ->.
    { split; apply Permutation_in; [exact Hp | symmetry; exact Hp]. }
    rewrite (nodup_in_get _ _ _ Hnd). unfold group. rewrite group_get. cbn [get find option_map]. rewrite (entries_tile m es x y z He Hy).
    destruct (tile m x y z) as [|p q]; split.
    - discriminate.
    - intros [<- H]. contradiction H. reflexivity.
    - intro H. injection H as <-. split; [reflexivity | discriminate].
    - intros [<- _]. reflexivity.
  Qed.

  (** ** the loops *)
  Notation get_rev := (get leq).
  Notation get_dict := (get Z.eqb).
  Lemma get_put_rev : forall k (v : key) k' l, get leq k' (put leq k v l) = if leq k' k then Some v else get leq k' l.
  Proof. apply (get_put leq leq_sym leq_trans). Qed.
  Lemma zeqb_trans : forall a b c, (a =? b)%Z = true -> (b =? c)%Z = true -> (a =? c)%Z = true.
  Proof. intros a b c H1 H2. apply Z.eqb_eq in H1, H2. subst. apply Z.eqb_refl. Qed.
  Lemma get_put_dict : forall k (v : list P) k' l, get Z.eqb k' (put Z.eqb k v l) = if (k' =? k)%Z then Some v else get Z.eqb k' l.
  Proof. apply (get_put Z.eqb Z.eqb_sym zeqb_trans). Qed.

  Definition good_rev (rev : list (list P * key)) (dict : dictionary) : Prop :=
    forall pl k, In (pl, k) rev -> k <> Dmm.Model.key_invalid -> exists pl', get_dict k dict = Some pl' /\ leq pl pl' = true.

  Lemma first_free_spec : forall fuel k dict r, first_free fuel k dict = Some r -> (0 <= k <= Dmm.Model.KEY_MAX)%Z ->
    (k <= r <= Dmm.Model.KEY_MAX)%Z /\ get_dict r dict = None /\ (forall j, (k <= j < r)%Z -> get_dict j dict <> None).
  Proof.
    induction fuel as [|n IH]; intros k dict r H Hk; cbn [first_free] in H; unfold has in H; destruct (get_dict k dict) eqn:E; try discriminate.
    - injection H as <-. split; [lia|]. split; [exact E | intros; lia].
    - unfold Dmm.Model.key_next in H. destruct (Z.leb_spec (k + 1) Dmm.Model.KEY_MAX) as [L|L]; [|discriminate].
      destruct (IH (k + 1)%Z dict r H ltac:(lia)) as (A & B & C). split; [lia|]. split; [exact B|]. intros j Hj.
      destruct (Z.eq_dec j k) as [->|]; [congruence | apply C; lia].
    - injection H as <-. split; [lia|]. split; [exact E | intros; lia].
  Qed.
  Lemma first_free_none : forall fuel k dict, first_free fuel k dict = None -> (0 <= k <= Dmm.Model.KEY_MAX)%Z ->
    (Dmm.Model.KEY_MAX - k <= Z.of_nat fuel)%Z -> forall j, (k <= j <= Dmm.Model.KEY_MAX)%Z -> get_dict j dict <> None.
  Proof.
    induction fuel as [|n IH]; intros k dict H Hk Hf j Hj; cbn [first_free] in H; unfold has in H; destruct (get_dict k dict) eqn:E; try discriminate.
    - replace j with k by lia. congruence.
    - destruct (Z.eq_dec j k) as [->|]; [congruence|].
      unfold Dmm.Model.key_next in H. destruct (Z.leb_spec (k + 1) Dmm.Model.KEY_MAX) as [L|L]; [|lia].
      apply (IH (k + 1)%Z dict H); lia.
  Qed.

  (** values of the reverse dictionary always satisfy the match, also for 65535 once the base is done *)
  Definition good_rev' (rev : list (list P * key)) (dict : dictionary) : Prop :=
    forall pl k, In (pl, k) rev -> exists pl', get_dict k dict = Some pl' /\ leq pl pl' = true.

  Lemma place_step : forall w h d st c done, good_rev' (s_rev st) (s_dict st) ->
    (forall k, In k (map fst (s_dict st)) -> (0 <= k <= Dmm.Model.KEY_MAX)%Z) ->
    (0 <= s_key st <= Dmm.Model.KEY_MAX)%Z -> (forall k, (0 <= k < s_key st)%Z -> get_dict k (s_dict st) <> None) ->
    (forall c pl, In (c, pl) done -> exists pl', get_dict (s_grid st c) (s_dict st) = Some pl' /\ leq pl pl' = true) ->
    ~ In (fst c) (map fst done) ->
    forall st', place w h d st c = Some st' ->
    good_rev' (s_rev st') (s_dict st') /\ (forall k, In k (map fst (s_dict st')) -> (0 <= k <= Dmm.Model.KEY_MAX)%Z) /\
    (0 <= s_key st' <= Dmm.Model.KEY_MAX)%Z /\ (forall k, (0 <= k < s_key st')%Z -> get_dict k (s_dict st') <> None) /\
    (forall c0 pl, In (c0, pl) (done ++ [c]) -> exists pl', get_dict (s_grid st' c0) (s_dict st') = Some pl' /\ leq pl pl' = true) /\
    (forall k pl, get_dict k (s_dict st) = Some pl -> get_dict k (s_dict st') = Some pl) /\
    (forall pl k, get_rev pl (s_rev st) = Some k -> get_rev pl (s_rev st') = Some k) /\
    get_rev (snd c) (s_rev st') = Some (s_grid st' (fst c)) /\
    (forall c0, c0 <> fst c -> s_grid st' c0 = s_grid st c0) /\ List.length (s_dict st') <= S (List.length (s_dict st)).
  Proof.
    intros w h d st [c ps] done G1 G2 G3 G4 G5 Hnew st' H. unfold place in H. cbn [fst snd] in *.
    destruct (negb (in_bounds w h d c)); [discriminate|].
    destruct (get_rev ps (s_rev st)) as [k|] eqn:Eg.
    - injection H as <-. cbn [s_rev s_dict s_key s_grid]. do 4 (split; [assumption|]). split; [|split; [auto|split; [auto|split; [|split; [|lia]]]]].
      + intros c0 pl Hin. apply in_app_or in Hin. destruct Hin as [Hin|[Hin|[]]].
        * destruct (ceqb c0 c) eqn:Ec; [|apply G5; exact Hin]. apply ceqb_eq in Ec. subst c0. contradiction Hnew. apply (in_map fst) in Hin. exact Hin.
        * injection Hin as <- <-. rewrite ceqb_refl. apply (get_in leq) in Eg. destruct Eg as (pl0 & Hin & Hl). destruct (G1 pl0 k Hin) as (pl' & E1 & E2).
          exists pl'. split; [exact E1|]. eapply leq_trans; eassumption.
      + rewrite ceqb_refl. exact Eg.
      + intros c0 Hne. destruct (ceqb c0 c) eqn:Ec; [apply ceqb_eq in Ec; contradiction | reflexivity].
    - destruct (first_free (Z.to_nat Dmm.Model.KEY_MAX) (s_key st) (s_dict st)) as [k|] eqn:Ef; [|discriminate]. injection H as <-.
      destruct (first_free_spec _ _ _ _ Ef G3) as (F1 & F2 & F3). cbn [s_rev s_dict s_key s_grid].
      assert (Mono : forall k0 pl, get_dict k0 (s_dict st) = Some pl -> get_dict k0 (put Z.eqb k ps (s_dict st)) = Some pl).
      { intros k0 pl H0. rewrite get_put_dict. destruct (Z.eqb_spec k0 k) as [->|]; [congruence | exact H0]. }
      assert (Hk : get_dict k (put Z.eqb k ps (s_dict st)) = Some ps) by (rewrite get_put_dict, Z.eqb_refl; reflexivity).
      split; [|split; [|split; [|split; [|split; [|split; [exact Mono|split; [|split; [|split]]]]]]]].
      + intros pl k0 Hin. apply (in_put leq leq_refl) in Hin. destruct Hin as [[Hl ->]|Hin].
        * exists ps. split; [exact Hk|]. rewrite leq_sym. exact Hl.
        * destruct (G1 pl k0 Hin) as (pl' & E1 & E2). exists pl'. split; [apply Mono; exact E1 | exact E2].
      + intros k0 Hin. apply put_keys in Hin. destruct Hin as [->|Hin]; [lia | apply G2; exact Hin].
      + lia.
      + intros k0 Hk0. destruct (Z.lt_ge_cases k0 (s_key st)) as [L|L].
        * specialize (G4 k0 ltac:(lia)). destruct (get_dict k0 (s_dict st)) as [pl|] eqn:E0; [|contradiction]. rewrite (Mono _ _ E0). discriminate.
        * specialize (F3 k0 ltac:(lia)). destruct (get_dict k0 (s_dict st)) as [pl|] eqn:E0; [|contradiction]. rewrite (Mono _ _ E0). discriminate.
      + intros c0 pl Hin. apply in_app_or in Hin. destruct Hin as [Hin|[Hin|[]]].
        * destruct (ceqb c0 c) eqn:Ec.
          -- apply ceqb_eq in Ec. subst c0. contradiction Hnew. apply (in_map fst) in Hin. exact Hin.
          -- destruct (G5 c0 pl Hin) as (pl' & E1 & E2). exists pl'. split; [apply Mono; exact E1 | exact E2].
        * injection Hin as <- <-. rewrite ceqb_refl. exists ps. split; [exact Hk | apply leq_refl].
      + intros pl k0 H0. rewrite get_put_rev. destruct (leq pl ps) eqn:El; [|exact H0]. rewrite (get_eq leq leq_sym leq_trans pl ps _ El) in H0. congruence.
      + rewrite get_put_rev, leq_refl, ceqb_refl. reflexivity.
      + intros c0 Hne. destruct (ceqb c0 c) eqn:Ec; [apply ceqb_eq in Ec; contradiction | reflexivity].
      + apply put_length_le.
  Qed.

  Lemma place_all_spec : forall w h d cs st done, good_rev' (s_rev st) (s_dict st) ->
    (forall k, In k (map fst (s_dict st)) -> (0 <= k <= Dmm.Model.KEY_MAX)%Z) ->
    (0 <= s_key st <= Dmm.Model.KEY_MAX)%Z -> (forall k, (0 <= k < s_key st)%Z -> get_dict k (s_dict st) <> None) ->
    (forall c pl, In (c, pl) done -> exists pl', get_dict (s_grid st c) (s_dict st) = Some pl' /\ leq pl pl' = true) ->
    NoDup (map fst (done ++ cs)) ->
    (forall c pl, In (c, pl) done -> get_rev pl (s_rev st) = Some (s_grid st c)) ->
    forall st', place_all w h d st cs = Some st' ->
    (forall c pl, In (c, pl) (done ++ cs) -> get_rev pl (s_rev st') = Some (s_grid st' c)) /\
    (forall k, In k (map fst (s_dict st')) -> (0 <= k <= Dmm.Model.KEY_MAX)%Z) /\
    (forall c0 pl, In (c0, pl) (done ++ cs) -> exists pl', get_dict (s_grid st' c0) (s_dict st') = Some pl' /\ leq pl pl' = true) /\
    (forall k pl, get_dict k (s_dict st) = Some pl -> get_dict k (s_dict st') = Some pl) /\
    (forall c0 pl, In (c0, pl) cs -> forall k, get_rev pl (s_rev st) = Some k -> s_grid st' c0 = k) /\
    (forall c0, ~ In c0 (map fst cs) -> s_grid st' c0 = s_grid st c0).
  Proof.
    intros w h d cs. induction cs as [|c cs IH]; intros st done G1 G2 G3 G4 G5 Hnd G6 st' H; cbn [place_all] in H.
    - injection H as <-. rewrite app_nil_r. split; [exact G6|]. split; [exact G2|]. split; [exact G5|]. split; [auto|]. split; [intros ? ? [] | reflexivity].
    - destruct (place w h d st c) as [st1|] eqn:E; [|discriminate].
      assert (Hnew : ~ In (fst c) (map fst done)).
      { rewrite map_app in Hnd. cbn [map] in Hnd. apply NoDup_remove_2 in Hnd. intro Hin. apply Hnd, in_or_app. left. exact Hin. }
      destruct (place_step w h d st c done G1 G2 G3 G4 G5 Hnew st1 E) as (H1 & H2 & H3 & H4 & H5 & H6 & H7 & H8 & H9 & _).
      assert (Hnd1 : NoDup (map fst ((done ++ [c]) ++ cs))) by (rewrite <- app_assoc; exact Hnd).
      assert (H10 : forall c0 pl, In (c0, pl) (done ++ [c]) -> get_rev pl (s_rev st1) = Some (s_grid st1 c0)).
      { intros c0 pl Hin. apply in_app_or in Hin. destruct Hin as [Hin|[Hin|[]]].
        - rewrite H9; [apply H7, G6, Hin|]. intros ->. apply Hnew. apply (in_map fst) in Hin. exact Hin.
        - subst c. exact H8. }
      destruct (IH st1 (done ++ [c]) H1 H2 H3 H4 H5 Hnd1 H10 st' H) as (R & A & B & C & D & F).
      split; [intros c0 pl Hin; apply R; rewrite <- app_assoc; exact Hin|].
      split; [exact A|]. split; [intros c0 pl Hin; apply B; rewrite <- app_assoc; exact Hin|]. split; [auto|]. split.
      + intros c0 pl [Hc0|Hin] k Hk.
        * subst c. cbn [fst snd] in *. assert (Hc : ~ In c0 (map fst cs)).
          { rewrite map_app in Hnd. cbn [map fst] in Hnd. apply NoDup_remove_2 in Hnd. intro Hin. apply Hnd, in_or_app. right. exact Hin. }
          rewrite (F c0 Hc). rewrite (H7 _ _ Hk) in H8. congruence.
        * apply (D c0 pl Hin). apply H7. exact Hk.
      + intros c0 Hc. cbn [map In] in Hc. rewrite F by tauto. apply H9. intros ->. apply Hc. left. reflexivity.
  Qed.

  (** the base loop *)
  Lemma unkeyed_spec : forall order, (forall pl k, In (pl, k) (unkeyed order) -> k = Dmm.Model.key_invalid) /\
    (forall c pl, In (c, pl) order -> get_rev pl (unkeyed order) <> None).
  Proof.
    intro order. unfold unkeyed.
    assert (G : forall acc, (forall pl k, In (pl, k) acc -> k = Dmm.Model.key_invalid) ->
      (forall pl k, In (pl, k) (fold_left (fun rev c => put leq (snd c) Dmm.Model.key_invalid rev) order acc) -> k = Dmm.Model.key_invalid) /\
      (forall pl, get_rev pl acc <> None -> get_rev pl (fold_left (fun rev (c : coord * list P) => put leq (snd c) Dmm.Model.key_invalid rev) order acc) <> None) /\
      (forall c pl, In (c, pl) order -> get_rev pl (fold_left (fun rev (c : coord * list P) => put leq (snd c) Dmm.Model.key_invalid rev) order acc) <> None)).
    { induction order as [|[c0 p0] order IH]; intros acc Ha; cbn [fold_left].
      - split; [exact Ha|]. split; [auto | intros ? ? []].
      - assert (Ha' : forall pl k, In (pl, k) (put leq p0 Dmm.Model.key_invalid acc) -> k = Dmm.Model.key_invalid).
        { intros pl k Hin. apply (in_put leq leq_refl) in Hin. destruct Hin as [[_ ->]|Hin]; [reflexivity | eapply Ha; exact Hin]. }
        destruct (IH _ Ha') as (A & B & C). split; [exact A|]. split.
        + intros pl Hpl. apply B. rewrite get_put_rev. cbn [snd]. destruct (leq pl p0); [discriminate | exact Hpl].
        + intros c pl [H|Hin]; [injection H as -> ->|apply (C c pl Hin)]. apply B. rewrite get_put_rev. cbn [snd]. rewrite leq_refl. discriminate. }
    destruct (G [] ltac:(intros ? ? [])) as (A & _ & C). split; assumption.
  Qed.

  Lemma take_base_cons : forall k0 p0 (base : dictionary) rev dict, take_base ((k0, p0) :: base) (rev, dict) =
    take_base base (if has leq p0 rev then (put leq p0 k0 rev, put Z.eqb k0 p0 dict) else (rev, dict)).
  Proof. reflexivity. Qed.
  Lemma take_base_spec : forall base rev dict donek, NoDup (map fst (donek ++ base)) ->
    good_rev rev dict -> (forall k pl, get_dict k dict = Some pl -> In (k, pl) donek) ->
    (forall k, In k (map fst dict) -> In k (map fst donek)) ->
    forall rev' dict', take_base base (rev, dict) = (rev', dict') ->
    good_rev rev' dict' /\ (forall k pl, get_dict k dict' = Some pl -> In (k, pl) (donek ++ base)) /\
    (forall k, In k (map fst dict') -> In k (map fst (donek ++ base))) /\
    (forall pl, get_rev pl rev' = None <-> get_rev pl rev = None) /\
    (forall pl, (exists k, In (k, pl) base) -> get_rev pl rev <> None -> exists k plb, get_rev pl rev' = Some k /\ In (k, plb) base) /\
    (forall pl, (forall k plb, In (k, plb) base -> leq pl plb = false) -> get_rev pl rev' = get_rev pl rev) /\
    List.length dict' <= List.length dict + List.length base.
  Proof.
    induction base as [|[k0 p0] base IH]; intros rev dict donek Hnd G1 G2 G3 rev' dict' Etb.
    - cbn in Etb. injection Etb as <- <-. rewrite app_nil_r. split; [exact G1|]. split; [exact G2|]. split; [exact G3|]. split; [reflexivity|]. split; [intros pl [k []]|]. split; [reflexivity | lia].
    - assert (Hnd1 : NoDup (map fst ((donek ++ [(k0, p0)]) ++ base))) by (rewrite <- app_assoc; exact Hnd).
      assert (Hk0 : ~ In k0 (map fst donek)).
      { rewrite map_app in Hnd. cbn [map fst] in Hnd. apply NoDup_remove_2 in Hnd. intro Hin. apply Hnd, in_or_app. left. exact Hin. }
      assert (Hfresh : get_dict k0 dict = None).
      { destruct (get_dict k0 dict) as [pl|] eqn:E; [|reflexivity]. contradiction Hk0. apply G2 in E. apply (in_map fst) in E. exact E. }
      rewrite take_base_cons in Etb. destruct (has leq p0 rev) eqn:Eh.
      + specialize (IH (put leq p0 k0 rev) (put Z.eqb k0 p0 dict) (donek ++ [(k0, p0)]) Hnd1).
        assert (Mono : forall k pl, get_dict k dict = Some pl -> get_dict k (put Z.eqb k0 p0 dict) = Some pl).
        { intros k pl H0. rewrite get_put_dict. destruct (Z.eqb_spec k k0) as [->|]; [congruence | exact H0]. }
        assert (P1 : good_rev (put leq p0 k0 rev) (put Z.eqb k0 p0 dict)).
        { intros pl k Hin Hne. apply (in_put leq leq_refl) in Hin. destruct Hin as [[Hl ->]|Hin].
          - exists p0. rewrite get_put_dict, Z.eqb_refl. split; [reflexivity|]. rewrite leq_sym. exact Hl.
          - destruct (G1 pl k Hin Hne) as (pl' & E1 & E2). exists pl'. split; [apply Mono; exact E1 | exact E2]. }
        assert (P2 : forall k pl, get_dict k (put Z.eqb k0 p0 dict) = Some pl -> In (k, pl) (donek ++ [(k0, p0)])).
        { intros k pl Hg. rewrite get_put_dict in Hg. apply in_or_app. destruct (Z.eqb_spec k k0) as [->|]; [injection Hg as <-; right; left; reflexivity | left; apply G2; exact Hg]. }
        assert (P3 : forall k, In k (map fst (put Z.eqb k0 p0 dict)) -> In k (map fst (donek ++ [(k0, p0)]))).
        { intros k Hin. rewrite map_app, in_app_iff. apply put_keys in Hin. destruct Hin as [->|Hin]; [right; left; reflexivity | left; apply G3; exact Hin]. }
        destruct (IH P1 P2 P3 rev' dict' Etb) as (A & B & B2 & C & D & F & N).
        assert (Hp0 : get_rev p0 rev <> None) by (unfold has in Eh; destruct (get_rev p0 rev); [discriminate | discriminate]).
        assert (Hsame : forall pl, get_rev pl (put leq p0 k0 rev) = None <-> get_rev pl rev = None).
        { intro pl. rewrite get_put_rev. destruct (leq pl p0) eqn:El; [|reflexivity].
          rewrite (get_eq leq leq_sym leq_trans pl p0 rev El). split; [discriminate | intro; contradiction]. }
        split; [exact A|]. split; [intros k pl Hg; specialize (B k pl Hg); rewrite <- app_assoc in B; exact B|].
        split; [intros k Hg; specialize (B2 k Hg); rewrite <- app_assoc in B2; exact B2|].
        split; [intro pl; rewrite C; apply Hsame|]. split; [|split].
        * intros pl [k Hin] Hpl.
          destruct (existsb (fun q => leq pl (snd q)) base) eqn:Ex.
          -- apply existsb_exists in Ex. destruct Ex as ([k1 p1] & Hin1 & Hl1). cbn in Hl1.
             destruct (D p1) as (k2 & plb & Hg & Hin2); [exists k1; exact Hin1 | rewrite Hsame, <- (get_eq leq leq_sym leq_trans pl p1 rev Hl1); exact Hpl|].
             exists k2, plb. rewrite (get_eq leq leq_sym leq_trans pl p1 rev' Hl1). split; [exact Hg | right; exact Hin2].
          -- assert (Hno : forall k1 p1, In (k1, p1) base -> leq pl p1 = false).
             { intros k1 p1 Hin1. destruct (leq pl p1) eqn:El; [|reflexivity].
               assert (existsb (fun q => leq pl (snd q)) base = true) by (apply existsb_exists; exists (k1, p1); auto). congruence. }
             destruct Hin as [H|Hin]; [|specialize (Hno k pl Hin); rewrite leq_refl in Hno; discriminate].
             injection H as -> ->. exists k, pl. rewrite (F pl Hno), get_put_rev, leq_refl. split; [reflexivity | left; reflexivity].
        * intros pl Hno. rewrite F by (intros k1 p1 Hin1; apply (Hno k1); right; exact Hin1). rewrite get_put_rev, (Hno k0 p0 (or_introl eq_refl)). reflexivity.
        * cbn [List.length]. pose proof (put_length_le Z.eqb k0 p0 dict). lia.
      + assert (P2 : forall k pl, get_dict k dict = Some pl -> In (k, pl) (donek ++ [(k0, p0)])) by (intros; apply in_or_app; left; apply G2; assumption).
        assert (P3 : forall k, In k (map fst dict) -> In k (map fst (donek ++ [(k0, p0)]))) by (intros; rewrite map_app, in_app_iff; left; apply G3; assumption).
        destruct (IH rev dict (donek ++ [(k0, p0)]) Hnd1 G1 P2 P3 rev' dict' Etb) as (A & B & B2 & C & D & F & N).
        split; [exact A|]. split; [intros k pl Hg; specialize (B k pl Hg); rewrite <- app_assoc in B; exact B|].
        split; [intros k Hg; specialize (B2 k Hg); rewrite <- app_assoc in B2; exact B2|].
        split; [exact C|]. split; [|split].
        * intros pl [k [H|Hin]] Hpl.
          -- injection H as -> ->. unfold has in Eh. destruct (get_rev pl rev); [discriminate | contradiction].
          -- destruct (D pl (ex_intro _ k Hin) Hpl) as (k1 & plb & Hg & Hin1). exists k1, plb. split; [exact Hg | right; exact Hin1].
        * intros pl Hno. apply F. intros k1 p1 Hin1. apply (Hno k1). right. exact Hin1.
        * cbn [List.length]. lia.
  Qed.

  (** ** theorems *)
  (** a dictionary: distinct keys of 16 bits (dmm.rs: BTreeMap<Key, _>, Key(u16)) *)
  Definition dict_ok (b : dictionary) : Prop := NoDup (map fst b) /\ forall k, In k (map fst b) -> (0 <= k <= 65535)%Z.
  Definition base_ok (base : option dictionary) : Prop := match base with None => True | Some b => dict_ok b end.
  Definition base_entries (base : option dictionary) : dictionary := match base with None => [] | Some b => b end.

  (** the state before the grid is filled *)
  Definition start (order : list (coord * list P)) (base : option dictionary) : state :=
    let '(rev, dict) :=
      match base with
      | None => ([], [])
      | Some b => let '(rev, dict) := take_base b (unkeyed order, []) in (retain_keyed rev, dict)
      end in
    {| s_rev := rev; s_dict := dict; s_key := 0%Z; s_grid := fun _ => 0%Z |}.

  Lemma save_start : forall m order base, save m order base =
    option_map (fun st => {| out_dict := s_dict st; out_grid := s_grid st; out_key_length := Dmm.Model.adjust_key_length 1 (map fst (s_dict st)) |})
      (place_all (fst (size m)) (snd (size m)) (List.length (levels m)) (start order base) order).
  Proof.
    intros m order base. unfold save, start. destruct base as [b|]; [destruct (take_base b (unkeyed order, [])) as [rev dict]|]; destruct (place_all _ _ _ _ _); reflexivity.
  Qed.

  Lemma start_spec : forall order base, base_ok base -> let st := start order base in
    good_rev' (s_rev st) (s_dict st) /\ (forall k, In k (map fst (s_dict st)) -> (0 <= k <= Dmm.Model.KEY_MAX)%Z) /\
    s_key st = 0%Z /\ (forall k pl, get_dict k (s_dict st) = Some pl -> In (k, pl) (base_entries base)) /\
    List.length (s_dict st) <= List.length (base_entries base) /\
    ((forall k, In k (map fst (base_entries base)) -> k <> 65535%Z) ->
     forall c pl k0 plb, In (c, pl) order -> In (k0, plb) (base_entries base) -> leq pl plb = true -> exists k, get_rev pl (s_rev st) = Some k).
  Proof.
    intros order [b|] Hb; cbn [base_entries].
    - destruct Hb as [Hnd Hr]. destruct (unkeyed_spec order) as [U1 U2]. unfold start.
      destruct (take_base b (unkeyed order, [])) as [rev dict] eqn:Etb.
      destruct (take_base_spec b (unkeyed order) [] [] Hnd) with (rev' := rev) (dict' := dict) as (A & B & B2 & C & D & F & N); try exact Etb.
      + intros pl k Hin Hne. contradiction (Hne (U1 _ _ Hin)).
      + discriminate.
      + intros k [].
      + cbn [s_rev s_dict s_key]. split; [|split; [|split; [|split; [|split]]]].
        * intros pl k Hin. unfold retain_keyed in Hin. apply filter_In in Hin. destruct Hin as [Hin Hne]. cbn in Hne.
          destruct (Z.eqb_spec k Dmm.Model.key_invalid) as [|Hne']; [discriminate|]. apply A; assumption.
        * intros k Hin. apply Hr, B2, Hin.
        * reflexivity.
        * exact B.
        * cbn in N. exact N.
        * intros Hk c pl k0 plb Hin Hinb Hl. destruct (D plb) as (k & plb' & Hg & Hin').
          { exists k0. exact Hinb. }
          { rewrite <- (get_eq leq leq_sym leq_trans pl plb _ Hl). eapply U2. exact Hin. }
          exists k. rewrite (get_eq leq leq_sym leq_trans pl plb _ Hl). unfold retain_keyed.
          apply (get_filter leq (fun v => negb (v =? Dmm.Model.key_invalid)%Z)); [exact Hg|].
          destruct (Z.eqb_spec k Dmm.Model.key_invalid) as [->|]; [|reflexivity]. contradiction (Hk Dmm.Model.key_invalid); [|reflexivity].
          apply (in_map fst) in Hin'. exact Hin'.
    - unfold start. cbn. split; [intros ? ? []|]. split; [intros ? []|]. split; [reflexivity|]. split; [discriminate|]. split; [lia|]. intros _ ? ? ? ? _ [].
  Qed.

  Lemma order_nodup : forall m order, order_of m order -> NoDup (map fst order).
  Proof.
    intros m order (es & _ & Hp). eapply Permutation_NoDup; [apply Permutation_map; symmetry; exact Hp|]. apply group_nodup. constructor.
  Qed.

  (** What save writes, in one lemma. *)
  Lemma save_spec : forall m order base out, order_of m order -> base_ok base -> save m order base = Some out ->
    (forall k, In k (map fst (out_dict out)) -> (0 <= k <= Dmm.Model.KEY_MAX)%Z) /\
    (forall c pl, In (c, pl) order -> exists pl', get_dict (out_grid out c) (out_dict out) = Some pl' /\ leq pl pl' = true) /\
    (forall c1 c2 pl1 pl2, In (c1, pl1) order -> In (c2, pl2) order -> leq pl1 pl2 = true -> out_grid out c1 = out_grid out c2) /\
    (forall c pl k, In (c, pl) order -> get_rev pl (s_rev (start order base)) = Some k -> out_grid out c = k) /\
    (forall k pl, get_dict k (s_dict (start order base)) = Some pl -> get_dict k (out_dict out) = Some pl) /\
    (forall c, ~ In c (map fst order) -> out_grid out c = 0%Z) /\
    out_key_length out = Dmm.Model.adjust_key_length 1 (map fst (out_dict out)).
  Proof.
    intros m order base out Ho Hb H. rewrite save_start in H. destruct (place_all _ _ _ _ _) as [st|] eqn:E; [|discriminate]. cbn in H. injection H as <-.
    cbn [out_dict out_grid out_key_length]. destruct (start_spec order base Hb) as (S1 & S2 & S3 & _).
    assert (K : (0 <= s_key (start order base) <= Dmm.Model.KEY_MAX)%Z) by (rewrite S3; unfold Dmm.Model.KEY_MAX; lia).
    assert (K2 : forall k, (0 <= k < s_key (start order base))%Z -> get_dict k (s_dict (start order base)) <> None) by (rewrite S3; intros; lia).
    assert (Hg : forall c, s_grid (start order base) c = 0%Z).
    { intro c. unfold start. destruct base as [b|]; [destruct (take_base b (unkeyed order, []))|]; reflexivity. }
    destruct (place_all_spec _ _ _ _ _ [] S1 S2 K K2 ltac:(intros ? ? []) (order_nodup _ _ Ho) ltac:(intros ? ? []) st E) as (R & A & B & C & D & F).
    cbn [app] in *. split; [exact A|]. split; [exact B|]. split; [|split; [|split; [|split]]].
    - intros c1 c2 pl1 pl2 H1 H2 Hl. pose proof (R c1 pl1 H1) as R1. pose proof (R c2 pl2 H2) as R2.
      rewrite (get_eq leq leq_sym leq_trans pl1 pl2 _ Hl) in R1. congruence.
    - intros c pl k H1 H2. exact (D c pl H1 k H2).
    - exact C.
    - intros c Hc. rewrite F by exact Hc. apply Hg.
    - reflexivity.
  Qed.

  (** the same atoms in the same order *)
  Definition same_tile : list P -> list P -> Prop := Forall2 (fun a b => peq a b = true).

  Lemma save_tiles : forall m order base out, order_of m order -> base_ok base -> save m order base = Some out ->
    (forall x y z, y < snd (size m) -> tile m x y z <> [] ->
       exists pl, get_dict (out_grid out (x, row m y, z)) (out_dict out) = Some pl /\ same_tile (tile m x y z) pl) /\
    (forall x y z x' y' z', y < snd (size m) -> y' < snd (size m) -> tile m x y z <> [] -> tile m x' y' z' <> [] ->
       (out_grid out (x, row m y, z) = out_grid out (x', row m y', z') <-> same_tile (tile m x y z) (tile m x' y' z'))) /\
    (forall k, In k (map fst (out_dict out)) -> (0 <= k <= 65535)%Z /\ Dmm.Model.format_key (out_key_length out) k <> None).
  Proof.
    intros m order base out Ho Hb H. destruct (save_spec m order base out Ho Hb H) as (A & B & C & _ & _ & _ & L).
    assert (T : forall x y z, y < snd (size m) -> tile m x y z <> [] -> In ((x, row m y, z), tile m x y z) order).
    { intros x y z Hy Ht. apply (order_tile m order x y z Ho Hy). auto. }
    split; [|split].
    - intros x y z Hy Ht. destruct (B _ _ (T x y z Hy Ht)) as (pl & E1 & E2). exists pl. split; [exact E1 | apply leq_spec; exact E2].
    - intros x y z x' y' z' Hy Hy' Ht Ht'. destruct (B _ _ (T x y z Hy Ht)) as (pl & E1 & E2), (B _ _ (T x' y' z' Hy' Ht')) as (pl' & E1' & E2').
      split; intro G.
      + rewrite G in E1. assert (pl = pl') as <- by congruence. apply leq_spec. eapply leq_trans; [exact E2 | rewrite leq_sym; exact E2'].
      + eapply C; [apply T; assumption | apply T; assumption | apply leq_spec; exact G].
    - intros k Hk. split; [apply A; exact Hk|]. rewrite L. apply (Dmm.Props.C07_adjusted_length_fits_and_is_minimal 1 (map fst (out_dict out))).
      + intro E. rewrite E in Hk. destruct Hk.
      + exact A.
      + exact Hk.
  Qed.

  Lemma save_base : forall m order base out, order_of m order -> base_ok base -> save m order base = Some out ->
    (forall k, In k (map fst (base_entries base)) -> k <> 65535%Z) ->
    forall x y z k0 pl0, y < snd (size m) -> tile m x y z <> [] -> In (k0, pl0) (base_entries base) -> same_tile (tile m x y z) pl0 ->
    exists pl, In (out_grid out (x, row m y, z), pl) (base_entries base) /\ same_tile (tile m x y z) pl /\
      get_dict (out_grid out (x, row m y, z)) (out_dict out) = Some pl.
  Proof.
    intros m order base out Ho Hb H Hk x y z k0 pl0 Hy Ht Hin Hs. apply leq_spec in Hs.
    assert (HT : In ((x, row m y, z), tile m x y z) order) by (apply (order_tile m order x y z Ho Hy); auto).
    destruct (save_spec m order base out Ho Hb H) as (_ & _ & _ & D & E & _).
    destruct (start_spec order base Hb) as (S1 & _ & _ & S4 & _ & S6).
    destruct (S6 Hk _ _ _ _ HT Hin Hs) as [k Hg]. rewrite (D _ _ _ HT Hg).
    pose proof (get_in leq _ _ _ Hg) as (pl1 & Hin1 & Hl1). destruct (S1 _ _ Hin1) as (pl & E1 & E2).
    exists pl. split; [apply S4; exact E1|]. split; [apply leq_spec; eapply leq_trans; eassumption | apply E; exact E1].
  Qed.

  (** counting *)
  Lemma full_dict : forall (dict : dictionary), (forall j, (0 <= j <= Dmm.Model.KEY_MAX)%Z -> get_dict j dict <> None) ->
    (Dmm.Model.KEY_MAX + 1 <= Z.of_nat (List.length dict))%Z.
  Proof.
    intros dict H. generalize dependent Dmm.Model.KEY_MAX. intros M H. destruct (Z.lt_ge_cases M 0) as [L|L]; [lia|].
    assert (Hlen : List.length (map Z.of_nat (seq 0 (Z.to_nat (M + 1)))) <= List.length (map fst dict)).
    { apply NoDup_incl_length.
      - apply FinFun.Injective_map_NoDup; [intros a b; apply Nat2Z.inj | apply seq_NoDup].
      - intros j Hj. apply in_map_iff in Hj. destruct Hj as (n & <- & Hn). apply in_seq in Hn.
        specialize (H (Z.of_nat n) ltac:(lia)). destruct (get_dict (Z.of_nat n) dict) as [pl|] eqn:E; [|contradiction].
        apply (get_in Z.eqb) in E. destruct E as (k & Hin & Hk). apply Z.eqb_eq in Hk. subst k. apply (in_map fst) in Hin. exact Hin. }
    rewrite !map_length, seq_length in Hlen. lia.
  Qed.

  Lemma place_all_total : forall w h d (kinds : list (list P)) (nb : nat), (Z.of_nat (List.length kinds) + Z.of_nat nb <= Dmm.Model.KEY_MAX + 1)%Z ->
    forall cs st, (forall c, In c (map fst cs) -> in_bounds w h d c = true) ->
    (forall c pl, In (c, pl) cs -> exists r, In r kinds /\ leq pl r = true) ->
    (0 <= s_key st <= Dmm.Model.KEY_MAX)%Z -> (forall k, (0 <= k < s_key st)%Z -> get_dict k (s_dict st) <> None) ->
    forall reps, NoDup reps -> incl reps kinds -> (forall r, In r reps -> get_rev r (s_rev st) <> None) ->
    List.length (s_dict st) <= nb + List.length reps -> place_all w h d st cs <> None.
  Proof.
    intros w h d kinds nb Hcap. induction cs as [|[c ps] cs IH]; intros st Hb Hk G3 G4 reps R1 R2 R3 R4; cbn [place_all]; [discriminate|].
    unfold place. cbn [fst snd]. rewrite (Hb c (or_introl eq_refl)). cbn [negb].
    assert (Hb' : forall c, In c (map fst cs) -> in_bounds w h d c = true) by (intros; apply Hb; right; assumption).
    assert (Hk' : forall c pl, In (c, pl) cs -> exists r, In r kinds /\ leq pl r = true) by (intros; eapply Hk; right; eassumption).
    destruct (get_rev ps (s_rev st)) as [k|] eqn:Eg; [apply IH with reps; cbn [s_rev s_dict s_key]; assumption|].
    destruct (Hk c ps (or_introl eq_refl)) as (r & Hr1 & Hr2).
    assert (Hfresh : ~ In r reps). { intro Hin. apply (R3 r Hin). rewrite <- (get_eq leq leq_sym leq_trans ps r _ Hr2). exact Eg. }
    assert (Hnd : NoDup (r :: reps)) by (constructor; assumption).
    assert (Hincl : incl (r :: reps) kinds) by (intros q [<-|Hq]; [exact Hr1 | apply R2; exact Hq]).
    pose proof (NoDup_incl_length Hnd Hincl) as Hlen. cbn [List.length] in Hlen.
    destruct (first_free (Z.to_nat Dmm.Model.KEY_MAX) (s_key st) (s_dict st)) as [k|] eqn:Ef.
    - destruct (first_free_spec _ _ _ _ Ef G3) as (F1 & F2 & F3).
      apply IH with (r :: reps); cbn [s_rev s_dict s_key]; try assumption; try lia.
      + intros k0 Hk0. rewrite get_put_dict. destruct (Z.eqb_spec k0 k); [discriminate|].
        destruct (Z.lt_ge_cases k0 (s_key st)); [apply G4 | apply F3]; lia.
      + intros q [<-|Hq]; rewrite get_put_rev; [rewrite leq_sym, Hr2; discriminate|]. destruct (leq q ps); [discriminate | apply R3; exact Hq].
      + pose proof (put_length_le Z.eqb k ps (s_dict st)). cbn [List.length]. lia.
    - exfalso. pose proof (first_free_none _ _ _ Ef G3 ltac:(rewrite Z2Nat.id by (unfold Dmm.Model.KEY_MAX; lia); lia)) as F.
      assert (Full : (Dmm.Model.KEY_MAX + 1 <= Z.of_nat (List.length (s_dict st)))%Z).
      { apply full_dict. intros j Hj. destruct (Z.lt_ge_cases j (s_key st)); [apply G4 | apply F]; lia. }
      lia.
  Qed.

  Lemma order_in_bounds : forall m order, inside m -> order_of m order -> forall c, In c (map fst order) ->
    in_bounds (fst (size m)) (snd (size m)) (List.length (levels m)) c = true.
  Proof.
    intros m order Hin (es & He & Hp) c Hc.
    assert (Hc' : In c (map fst (group es))) by (eapply Permutation_in; [apply Permutation_map; exact Hp | exact Hc]).
    apply in_map_iff in Hc'. destruct Hc' as ([c' ps] & Hcc & Hg). cbn in Hcc. subst c'.
    assert (Hnd : NoDup (map fst (group es))) by (apply group_nodup; constructor).
    apply (nodup_in_get _ _ _ Hnd) in Hg. unfold group in Hg. rewrite group_get in Hg. cbn [get find option_map] in Hg.
    destruct (atoms_at c es) as [|p q] eqn:Ea; [discriminate|].
    assert (Hp1 : In p (atoms_at c es)) by (rewrite Ea; left; reflexivity). unfold atoms_at in Hp1. apply in_map_iff in Hp1.
    destruct Hp1 as ([c1 p1] & _ & H1). apply filter_In in H1. destruct H1 as [H1 Hc1]. cbn in Hc1. apply ceqb_eq in Hc1. subst c1.
    unfold entries in He.
    assert (G : forall (os : list (option (coord * P))) es, all_some os = Some es -> forall e, In e es -> In (Some e) os).
    { clear. induction os as [|[o|] os IH]; cbn; intros es H e He; [injection H as <-; destruct He| |discriminate].
      destruct (all_some os) as [es'|]; [|discriminate]. injection H as <-. destruct He as [<-|He]; [left; reflexivity | right; eapply IH; [reflexivity | exact He]]. }
    apply (G _ _ He) in H1. apply in_flat_map in H1. destruct H1 as ([z l] & Hz & H1). apply in_map_iff in H1. destruct H1 as ([i inst] & Hent & Hi).
    cbn [fst snd] in *. apply in_enumerate in Hz. destruct Hz as [_ Hz]. rewrite Nat.sub_0_r in Hz. destruct (Hin z l i inst Hz Hi) as [Hx Hy].
    unfold entry in Hent. destruct (Nat.ltb_spec (iy inst) (snd (size m))) as [_|]; [|lia]. injection Hent as <- _.
    assert (Hzl : z < List.length (levels m)) by (apply nth_error_Some; congruence).
    unfold in_bounds. rewrite !andb_true_iff, !Nat.ltb_lt. lia.
  Qed.

  Lemma save_total : forall (m : atom_map P SK V) order base kinds, order_of m order -> base_ok base -> inside m ->
    (forall x y z, y < snd (size m) -> tile m x y z <> [] -> exists r, In r kinds /\ same_tile (tile m x y z) r) ->
    (Z.of_nat (List.length kinds) + Z.of_nat (List.length (base_entries base)) <= 65536)%Z -> save m order base <> None.
  Proof.
    intros m order base kinds Ho Hb Hin Hkinds Hcap. rewrite save_start.
    destruct (start_spec order base Hb) as (S1 & S2 & S3 & S4 & S5 & _).
    pose proof (order_in_bounds m order Hin Ho) as Hbd.
    pose proof (place_all_total (fst (size m)) (snd (size m)) (List.length (levels m)) kinds (List.length (base_entries base)) Hcap order (start order base) Hbd) as T.
    destruct (place_all _ _ _ _ _); [discriminate|]. exfalso. apply (T) with (reps := []); try (rewrite S3; unfold Dmm.Model.KEY_MAX; intros; lia); try reflexivity.
    - intros [[x r] z] pl Hc.
      assert (Hr : in_bounds (fst (size m)) (snd (size m)) (List.length (levels m)) (x, r, z) = true) by (apply Hbd; apply (in_map fst) in Hc; exact Hc).
      unfold in_bounds in Hr. rewrite !andb_true_iff, !Nat.ltb_lt in Hr.
      set (y := snd (size m) - 1 - r). assert (Er : r = row m y) by (unfold row, y; lia). rewrite Er in Hc.
      assert (Hy : y < snd (size m)) by (unfold y; lia).
      apply (order_tile m order x y z Ho Hy) in Hc. destruct Hc as [<- Hne]. destruct (Hkinds x y z Hy Hne) as (k & Hk1 & Hk2).
      exists k. split; [exact Hk1 | apply leq_spec; exact Hk2].
    - constructor.
    - intros q [].
    - intros q [].
    - cbn. lia.
  Qed.
End Save.
Arguments saved : clear implicits.
