(** C63: which passes are used, which layer a type gets, what is hidden. *)
From Coq Require Import List NArith ZArith Bool String Permutation Sorted Lia Arith.
From Verif Require Import Common.Text Objtree.Ispath Const.Model Dmi.Model Minimap.Model Passes.Model Passes.Spec.
Import ListNotations.
Open Scope nat_scope.

Lemma any_is_spec : forall n l, any_is n l = true <-> In n l.
Proof.
  intros n l. unfold any_is. rewrite existsb_exists. split.
  - intros (x & Hx & E). apply text_eqb_eq in E. subst. exact Hx.
  - intro H. exists n. split; [exact H|apply text_eqb_refl].
Qed.

(** C63, passes: exactly the wanted passes are used, in the order of the table. *)
Theorem C63_passes : forall passes config incl excl,
  part (wanted config incl excl) pass_name passes (configure_list passes config incl excl).
Proof.
  intros passes config incl excl. unfold configure_list.
  assert (Hw : forall p, included config incl excl p = true <-> wanted config incl excl p).
  { intro p. unfold included. pose proof (any_is_spec (pass_name p) incl) as S1. pose proof (any_is_spec (pass_name p) excl) as S2.
    pose proof (any_is_spec (lit "all") incl) as S3. pose proof (any_is_spec (lit "all") excl) as S4.
    destruct (any_is (pass_name p) incl). { split; [intros _; apply by_name; tauto|reflexivity]. }
    destruct (any_is (pass_name p) excl). { split; [discriminate|]. intros [H|H _|H _ _|H _ _ _]; intuition congruence. }
    destruct (any_is (lit "all") incl). { split; [intros _; apply by_all; intuition congruence|reflexivity]. }
    destruct (any_is (lit "all") excl). { split; [discriminate|]. intros [H|_ H|_ H _|_ H _ _]; intuition congruence. }
    destruct (config (pass_name p)) as [b|] eqn:Ec.
    - destruct b; split; try discriminate; try reflexivity.
      + intros _. apply by_config; intuition congruence.
      + intros [H|_ H|_ _ H|_ _ H _]; intuition congruence.
    - split.
      + intro H. apply by_default; intuition congruence.
      + intros [H|_ H|_ _ H|_ _ _ H]; intuition congruence. }
  induction passes as [|p l IH]; [constructor|]. cbn [filter]. specialize (Hw p).
  destruct (included config incl excl p); cbn [map]; constructor; intuition congruence.
Qed.
Print Assumptions C63_passes.

Lemma split_listed : forall s n, In n (split_char 44%N s) <-> listed s n.
Proof.
  assert (Hne : forall s, split_char 44%N s <> []).
  { induction s as [|c s IH]; cbn [split_char]; [discriminate|]. destruct (N.eqb c 44); [discriminate|].
    destruct (split_char 44%N s); discriminate. }
  assert (Hhd : forall s p ps, split_char 44%N s = p :: ps -> ~ In 44%N p /\ exists b, s = p ++ b /\ (b = [] \/ exists b', b = 44%N :: b' /\ split_char 44%N b' = ps)).
  { induction s as [|c s IH]; intros p ps; cbn [split_char].
    - intros [= <- <-]. split; [intros []|]. exists []. split; [reflexivity|left; reflexivity].
    - destruct (N.eqb_spec c 44) as [->|Hc].
      + intros [= <- <-]. split; [intros []|]. exists (44%N :: s). split; [reflexivity|]. right. exists s. split; reflexivity.
      + destruct (split_char 44%N s) as [|q qs] eqn:E; [exfalso; exact (Hne s E)|]. intros [= <- <-].
        destruct (IH q qs eq_refl) as (Hq & b & -> & Hb). split; [intros [H|H]; [congruence|exact (Hq H)]|].
        exists b. split; [reflexivity|exact Hb]. }
  intros s n. split.
  - revert n. assert (G : forall m s, List.length s <= m -> forall n, In n (split_char 44%N s) -> listed s n).
    { induction m as [|m IH]; intros t Hm n Hin.
      - destruct t; [|cbn in Hm; lia]. destruct Hin as [<-|[]]. split; [intros []|]. exists [], []. auto.
      - destruct (split_char 44%N t) as [|p ps] eqn:E; [destruct Hin|].
        destruct (Hhd _ _ _ E) as (Hp & b & -> & Hb). destruct Hin as [<-|Hin].
        + split; [exact Hp|]. exists [], b. split; [reflexivity|]. split; [left; reflexivity|].
          destruct Hb as [->|(b' & -> & _)]; [left; reflexivity|right; eexists; reflexivity].
        + destruct Hb as [->|(b' & -> & Eb)].
          * exfalso. rewrite app_nil_r in E. clear - E Hp Hin.
            assert (G : split_char 44%N p = [p]).
            { clear - Hp. induction p as [|c p IH]; [reflexivity|]. cbn [split_char].
              destruct (N.eqb_spec c 44) as [->|_]; [exfalso; apply Hp; left; reflexivity|].
              rewrite IH; [reflexivity|]. intro H. apply Hp. right. exact H. }
            rewrite G in E. injection E as <-. destruct Hin.
          * assert (Hl : List.length b' <= m) by (rewrite app_length in Hm; cbn [List.length] in Hm; lia).
            rewrite <- Eb in Hin. destruct (IH b' Hl n Hin) as (Hn & a & c & -> & Ha & Hc).
            split; [exact Hn|]. exists (p ++ 44%N :: a), c. split; [rewrite <- app_assoc; reflexivity|]. split; [|exact Hc].
            right. destruct Ha as [->|[a' ->]]; [exists p; reflexivity|].
            exists (p ++ 44%N :: a'). rewrite <- app_assoc. reflexivity. }
    intro n. apply (G (List.length s)). lia.
  - intros (Hn & a & b & -> & Ha & Hb).
    assert (G1 : forall b, (b = [] \/ exists b', b = 44%N :: b') -> exists ps, split_char 44%N (n ++ b) = n :: ps).
    { clear - Hn. intros b Hb. induction n as [|c n IH].
      - destruct Hb as [->|[b' ->]]; cbn; eexists; reflexivity.
      - cbn [app split_char]. destruct (N.eqb_spec c 44) as [->|_]; [exfalso; apply Hn; left; reflexivity|].
        destruct IH as [ps ->]; [intro H; apply Hn; right; exact H|]. eexists. reflexivity. }
    destruct Ha as [->|[a' ->]]; [cbn [app]; destruct (G1 b Hb) as [ps ->]; left; reflexivity|].
    rewrite <- app_assoc. cbn [app].
    assert (G2 : In n (List.tl (split_char 44%N (a' ++ 44%N :: n ++ b)))).
    { clear - G1 Hb Hne. induction a' as [|c a' IH]; cbn [app split_char].
      - change (N.eqb 44 44) with true. cbv iota. cbn [List.tl]. destruct (G1 b Hb) as [ps ->]. left. reflexivity.
      - destruct (N.eqb c 44); cbn [List.tl].
        + destruct (split_char 44%N (a' ++ 44%N :: n ++ b)) as [|p ps]; [destruct IH|right; exact IH].
        + destruct (split_char 44%N (a' ++ 44%N :: n ++ b)) as [|p ps]; [destruct IH|exact IH]. }
    destruct (split_char 44%N (a' ++ 44%N :: n ++ b)) as [|p ps]; [destruct G2|right; exact G2].
Qed.

(** C63, command line: the names of the two options are what stands between the commas. *)
Theorem C63_commas : forall passes config incl excl i e,
  (forall n, In n i <-> listed incl n) -> (forall n, In n e <-> listed excl n) ->
  configure passes config incl excl = configure_list passes config i e.
Proof.
  intros passes config incl excl i e Hi He. unfold configure, configure_list. f_equal. apply filter_ext. intro p.
  assert (G : forall n s l, (forall m, In m l <-> listed s m) -> any_is n (split_char 44%N s) = any_is n l).
  { intros n s l H. pose proof (any_is_spec n (split_char 44%N s)) as S1. pose proof (any_is_spec n l) as S2.
    pose proof (split_listed s n) as S3. specialize (H n).
    destruct (any_is n (split_char 44%N s)), (any_is n l); try reflexivity; intuition congruence. }
  unfold included. rewrite !(G _ _ _ Hi), !(G _ _ _ He). reflexivity.
Qed.
Print Assumptions C63_commas.

(** ** Layers *)

Lemma blen_app : forall a b, blen (a ++ b) = (blen a + blen b)%N.
Proof. induction a as [|c a IH]; intro b; [reflexivity|]. cbn [app blen fold_right]. fold (blen (a ++ b)). fold (blen a). rewrite IH. lia. Qed.
Lemma blen_pos : forall c s, (1 <= blen (c :: s))%N.
Proof. intros c s. cbn [blen fold_right]. unfold len_utf8. repeat (destruct (N.ltb _ _)); lia. Qed.
Lemma render_app : forall a b, render (a ++ b) = render a ++ render b.
Proof. intros. unfold render. apply flat_map_app. Qed.

Lemma ispath_names : forall p cs key ks, type_path p cs -> names key ks -> (ispath p key = true <-> is_under cs ks).
Proof.
  intros p cs key ks [Hc ->] (Hk & Hl & Hkey).
  assert (E : key = render ks ++ repeat SLASH 0 \/ key = render ks ++ repeat SLASH 1).
  { cbn [repeat]. rewrite app_nil_r. exact Hkey. }
  destruct E as [-> | ->]; apply C35_whole_components; assumption.
Qed.

Lemma names_slash : forall key ks, names key ks -> names (with_slash key) ks.
Proof.
  intros key ks (Hk & Hl & Hkey). unfold with_slash. split; [exact Hk|]. split; [exact Hl|].
  destruct (text_eqb (firstn 1 (rev key)) [SLASH]) eqn:E; [exact Hkey|]. right. destruct Hkey as [-> | ->]; [reflexivity|].
  rewrite rev_app_distr in E. cbn in E. discriminate.
Qed.

(** a longer key that matches names a type below that of a shorter one *)
Lemma longer_under : forall cs key ks key' ks', names key ks -> names key' ks' -> is_under cs ks -> is_under cs ks' ->
  (blen key' <= blen key)%N -> is_under ks ks' /\ (blen key' = blen key -> key' = key).
Proof.
  intros cs key ks key' ks' (Hk & Hl & E) (Hk' & Hl' & E') [r Hr] [r' Hr'] Hle. subst cs.
  assert (Hb : forall l r m q : list text, l ++ r = m ++ q -> (exists x, l = m ++ x) \/ (exists x, m = l ++ x)).
  { clear. induction l as [|x l IH]; intros r m q H; [right; exists m; reflexivity|].
    destruct m as [|y m]; [left; exists (x :: l); reflexivity|]. cbn [app] in H. injection H as -> H.
    destruct (IH _ _ _ H) as [[z ->]|[z ->]]; [left|right]; exists z; reflexivity. }
  assert (Hs : blen [SLASH] = 1%N) by reflexivity.
  destruct (Hb _ _ _ _ Hr') as [[x Hx]|[x Hx]].
  - split; [exists x; exact Hx|]. subst ks. destruct x as [|c x].
    + rewrite app_nil_r in *. intro Eb.
      destruct E as [-> | ->], E' as [-> | ->]; try reflexivity; rewrite blen_app, Hs in Eb; lia.
    + intro Eb. exfalso. rewrite render_app in E. cbn [render flat_map] in E.
      destruct Hl as [Hl|Hl]; [destruct ks'; discriminate|].
      assert (2 <= blen (render (c :: x)))%N.
      { cbn [render flat_map]. change (SLASH :: c) with ([SLASH] ++ c). rewrite !blen_app, Hs.
        fold (render x). destruct c as [|d c].
        - destruct x as [|y x]; [exfalso; apply Hl; rewrite last_last; reflexivity|].
          cbn [render flat_map]. change (SLASH :: y) with ([SLASH] ++ y). rewrite !blen_app, Hs. lia.
        - pose proof (blen_pos d c). lia. }
      fold (render x) in E. change ((SLASH :: c) ++ render x) with (render (c :: x)) in E.
      destruct E as [-> | ->], E' as [-> | ->]; rewrite ?blen_app, ?Hs in Eb; lia.
  - (* the shorter key names something below: impossible, or the same *)
    destruct x as [|c x].
    + rewrite app_nil_r in Hx. subst ks'. split; [exists []; rewrite app_nil_r; reflexivity|]. intro Eb.
      destruct E as [-> | ->], E' as [-> | ->]; try reflexivity; rewrite blen_app, Hs in Eb; lia.
    + exfalso. subst ks'. rewrite render_app in E'.
      destruct Hl' as [Hl'|Hl']; [destruct ks; discriminate|].
      assert (2 <= blen (render (c :: x)))%N.
      { cbn [render flat_map]. change (SLASH :: c) with ([SLASH] ++ c). rewrite !blen_app, Hs.
        fold (render x). destruct c as [|d c].
        - destruct x as [|y x]; [exfalso; apply Hl'; rewrite last_last; reflexivity|].
          cbn [render flat_map]. change (SLASH :: y) with ([SLASH] ++ y). rewrite !blen_app, Hs. lia.
        - pose proof (blen_pos d c). lia. }
      destruct E as [-> | ->], E' as [-> | ->]; rewrite ?blen_app, ?Hs in Hle; lia.
Qed.

(** C63, layers: a type gets the layer that the configuration gives to the nearest type above it (or
    itself), and the built-in one if there is none, in whatever order the entries come. *)
Theorem C63_layer : forall (A : Type) (builtin : text -> option A) conf sorted p cs,
  type_path p cs -> NoDup (map fst conf) -> (forall key v, In (key, v) conf -> exists ks, names key ks) ->
  sorted_from conf sorted ->
  ((exists key v ks, In (key, v) conf /\ names key ks /\ is_under cs ks /\
      (forall key' v' ks', In (key', v') conf -> names key' ks' -> is_under cs ks' -> is_under ks ks') /\
      fancy_layer_for_path builtin (overrides sorted) p = Some v) \/
   (forall key v ks, In (key, v) conf -> names key ks -> ~ is_under cs ks) /\
   fancy_layer_for_path builtin (overrides sorted) p = builtin p) /\
  (forall sorted', sorted_from conf sorted' ->
     fancy_layer_for_path builtin (overrides sorted') p = fancy_layer_for_path builtin (overrides sorted) p).
Proof.
  intros A builtin conf sorted p cs Hp Hnd Hnames Hs.
  assert (Step : forall l, (forall key v, In (key, v) l -> exists ks, names key ks) ->
    StronglySorted (fun x y => (blen (fst y) <= blen (fst x))%N) l ->
    (exists key v ks, In (key, v) l /\ names key ks /\ is_under cs ks /\
       (forall key' v' ks', In (key', v') l -> names key' ks' -> is_under cs ks' -> (blen key' <= blen key)%N) /\
       fancy_layer_for_path builtin (overrides l) p = Some v) \/
    (forall key v ks, In (key, v) l -> names key ks -> ~ is_under cs ks) /\
    fancy_layer_for_path builtin (overrides l) p = builtin p).
  { induction l as [|[key v] l IH]; intros Hn Hso.
    - right. split; [intros ? ? ? []|reflexivity].
    - inversion Hso as [|x y Hso' Hall]; subst. destruct (Hn key v (or_introl eq_refl)) as [ks Hks].
      cbn [overrides map fancy_layer_for_path fst snd]. fold (overrides l).
      pose proof (ispath_names p cs (with_slash key) ks Hp (names_slash _ _ Hks)) as Hi.
      destruct (ispath p (with_slash key)).
      + left. exists key, v, ks. split; [left; reflexivity|]. split; [exact Hks|]. split; [apply Hi; reflexivity|].
        split; [|reflexivity]. intros key' v' ks' [H|H] _ _; [injection H as <- <-; lia|].
        rewrite Forall_forall in Hall. exact (Hall _ H).
      + assert (Hno : ~ is_under cs ks) by (intro H; apply Hi in H; discriminate).
        assert (Huniq : forall ks', names key ks' -> ~ is_under cs ks').
        { intros ks' H' Hu. pose proof (ispath_names p cs _ _ Hp (names_slash _ _ Hks)) as I1.
          pose proof (ispath_names p cs _ _ Hp (names_slash _ _ H')) as I2. apply I2, I1 in Hu. exact (Hno Hu). }
        destruct IH as [(k & w & ks0 & I1 & I2 & I3 & I4 & I5)|[I1 I2]];
          [intros; eapply Hn; right; eassumption|exact Hso'| |].
        * left. exists k, w, ks0. split; [right; exact I1|]. split; [exact I2|]. split; [exact I3|]. split; [|exact I5].
          intros key' v' ks' [H|H] Hn' Hu; [injection H as <- <-; exfalso; exact (Huniq _ Hn' Hu)|eapply I4; eassumption].
        * right. split; [|exact I2]. intros key' v' ks' [H|H] Hn'; [injection H as <- <-; exact (Huniq _ Hn')|eapply I1; eassumption]. }
  assert (Hres : forall s, sorted_from conf s ->
    (exists key v ks, In (key, v) conf /\ names key ks /\ is_under cs ks /\
       (forall key' v' ks', In (key', v') conf -> names key' ks' -> is_under cs ks' -> (blen key' <= blen key)%N) /\
       fancy_layer_for_path builtin (overrides s) p = Some v) \/
    (forall key v ks, In (key, v) conf -> names key ks -> ~ is_under cs ks) /\
    fancy_layer_for_path builtin (overrides s) p = builtin p).
  { intros s [Hperm Hso]. assert (Hin : forall x, In x s <-> In x conf) by (intro x; split; apply Permutation_in; [symmetry|]; exact Hperm).
    destruct (Step s) as [(key & v & ks & I1 & I2 & I3 & I4 & I5)|[I1 I2]]; [intros key v H; apply (Hnames key v), Hin, H|exact Hso| |].
    - left. exists key, v, ks. split; [apply Hin; exact I1|]. split; [exact I2|]. split; [exact I3|]. split; [|exact I5].
      intros key' v' ks' H. apply (I4 key' v' ks'), Hin, H.
    - right. split; [|exact I2]. intros key v ks H. apply (I1 key v ks), Hin, H. }
  split.
  - destruct (Hres sorted Hs) as [(key & v & ks & I1 & I2 & I3 & I4 & I5)|H]; [|right; exact H].
    left. exists key, v, ks. split; [exact I1|]. split; [exact I2|]. split; [exact I3|]. split; [|exact I5].
    intros key' v' ks' H1 H2 H3. eapply longer_under; [exact I2|exact H2|exact I3|exact H3|eapply I4; eassumption].
  - intros s' Hs'. destruct (Hres sorted Hs) as [(key & v & ks & I1 & I2 & I3 & I4 & I5)|[I1 I2]];
      destruct (Hres s' Hs') as [(key' & v' & ks' & J1 & J2 & J3 & J4 & J5)|[J1 J2]].
    + rewrite I5, J5. f_equal.
      assert (E : key' = key).
      { pose proof (I4 _ _ _ J1 J2 J3) as L1. pose proof (J4 _ _ _ I1 I2 I3) as L2.
        apply (longer_under cs key ks key' ks' I2 J2 I3 J3 L1). lia. }
      subst key'. clear - Hnd I1 J1. induction conf as [|[k w] l IH]; [destruct I1|]. cbn [map fst] in Hnd.
      inversion Hnd as [|? ? Hni Hnd']; subst. destruct I1 as [I1|I1], J1 as [J1|J1].
      * congruence.
      * injection I1 as -> ->. exfalso. apply Hni. apply (in_map fst) in J1. exact J1.
      * injection J1 as -> ->. exfalso. apply Hni. apply (in_map fst) in I1. exact I1.
      * apply IH; assumption.
    + exfalso. exact (J1 _ _ _ I1 I2 I3).
    + exfalso. exact (I1 _ _ _ J1 J2 J3).
    + congruence.
Qed.
Print Assumptions C63_layer.

(** and the plane is zero: the layers of all planes are compared *)
Theorem C63_apply : forall builtin l p s,
  let s' := apply_fancy_layer builtin l p s in
  plane s' = 0%Z /\ icon s' = icon s /\ icon_state s' = icon_state s /\ ofs_x s' = ofs_x s /\ ofs_y s' = ofs_y s /\
  sdir s' = sdir s /\ color s' = color s /\
  (forall x, fancy_layer_for_path builtin l p = Some x -> layer s' = x) /\
  (fancy_layer_for_path builtin l p = None -> layer s' = layer s).
Proof.
  intros builtin l p s. cbn [apply_fancy_layer plane icon icon_state ofs_x ofs_y sdir color layer].
  do 7 (split; [reflexivity|]). split; [intros x -> | intros ->]; reflexivity.
Qed.
Print Assumptions C63_apply.

(** C63, hiding: an object is hidden if its type or a type above it is listed, in whatever order; or if it is
    invisible, a mapping helper, or looks like the default balloon without being one. *)
Theorem C63_hide : forall F f_gt60 T V (path_of : T -> text) (var : @Atom T V -> text -> constant F) conf sorted a cs,
  type_path (path_of (type_ a)) cs -> (forall key, In key conf -> exists ks, names key ks) -> Permutation conf sorted ->
  (hide_invisible F f_gt60 path_of var (map with_slash sorted) a = false <->
   (exists key ks, In key conf /\ names key ks /\ is_under cs ks) \/
   (exists f, var a (lit "invisibility") = CFloat f /\ f_gt60 f = true) \/
   is_under cs [lit "obj"; lit "effect"; lit "mapping_helpers"] \/
   (exists i s, (i = @CString F \/ i = @CResource F) /\ (s = @CString F \/ s = @CResource F) /\
      var a (lit "icon") = i (lit "icons/obj/items_and_weapons.dmi") /\ var a (lit "icon_state") = s (lit "syndballoon") /\
      ~ is_under cs [lit "obj"; lit "item"; lit "toy"; lit "syndicateballoon"])).
Proof.
  intros F gt T V po var conf sorted a cs Hp Hn Hperm. unfold hide_invisible, istype.
  assert (Hsl : forall ks, Forall (fun c => forallb (fun x => negb (N.eqb x SLASH)) c = true) ks -> last ks [] <> [] ->
            names (render ks ++ [SLASH]) ks).
  { intros ks H Hl. split; [|split; [right; exact Hl|right; reflexivity]]. intros c Hc Hin. rewrite Forall_forall in H.
    specialize (H c Hc). rewrite forallb_forall in H. specialize (H _ Hin). rewrite N.eqb_refl in H. discriminate. }
  assert (Hh : ispath (po (type_ a)) (lit "/obj/effect/mapping_helpers/") = true <-> is_under cs [lit "obj"; lit "effect"; lit "mapping_helpers"]).
  { apply ispath_names; [exact Hp|]. apply (Hsl [lit "obj"; lit "effect"; lit "mapping_helpers"]); [repeat constructor|discriminate]. }
  assert (Hbal : ispath (po (type_ a)) (lit "/obj/item/toy/syndicateballoon/") = true <->
            is_under cs [lit "obj"; lit "item"; lit "toy"; lit "syndicateballoon"]).
  { apply ispath_names; [exact Hp|]. apply (Hsl [lit "obj"; lit "item"; lit "toy"; lit "syndicateballoon"]); [repeat constructor|discriminate]. }
  assert (Hex : existsb (ispath (po (type_ a))) (map with_slash sorted) = true <-> exists key ks, In key conf /\ names key ks /\ is_under cs ks).
  { rewrite existsb_exists. split.
    - intros (k & Hk & E). apply in_map_iff in Hk. destruct Hk as (key & <- & Hin).
      apply Permutation_sym in Hperm. pose proof (Permutation_in _ Hperm Hin) as Hc. destruct (Hn key Hc) as [ks Hks].
      exists key, ks. split; [exact Hc|]. split; [exact Hks|]. eapply ispath_names; [exact Hp|apply names_slash; exact Hks|exact E].
    - intros (key & ks & H1 & H2 & H3). exists (with_slash key). split; [apply in_map; eapply Permutation_in; eassumption|].
      eapply ispath_names; [exact Hp|apply names_slash; exact H2|exact H3]. }
  assert (Hes : forall c t, eq_str F c t = true <-> exists k, (k = @CString F \/ k = @CResource F) /\ c = k t).
  { intros c t. split.
    - destruct c; cbn [eq_str]; try discriminate; intro E; apply text_eqb_eq in E; subst.
      + exists (@CString F). split; [left; reflexivity|reflexivity].
      + exists (@CResource F). split; [right; reflexivity|reflexivity].
    - intros (k & [-> | ->] & ->); cbn [eq_str]; apply text_eqb_refl. }
  destruct (existsb (ispath (po (type_ a))) (map with_slash sorted)).
  { split; [intros _; left; apply Hex; reflexivity|reflexivity]. }
  assert (Hne : ~ exists key ks, In key conf /\ names key ks /\ is_under cs ks) by (intro H; apply Hex in H; discriminate).
  set (inv := match var a (lit "invisibility") with CFloat f => gt f | _ => false end).
  assert (Hinv : inv = true <-> exists f, var a (lit "invisibility") = CFloat f /\ gt f = true).
  { unfold inv. destruct (var a (lit "invisibility")); split; try discriminate; try (intros (f0 & Hf & _); discriminate Hf).
    - intro H. eauto.
    - intros (f0 & Hf & H). congruence. }
  pose proof (Hes (var a (lit "icon")) (lit "icons/obj/items_and_weapons.dmi")) as E1.
  pose proof (Hes (var a (lit "icon_state")) (lit "syndballoon")) as E2.
  destruct inv; cbn [orb]. { split; [intros _; right; left; apply Hinv; reflexivity|reflexivity]. }
  destruct (ispath (po (type_ a)) (lit "/obj/effect/mapping_helpers/")). { split; [intros _; right; right; left; apply Hh; reflexivity|reflexivity]. }
  destruct (eq_str F (var a (lit "icon")) (lit "icons/obj/items_and_weapons.dmi")) eqn:I1;
  destruct (eq_str F (var a (lit "icon_state")) (lit "syndballoon")) eqn:I2; cbn [andb];
  destruct (ispath (po (type_ a)) (lit "/obj/item/toy/syndicateballoon/")) eqn:I3; cbn [negb].
  all: split; intro H; try discriminate H; try reflexivity;
    try (exfalso; destruct H as [H|[H|[H|(i & s & H1 & H2 & H3 & H4 & H5)]]];
         [exact (Hne H)|apply Hinv in H; discriminate|apply Hh in H; discriminate|]).
  1: apply H5, Hbal; reflexivity.
  1: { destruct (proj1 E1 eq_refl) as (i & K1 & K2). destruct (proj1 E2 eq_refl) as (s & K3 & K4).
       right; right; right. exists i, s. repeat (split; [assumption|]). intro K. apply Hbal in K. discriminate. }
  1,2: assert (false = true) by (apply E2; eauto); discriminate.
  all: assert (false = true) by (apply E1; eauto); discriminate.
Qed.
Print Assumptions C63_hide.
