(** C70: calls of filter(). *)
From Coq Require Import List Arith NArith ZArith Bool String.
From Verif Require Import Common.Text Objtree.Model Objtree.Lemmas Parse.Ast Checker.TreeFacts Checker.Filters.
Import ListNotations.
Open Scope nat_scope.

(** ** Specification *)
(** The parameters of each type of filter, and those that are flags: whether only one can be given, whether zero can be given, the flags *)
Definition filter_types : list (text * list text) :=
  map (fun e => (lit (fst e), map lit (snd e)))
    [("alpha", ["x"; "y"; "icon"; "render_source"; "flags"]);
     ("angular_blur", ["x"; "y"; "size"]);
     ("bloom", ["threshold"; "size"; "offset"; "alpha"]);
     ("color", ["color"; "space"]);
     ("displace", ["x"; "y"; "size"; "icon"; "render_source"; "flags"]);
     ("drop_shadow", ["x"; "y"; "size"; "offset"; "color"]);
     ("blur", ["size"]);
     ("layer", ["x"; "y"; "icon"; "render_source"; "flags"; "color"; "transform"; "blend_mode"]);
     ("motion_blur", ["x"; "y"]);
     ("outline", ["size"; "color"; "flags"]);
     ("radial_blur", ["x"; "y"; "size"]);
     ("rays", ["x"; "y"; "size"; "color"; "offset"; "density"; "threshold"; "factor"; "flags"]);
     ("ripple", ["x"; "y"; "size"; "repeat"; "radius"; "falloff"; "flags"]);
     ("wave", ["x"; "y"; "size"; "offset"; "flags"])]%string.
Definition filter_flags : list (text * flag_rule) :=
  map (fun e => let '(ty, (name, exclusive, zero, flags)) := e in
                (lit ty, {| fr_name := lit name; fr_exclusive := exclusive; fr_zero := zero; fr_flags := map lit flags |}))
    [("alpha", ("flags", false, true, ["MASK_INVERSE"; "MASK_SWAP"]));
     ("color", ("space", true, false, ["FILTER_COLOR_RGB"; "FILTER_COLOR_HSV"; "FILTER_COLOR_HSL"; "FILTER_COLOR_HCY"]));
     ("displace", ("flags", false, true, ["FILTER_OVERLAY"]));
     ("layer", ("flags", true, true, ["FILTER_OVERLAY"; "FILTER_UNDERLAY"]));
     ("rays", ("flags", false, true, ["FILTER_OVERLAY"; "FILTER_UNDERLAY"]));
     ("outline", ("flags", false, true, ["OUTLINE_SHARP"; "OUTLINE_SQUARE"]));
     ("ripple", ("flags", false, true, ["WAVE_BOUNDED"]));
     ("wave", ("flags", false, true, ["WAVE_SIDEWAYS"; "WAVE_BOUNDED"]))]%string.
Section SPEC.
Variable F : Type.
(** What can be written for flags: a flag that there is; zero if it can be; several of them with [|] between if there can be several *)
Inductive flags_ok (r : flag_rule) : expr F -> Prop :=
  | ok_flag name : In name (fr_flags r) -> flags_ok r (Base (MIdent name) [])
  | ok_zero : fr_zero r = true -> flags_ok r (Base (MInt 0) [])
  | ok_or a b : fr_exclusive r = false -> flags_ok r a -> flags_ok r b -> flags_ok r (Bin BBitOr a b).
(** What is wrong with flags *)
Inductive flag_fault (r : flag_rule) : expr F -> flag_error F -> Prop :=
  | ff_many a b : fr_exclusive r = true -> flag_fault r (Bin BBitOr a b) OnlyOne
  | ff_left a b x : fr_exclusive r = false -> flag_fault r a x -> flag_fault r (Bin BBitOr a b) x
  | ff_right a b x : fr_exclusive r = false -> flag_fault r b x -> flag_fault r (Bin BBitOr a b) x
  | ff_follow x fs : fs <> [] -> flag_fault r (Base x fs) HasFollow
  | ff_name name : ~ In name (fr_flags r) -> flag_fault r (Base (MIdent name) []) (UnknownFlag name)
  | ff_value x : (forall name, x <> MIdent name) -> (x = MInt 0 -> fr_zero r = false) -> flag_fault r (Base x []) (NotAFlag x)
  | ff_expr e : (forall x fs, e <> Base x fs) -> (forall a b, e <> Bin BBitOr a b) -> flag_fault r e NotFlags.
(** The argument with a name: the last one *)
Definition given (args : list (arg F)) (k : text) (a : arg F) : Prop :=
  exists l1 l2, args = l1 ++ a :: l2 /\ g_name a = Some k /\ forall b, In b l2 -> g_name b <> Some k.
Definition from_list (args : list (arg F)) : Prop := exists a rest xs, args = a :: rest /\ g_name a = None /\ g_expr a = Base (MCall (lit "arglist") xs) [].
Definition no_type (args : list (arg F)) : Prop := forall a, In a args -> g_name a <> Some (lit "type").
(** The type, and the names it has *)
Definition typed (args : list (arg F)) (ty : text) (allowed : list text) : Prop :=
  exists a, given args (lit "type") a /\ g_val a = Some (VText ty) /\ In (ty, allowed) filter_types.
Definition acceptable (args : list (arg F)) : Prop :=
  (no_type args /\ from_list args) \/
  exists ty allowed, typed args ty allowed /\
    (forall b k, In b args -> g_name b = Some k -> k = lit "type" \/ k = lit "name" \/ In k allowed) /\
    (forall r b, In (ty, r) filter_flags -> given args (fr_name r) b -> flags_ok r (g_expr b)).
Inductive fault (args : list (arg F)) : filter_error F -> Prop :=
  | f_none : no_type args -> ~ from_list args -> fault args NoType
  | f_text a : given args (lit "type") a -> (forall ty, g_val a <> Some (VText ty)) -> fault args TypeNotText
  | f_type a ty : given args (lit "type") a -> g_val a = Some (VText ty) -> (forall allowed, ~ In (ty, allowed) filter_types) -> fault args (UnknownType ty)
  | f_name ty allowed b k : typed args ty allowed -> In b args -> g_name b = Some k -> k <> lit "type" -> k <> lit "name" -> ~ In k allowed -> fault args (UnknownParameter ty k)
  | f_flag ty allowed r b x : typed args ty allowed -> In (ty, r) filter_flags -> given args (fr_name r) b -> flag_fault r (g_expr b) x -> fault args (BadFlag ty (fr_name r) x).
End SPEC.
Arguments flags_ok {F}. Arguments flag_fault {F}. Arguments given {F}. Arguments from_list {F}. Arguments no_type {F}. Arguments typed {F}. Arguments acceptable {F}. Arguments fault {F}.

Section C70.
Variable F : Type.
Implicit Types (args : list (arg F)) (e : expr F).

Lemma exists_in (x : text) (l : list text) : existsb (text_eqb x) l = true <-> In x l.
Proof using Type.
  rewrite existsb_exists. split; [intros (y & Hy & E); apply text_eqb_eq in E; subst; exact Hy|intro H; exists x; split; [exact H|apply text_eqb_refl]].
Qed.
Lemma exists_out (x : text) (l : list text) : existsb (text_eqb x) l = false <-> ~ In x l.
Proof using Type. rewrite <- exists_in. destruct (existsb _ l); split; congruence. Qed.

Theorem C70_flags r e x : In x (check_filter_flag r e) <-> flag_fault r e x.
Proof using Type.
  revert x. induction e as [y fs|op a IHa b IHb|op a _ b _|c _ a _ b _]; intro x; cbn [check_filter_flag].
  - destruct fs as [|f fs].
    + split.
      * intro H. destruct y; try (destruct H as [<-|[]]; constructor; congruence).
        -- destruct (Z.eqb_spec z 0) as [->|N]; cbn [andb] in H.
           ++ destruct (fr_zero r) eqn:Z; [destruct H|]. destruct H as [<-|[]]. constructor; congruence.
           ++ destruct H as [<-|[]]. constructor; congruence.
        -- destruct (existsb _ _) eqn:E; [destruct H|]. destruct H as [<-|[]]. constructor. apply exists_out. exact E.
      * intro H. inversion H; subst; try congruence.
        -- apply exists_out in H1. rewrite H1. left. reflexivity.
        -- destruct y; try (left; reflexivity).
           ++ destruct (Z.eqb_spec z 0) as [->|N]; cbn [andb]; [rewrite H2 by reflexivity|]; left; reflexivity.
           ++ destruct (H1 i eq_refl).
    + split; [intros [<-|[]]; constructor; discriminate|]. intro H. inversion H; subst; [left; reflexivity|]. destruct (H0 y (f :: fs) eq_refl).
  - destruct op; try (split; [intros [<-|[]]; constructor; discriminate|intro H; inversion H; subst; left; reflexivity]).
    destruct (fr_exclusive r) eqn:E.
    + split; [intros [<-|[]]; constructor; exact E|intro H; inversion H; subst; [left; reflexivity|congruence|congruence|]]. destruct (H1 a b eq_refl).
    + rewrite in_app_iff, IHa, IHb. split; [intros [H|H]; [apply ff_left|apply ff_right]; assumption|]. intro H. inversion H; subst; [congruence|left; assumption|right; assumption|]. destruct (H1 a b eq_refl).
  - split; [intros [<-|[]]; constructor; discriminate|intro H; inversion H; subst; left; reflexivity].
  - split; [intros [<-|[]]; constructor; discriminate|intro H; inversion H; subst; left; reflexivity].
Qed.
Lemma flags_none r e : check_filter_flag r e = [] <-> flags_ok r e.
Proof using Type.
  induction e as [y fs|op a IHa b IHb|op a _ b _|c _ a _ b _]; cbn [check_filter_flag].
  - destruct fs as [|f fs]; [|split; [discriminate|intro H; inversion H]]. split.
    + destruct y; try discriminate.
      * destruct (Z.eqb_spec z 0) as [->|N]; cbn [andb]; [|discriminate]. destruct (fr_zero r) eqn:Z; [|discriminate]. intros _. apply ok_zero. exact Z.
      * destruct (existsb _ _) eqn:E; [|discriminate]. intros _. constructor. apply exists_in. exact E.
    + intro H. inversion H as [nm Hn|Hz|]; subst; [apply exists_in in Hn; rewrite Hn; reflexivity|]. rewrite Hz. reflexivity.
  - destruct op; try (split; [discriminate|intro H; inversion H]).
    destruct (fr_exclusive r) eqn:E; [split; [discriminate|intro H; inversion H; congruence]|]. split.
    + intro H. apply app_eq_nil in H. destruct H as [H1 H2]. constructor; [exact E|apply IHa, H1|apply IHb, H2].
    + intro H. inversion H as [| |a0 b0 He Ha Hb]; subst. apply IHa in Ha. apply IHb in Hb. rewrite Ha, Hb. reflexivity.
  - split; [discriminate|intro H; inversion H].
  - split; [discriminate|intro H; inversion H].
Qed.

Lemma by_name_spec args : NoDup (map fst (by_name args)) /\ forall k, match get k (by_name args) with Some a => given args k a | None => forall a, In a args -> g_name a <> Some k end.
Proof using Type.
  unfold by_name. induction args as [|a args IH] using rev_ind; [split; [constructor|intros k a []]|].
  rewrite fold_left_app. cbn [fold_left]. destruct IH as [Hd IH]. destruct (g_name a) as [k|] eqn:E.
  - split; [apply ix_nodup; exact Hd|]. intro k'. rewrite get_ix. destruct (text_eqb_spec k k') as [->|N].
    + exists args, []. split; [reflexivity|]. split; [exact E|intros b []].
    + specialize (IH k'). destruct (get k' _) as [b|].
      * destruct IH as (l1 & l2 & -> & Hb & Hl). exists l1, (l2 ++ [a]). split; [rewrite <- app_assoc; reflexivity|]. split; [exact Hb|]. intros c Hc. apply in_app_iff in Hc. destruct Hc as [Hc|[<-|[]]]; [apply Hl, Hc|congruence].
      * intros c Hc. apply in_app_iff in Hc. destruct Hc as [Hc|[<-|[]]]; [apply IH, Hc|congruence].
  - split; [exact Hd|]. intro k'. specialize (IH k'). destruct (get k' _) as [b|].
    + destruct IH as (l1 & l2 & -> & Hb & Hl). exists l1, (l2 ++ [a]). split; [rewrite <- app_assoc; reflexivity|]. split; [exact Hb|]. intros c Hc. apply in_app_iff in Hc. destruct Hc as [Hc|[<-|[]]]; [apply Hl, Hc|congruence].
    + intros c Hc. apply in_app_iff in Hc. destruct Hc as [Hc|[<-|[]]]; [apply IH, Hc|congruence].
Qed.
Lemma given_in args k a : given args k a -> In a args /\ g_name a = Some k.
Proof using Type. intros (l1 & l2 & -> & H & _). split; [apply in_or_app; right; left; reflexivity|exact H]. Qed.
Lemma given_fun args k a b : given args k a -> given args k b -> a = b.
Proof using Type.
  intros (l1 & l2 & -> & Ha & H1) (m1 & m2 & E & Hb & H2).
  revert m1 E. induction l1 as [|x l1 IH]; intros [|y m1] E; cbn [app] in E; injection E as E1 E2; [exact E1| | |].
  - exfalso. apply (H1 b); [rewrite E2; apply in_or_app; right; left; reflexivity|exact Hb].
  - exfalso. apply (H2 a); [rewrite <- E2; apply in_or_app; right; left; reflexivity|exact Ha].
  - exact (IH m1 E2).
Qed.
Lemma get_given args k a : get k (by_name args) = Some a <-> given args k a.
Proof using Type.
  destruct (by_name_spec args) as [_ H]. specialize (H k). destruct (get k (by_name args)) as [b|].
  - split; [intro E; injection E as <-; exact H|intro G; rewrite (given_fun args k b a H G); reflexivity].
  - split; [discriminate|]. intro G. apply given_in in G. destruct (H a); apply G.
Qed.
Lemma get_none args k : get k (by_name args) = None <-> forall a, In a args -> g_name a <> Some k.
Proof using Type.
  destruct (by_name_spec args) as [_ H]. specialize (H k). destruct (get k (by_name args)) as [b|]; [|split; [intro; exact H|reflexivity]].
  split; [discriminate|]. intro Q. apply given_in in H. destruct (Q b); apply H.
Qed.
Lemma names_iff args k : (exists a, In (k, a) (by_name args)) <-> exists a, In a args /\ g_name a = Some k.
Proof using Type.
  destruct (by_name_spec args) as [Hd _]. split.
  - intros [a Ha]. apply (get_of k _ a Hd), get_given, given_in in Ha. exists a. exact Ha.
  - intros (a & Ha & E). destruct (get k (by_name args)) as [b|] eqn:G; [exists b; apply get_in; exact G|]. rewrite get_none in G. destruct (G a Ha E).
Qed.
Lemma arglist_iff args : arglist_used args = true <-> from_list args.
Proof using Type.
  unfold arglist_used, from_list. split.
  - destruct args as [|[[k|] v e] rest]; [discriminate|discriminate|]. destruct e as [x fs| | |]; try discriminate. destruct x as [ | | | | | | | | | | | | |name xs| | | | | | | | | | | | | ]; try discriminate. destruct fs; [|discriminate].
    intro E. apply text_eqb_eq in E. subst name. exists {| g_name := None; g_val := v; g_expr := Base (MCall (lit "arglist") xs) [] |}, rest, xs. repeat split.
  - intros (a & rest & xs & -> & Hn & He). destruct a as [k v e]. cbn [g_name g_expr] in Hn, He. subst. apply text_eqb_refl.
Qed.
Lemma types_nodup : NoDup (map fst valid_filter_types).
Proof using Type.
  assert (C : forall l : list text, (fix go l := match l with [] => true | x :: l' => negb (existsb (text_eqb x) l') && go l' end) l = true -> NoDup l).
  { induction l as [|x l IH]; [constructor|]. intro H. apply andb_true_iff in H. destruct H as [H1 H2]. constructor; [apply exists_out, negb_true_iff, H1|apply IH, H2]. }
  apply C. vm_compute. reflexivity.
Qed.
Lemma flags_nodup : NoDup (map fst valid_filter_flags).
Proof using Type.
  assert (C : forall l : list text, (fix go l := match l with [] => true | x :: l' => negb (existsb (text_eqb x) l') && go l' end) l = true -> NoDup l).
  { induction l as [|x l IH]; [constructor|]. intro H. apply andb_true_iff in H. destruct H as [H1 H2]. constructor; [apply exists_out, negb_true_iff, H1|apply IH, H2]. }
  apply C. vm_compute. reflexivity.
Qed.

(** The errors are exactly the faults of the call *)
Theorem C70_reports args x : In x (fst (filter_check args)) <-> fault args x.
Proof using Type.
  unfold filter_check. destruct (get (lit "type") (by_name args)) as [a|] eqn:G.
  - apply get_given in G. destruct (g_val a) as [[p|ty|]|] eqn:Ev.
    2:{ destruct (get ty valid_filter_types) as [allowed|] eqn:Gt.
        - apply get_in in Gt. assert (T : typed args ty allowed) by (exists a; repeat split; assumption).
          assert (U : forall ty' al', typed args ty' al' -> ty' = ty /\ al' = allowed).
          { intros ty' al' (a' & Ga & Va & Ia). rewrite (given_fun args _ a' a Ga G), Ev in Va. injection Va as <-. split; [reflexivity|].
            apply (get_of ty _ al' types_nodup) in Ia. apply (get_of ty _ allowed types_nodup) in Gt. congruence. }
          cbn [fst]. rewrite in_app_iff, in_flat_map. split.
          + intros [([k b] & Hb & Hx)|Hx].
            * cbn [fst] in Hx. destruct (text_eqb_spec k (lit "type")) as [|N1]; [destruct Hx|]. destruct (text_eqb_spec k (lit "name")) as [|N2]; [destruct Hx|]. destruct (existsb (text_eqb k) allowed) eqn:E; [destruct Hx|]. cbn [negb andb] in Hx. destruct Hx as [<-|[]].
              destruct (proj1 (names_iff args k)) as (c & Hc & Nc); [exists b; exact Hb|]. apply exists_out in E. exact (f_name F args ty allowed c k T Hc Nc N1 N2 E).
            * destruct (get ty valid_filter_flags) as [r|] eqn:Gr; [|destruct Hx]. apply get_in in Gr. destruct (get (fr_name r) (by_name args)) as [b|] eqn:Gb; [|destruct Hx]. apply get_given in Gb.
              apply in_map_iff in Hx. destruct Hx as (y & <- & Hy). apply C70_flags in Hy. exact (f_flag F args ty allowed r b y T Gr Gb Hy).
          + intro H. inversion H as [Hn Hl|a' Ga Va|a' ty' Ga Va Ia|ty' al' b k Ht Hb Hk N1 N2 Hi|ty' al' r b y Ht Hr Gb Hy]; subst.
            * apply given_in in G. destruct (Hn a); apply G.
            * rewrite (given_fun args _ a' a Ga G), Ev in Va. destruct (Va ty eq_refl).
            * rewrite (given_fun args _ a' a Ga G), Ev in Va. injection Va as <-. destruct (Ia allowed Gt).
            * destruct (U _ _ Ht) as [-> ->]. left. destruct (proj2 (names_iff args k)) as [c Hc]; [exists b; split; assumption|]. exists (k, c). split; [exact Hc|]. cbn [fst].
              destruct (text_eqb_spec k (lit "type")) as [|_]; [contradiction|]. destruct (text_eqb_spec k (lit "name")) as [|_]; [contradiction|]. apply exists_out in Hi. rewrite Hi. left. reflexivity.
            * destruct (U _ _ Ht) as [-> _]. right. rewrite (get_of ty _ r flags_nodup Hr). apply get_given in Gb. rewrite Gb. apply in_map. apply C70_flags. exact Hy.
        - cbn [fst]. assert (N : forall al, ~ In (ty, al) valid_filter_types) by (intros al Hal; apply (get_of ty _ al types_nodup) in Hal; congruence). split.
          + intros [<-|[]]. exact (f_type F args a ty G Ev N).
          + intro H. inversion H as [Hn Hl|a' Ga Va|a' ty' Ga Va Ia|ty' al' b k Ht Hb Hk N1 N2 Hi|ty' al' r b y Ht Hr Gb Hy]; subst.
            * apply given_in in G. destruct (Hn a); apply G.
            * rewrite (given_fun args _ a' a Ga G), Ev in Va. destruct (Va ty eq_refl).
            * rewrite (given_fun args _ a' a Ga G), Ev in Va. injection Va as <-. left. reflexivity.
            * destruct Ht as (a' & Ga & Va & Ia). rewrite (given_fun args _ a' a Ga G), Ev in Va. injection Va as <-. destruct (N _ Ia).
            * destruct Ht as (a' & Ga & Va & Ia). rewrite (given_fun args _ a' a Ga G), Ev in Va. injection Va as <-. destruct (N _ Ia). }
    all: cbn [fst]; split; [intros [<-|[]]; apply (f_text F args a G); congruence|];
         intro H; inversion H as [Hn Hl|a' Ga Va|a' ty' Ga Va Ia|ty' al' b k Ht Hb Hk N1 N2 Hi|ty' al' r b y Ht Hr Gb Hy]; subst;
         [apply given_in in G; destruct (Hn a); apply G
         |left; reflexivity
         |rewrite (given_fun args _ a' a Ga G), Ev in Va; discriminate
         |destruct Ht as (a' & Ga & Va & _); rewrite (given_fun args _ a' a Ga G), Ev in Va; discriminate
         |destruct Ht as (a' & Ga & Va & _); rewrite (given_fun args _ a' a Ga G), Ev in Va; discriminate].
  - pose proof (proj1 (get_none args _) G) as N. cbn [fst]. split.
    + destruct (arglist_used args) eqn:E; [intros []|]. intros [<-|[]]. constructor; [exact N|]. rewrite <- arglist_iff. congruence.
    + intro H. assert (Z : forall a, given args (lit "type") a -> False) by (intros a Ga; apply given_in in Ga; destruct (N a); apply Ga).
      inversion H as [Hn Hl|a' Ga Va|a' ty' Ga Va Ia|ty' al' b k Ht Hb Hk N1 N2 Hi|ty' al' r b y Ht Hr Gb Hy]; subst.
      * rewrite <- arglist_iff in Hl. destruct (arglist_used args); [congruence|left; reflexivity].
      * destruct (Z _ Ga).
      * destruct (Z _ Ga).
      * destruct Ht as (a' & Ga & _). destruct (Z _ Ga).
      * destruct Ht as (a' & Ga & _). destruct (Z _ Ga).
Qed.
(** Nothing is said about exactly the calls that are as they should be *)
Theorem C70_accepted args : fst (filter_check args) = [] <-> acceptable args.
Proof using Type.
  split.
  - intro E. assert (N : forall x, ~ fault args x) by (intros x Hx; apply C70_reports in Hx; rewrite E in Hx; exact Hx).
    destruct (get (lit "type") (by_name args)) as [a|] eqn:G.
    + right. pose proof (proj1 (get_given args _ _) G) as Ga. unfold filter_check in E. rewrite G in E. destruct (g_val a) as [[p|ty|]|] eqn:Ev; try discriminate E.
      destruct (get ty valid_filter_types) as [allowed|] eqn:Gt; [|discriminate E]. apply get_in in Gt. assert (T : typed args ty allowed) by (exists a; repeat split; assumption).
      exists ty, allowed. split; [exact T|]. split.
      * intros b k Hb Hk. destruct (text_eqb_spec k (lit "type")) as [|N1]; [left; assumption|]. destruct (text_eqb_spec k (lit "name")) as [|N2]; [right; left; assumption|].
        right. right. destruct (existsb (text_eqb k) allowed) eqn:X; [apply exists_in; exact X|]. apply exists_out in X. destruct (N _ (f_name F args ty allowed b k T Hb Hk N1 N2 X)).
      * intros r b Hr Gb. apply flags_none. destruct (check_filter_flag r (g_expr b)) as [|y l] eqn:Y; [reflexivity|].
        assert (Hy : flag_fault r (g_expr b) y) by (apply C70_flags; rewrite Y; left; reflexivity). destruct (N _ (f_flag F args ty allowed r b y T Hr Gb Hy)).
    + left. pose proof (proj1 (get_none args _) G) as G0. clear G. rename G0 into G. split; [exact G|]. destruct (arglist_used args) eqn:X; [apply arglist_iff; exact X|]. assert (Y : ~ from_list args) by (rewrite <- arglist_iff; congruence). destruct (N _ (f_none F args G Y)).
  - intro A. destruct (fst (filter_check args)) as [|x l] eqn:E; [reflexivity|]. exfalso. assert (H : fault args x) by (apply C70_reports; rewrite E; left; reflexivity).
    destruct A as [[Hn Hl]|(ty & allowed & (a & Ga & Va & Ia) & Hk & Hf)].
    + assert (Z : forall a, given args (lit "type") a -> False) by (intros a Ga; apply given_in in Ga; destruct (Hn a); apply Ga).
      inversion H as [Hn' Hl'|a' Ga Va|a' ty' Ga Va Ia|ty' al' b k Ht Hb Hk N1 N2 Hi|ty' al' r b y Ht Hr Gb Hy]; subst; [contradiction|exact (Z _ Ga)|exact (Z _ Ga)| |]; destruct Ht as (a' & Ga & _); exact (Z _ Ga).
    + inversion H as [Hn' Hl'|a' Ga' Va'|a' ty' Ga' Va' Ia'|ty' al' b k Ht Hb Hk' N1 N2 Hi|ty' al' r b y Ht Hr Gb Hy]; subst.
      * apply given_in in Ga. destruct (Hn' a); apply Ga.
      * rewrite (given_fun args _ a' a Ga' Ga) in Va'. exact (Va' ty Va).
      * rewrite (given_fun args _ a' a Ga' Ga), Va in Va'. injection Va' as <-. exact (Ia' allowed Ia).
      * destruct Ht as (a' & Ga' & Va' & Ia'). rewrite (given_fun args _ a' a Ga' Ga), Va in Va'. injection Va' as <-.
        apply (get_of ty _ al' types_nodup) in Ia'. apply (get_of ty _ allowed types_nodup) in Ia. assert (al' = allowed) by congruence. subst al'. destruct (Hk b k Hb Hk') as [Q|[Q|Q]]; contradiction.
      * destruct Ht as (a' & Ga' & Va' & Ia'). rewrite (given_fun args _ a' a Ga' Ga), Va in Va'. injection Va' as <-.
        pose proof (Hf r b Hr Gb) as Ok. apply flags_none in Ok. apply C70_flags in Hy. rewrite Ok in Hy. exact Hy.
Qed.
End C70.

(** ** Concrete calls *)
Definition no_floats : Type := unit.
Definition fx (s : string) : expr no_floats := Base (MIdent (lit s)) [].
Definition named (k : string) (v : option val) (e : expr no_floats) : arg no_floats := {| g_name := Some (lit k); g_val := v; g_expr := e |}.
Definition type_is (s : string) : arg no_floats := named "type" (Some (VText (lit s))) (Base (MString (lit s)) []).
Definition good_call : list (arg no_floats) :=
  [type_is "wave"; named "x" (Some VOther) (Base (MInt 60) []); named "flags" None (Bin BBitOr (fx "WAVE_SIDEWAYS") (Bin BBitOr (fx "WAVE_BOUNDED") (Base (MInt 0) [])))].
Theorem C70_demo :
  acceptable good_call /\
  fst (filter_check [type_is "layer"; named "flags" None (Bin BBitOr (fx "FILTER_OVERLAY") (fx "FILTER_UNDERLAY")); named "size" (Some VOther) (Base (MInt 1) [])])
    = [UnknownParameter (lit "layer") (lit "size"); BadFlag (lit "layer") (lit "flags") OnlyOne] /\
  fst (filter_check [type_is "color"; named "space" (Some VOther) (Base (MInt 0) [])]) = [BadFlag (lit "color") (lit "space") (NotAFlag (MInt 0))] /\
  fst (filter_check [{| g_name := None; g_val := None; g_expr := Base (MCall (lit "arglist") [fx "l"]) [] |}]) = [] /\
  fst (filter_check [type_is "swirl"]) = [UnknownType (lit "swirl")] /\
  fst (filter_check [named "x" None (fx "y")]) = [NoType].
Proof.
  split; [apply C70_accepted; vm_compute; reflexivity|]. repeat split; vm_compute; reflexivity.
Qed.
(** Parentheses around flags are not understood: an error although the value is the same *)
Theorem C70_parentheses_refuted : exists (ty flag : text),
  fst (filter_check [type_is "wave"; named "flags" None (fx "WAVE_BOUNDED")]) = [] /\
  fst (filter_check [type_is "wave"; named "flags" None (Base (MExpr (fx "WAVE_BOUNDED")) [])]) = [BadFlag ty flag (NotAFlag (MExpr (fx "WAVE_BOUNDED")))].
Proof. exists (lit "wave"), (lit "flags"). split; vm_compute; reflexivity. Qed.

Print Assumptions C70_flags.
Print Assumptions C70_reports.
Print Assumptions C70_accepted.
Print Assumptions C70_demo.
Print Assumptions C70_parentheses_refuted.
