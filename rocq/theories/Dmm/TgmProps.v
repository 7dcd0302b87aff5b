(** C09: saving a map as TGM and loading it.  C42: the standard layout loads to the same map. *)
From Coq Require Import List ZArith NArith Lia Bool Ascii String Sorted.
From Verif Require Import Common.Text Common.Decimal Common.Utf8 Dmm.Model Dmm.TgmModel Dmm.TgmSpec Dmm.TgmProofs Dmm.TgmDmm.
Import ListNotations.
Open Scope N_scope.

(** Every map that the format can carry is saved exactly when its keys fit in the key length, and what was saved is
    loaded as the same map exactly when no line is too long; otherwise the loader panics. *)
Theorem C09_roundtrip : forall {C : Type} (show : C -> list N) (ev : list N -> option C) (m : map_ C),
  map_ok show ev m ->
  (save show m <> None <-> keys_fit m) /\
  (forall bs, save show m = Some bs ->
     (short_lines bs -> parse_map ev bs = ROk m) /\ (~ short_lines bs -> parse_map ev bs = RPanic)).
Proof.
  intros C show ev m Hm. split; [apply (save_some_lemma show ev m Hm)|]. intros bs Hs. apply (roundtrip_iff show ev m bs Hm Hs).
Qed.

(** The standard layout of the same map loads to the same map. *)
Theorem C42_standard_layout : forall {C : Type} (show : C -> list N) (ev : list N -> option C) (m : map_ C),
  map_ok show ev m -> keys_fit m -> short_lines (dmm_text show m) -> parse_map ev (dmm_text show m) = ROk m.
Proof. intros C show ev m. apply dmm_lemma. Qed.

(** ** a concrete map: two levels of 3x2 tiles, a varedited object with a string that holds every awkward
    character; values are their own text *)
Definition shown : list N -> list N := fun t => t.
Definition read_back : list N -> option (list N) := Some.
Definition demo_map : map_ (list N) :=
  Map 2 [ (0%Z, [ Prefab (lit "/turf/open") [] ]);
          (1%Z, [ Prefab (lit "/obj/item") [ (lit "name", lit """a;b}c, {\""d\"" // e)""" ++ lit " + 1"); (lit "x y", lit "list(1,2)") ];
                  Prefab (lit "/turf/open") [] ]);
          (60%Z, [ Prefab (lit "/area") [ (lit "dir", lit "4") ] ]) ]
    {| g3_dim := (2, 2, 3)%nat; g3_data := [0; 1; 60; 0; 0; 0; 1; 1; 1; 60; 60; 0]%Z |}.

Definition mem (c : N) (l : list N) : bool := existsb (N.eqb c) l.
Lemma mem_In : forall c l, mem c l = false -> ~ In c l.
Proof. intros c l H Hi. assert (E : mem c l = true) by (apply existsb_exists; exists c; split; [exact Hi | apply N.eqb_refl]). congruence. Qed.
Fixpoint no_slashes (t : list N) : bool :=
  match t with
  | a :: ((b :: _) as r) => negb ((a =? 47) && (b =? 47)) && no_slashes r
  | _ => true
  end.
Lemma no_slashes_ok : forall t, no_slashes t = true -> has_no_comment t.
Proof.
  intros t H a. revert t H. induction a as [|x a IH]; intros t H b E; subst t; [discriminate H|].
  destruct (a ++ lit "//" ++ b) as [|y r] eqn:Er; [destruct a; discriminate Er|].
  cbn [app] in H. rewrite Er in H. change (negb ((x =? 47) && (y =? 47)) && no_slashes (y :: r) = true) in H. apply andb_prop in H. destruct H as [_ H]. rewrite <- Er in H. exact (IH _ H b eq_refl).
Qed.
Lemma none_of_ok : forall bad t, forallb (fun c => negb (mem c bad)) t = true -> has_none_of bad t.
Proof. intros bad t H c Hc. rewrite forallb_forall in H. specialize (H c Hc). apply mem_In. destruct (mem c bad); [discriminate | reflexivity]. Qed.
Lemma scalars_ok : forall t, forallb (fun c => c <? 128) t = true -> Forall scalar t.
Proof. intros t H. rewrite forallb_forall in H. apply Forall_forall. intros c Hc. specialize (H c Hc). apply N.ltb_lt in H. unfold scalar. lia. Qed.
Lemma demo_path : forall t, forallb (fun c => c <? 128) t && forallb (fun c => negb (mem c (line_blanks ++ lit "{,)"))) t && no_slashes t = true -> path_ok t.
Proof. intros t H. apply andb_prop in H. destruct H as [H H3]. apply andb_prop in H. destruct H as [H1 H2]. split; [apply scalars_ok, H1 | split; [apply none_of_ok, H2 | apply no_slashes_ok, H3]]. Qed.
Lemma demo_name : forall c t z, forallb (fun c => c <? 128) (c :: t ++ [z]) && forallb (fun c => negb (mem c (line_blanks ++ lit """=;}"))) (c :: t ++ [z])
    && no_slashes (c :: t ++ [z]) && negb (c =? 32) && negb (mem z [9; 10; 11; 12; 13; 32; 0x85; 0xA0]) = true ->
  encode (c :: t ++ [z]) = (c :: t) ++ [z] -> name_ok (c :: t ++ [z]).
Proof.
  intros c t z H E. do 4 (apply andb_prop in H; destruct H as [H ?]).
  split; [apply scalars_ok; assumption|]. split; [apply none_of_ok; assumption|]. split; [apply no_slashes_ok; assumption|].
  split; [intros r F; injection F as -> _; discriminate|]. exists (c :: t), z. split; [exact E|]. apply mem_In. destruct (mem z _); [discriminate | reflexivity].
Qed.
Fixpoint plain (t : list N) : bool :=
  match t with
  | [] => true
  | c :: r => negb (mem c (line_blanks ++ lit """;}")) && negb ((c =? 47) && match r with 47 :: _ => true | _ => false end) && plain r
  end.
Lemma plain_ok : forall t, plain t = true -> value_ok t.
Proof.
  induction t as [|c r IH]; intro H; [constructor|]. cbn [plain] in H. apply andb_prop in H. destruct H as [H H3]. apply andb_prop in H. destruct H as [H1 H2].
  apply value_char; [apply mem_In; destruct (mem _ _); [discriminate | reflexivity] | | apply IH, H3].
  intros -> r' ->. discriminate H2.
Qed.
Fixpoint quotes_escaped (prev : N) (t : list N) : bool :=
  match t with
  | [] => negb (prev =? 92)
  | c :: r => negb (mem c line_blanks) && (negb (c =? 34) || (prev =? 92)) && quotes_escaped c r
  end.
Lemma quotes_escaped_ok : forall t, quotes_escaped 0 t = true -> quoted_ok t.
Proof.
  assert (G : forall t p, quotes_escaped p t = true ->
    has_none_of line_blanks t /\ (forall a b, t = a ++ 34 :: b -> (a = [] /\ p = 92) \/ exists a', a = a' ++ [92]) /\
    (forall a, t <> a ++ [92]) /\ (t = [] -> p <> 92)).
  { induction t as [|c r IH]; intros p H; cbn [quotes_escaped] in H.
    - split; [intros c []|]. split; [intros a b E; destruct a; discriminate|]. split; [intros a E; destruct a; discriminate|].
      intros _ ->. discriminate.
    - apply andb_prop in H. destruct H as [H H3]. apply andb_prop in H. destruct H as [H1 H2]. destruct (IH c H3) as (A & B & D & F).
      split; [intros x [<-|Hx]; [apply mem_In; destruct (mem _ _); [discriminate|reflexivity] | apply A, Hx]|].
      split.
      + intros a b E. destruct a as [|x a].
        * left. split; [reflexivity|]. injection E as -> _. cbn in H2. apply N.eqb_eq in H2. exact H2.
        * right. injection E as -> E. destruct (B a b E) as [[-> ->]|[a' ->]]; [exists []; reflexivity | exists (x :: a'); reflexivity].
      + split; [|discriminate]. intros a E. destruct a as [|x a]; injection E as -> E.
        * apply (F E). reflexivity.
        * exact (D a E). }
  intros t H. destruct (G t 0 H) as (A & B & D & _). split; [exact A|]. split; [|exact D].
  intros a b E. destruct (B a b E) as [[_ F]|F]; [discriminate | exact F].
Qed.

Lemma demo_map_ok : map_ok shown read_back demo_map.
Proof.
  assert (Hturf : path_ok (lit "/turf/open")) by (apply demo_path; reflexivity).
  split; [split; discriminate|]. split; [discriminate|].
  split; [repeat constructor|].
  split.
  - repeat apply Forall_cons; [| | |apply Forall_nil]; (split; [split; discriminate|]); (split; [discriminate|]); repeat apply Forall_cons; try apply Forall_nil.
    + split; [exact Hturf | split; [constructor | constructor]].
    + split; [apply demo_path; reflexivity|]. split.
      * repeat constructor; cbn; intros H; repeat (destruct H as [H|H]; [discriminate H|]); exact H.
      * repeat apply Forall_cons; [| |apply Forall_nil]; (split; [apply (demo_name _ [_; _] _) || apply (demo_name _ [_] _); reflexivity|]); (split; [reflexivity|]).
        -- apply (value_string (lit "a;b}c, {\""d\"" // e)") (lit " + 1")); [apply quotes_escaped_ok; reflexivity | apply plain_ok; reflexivity].
        -- apply plain_ok; reflexivity.
    + split; [exact Hturf | split; [constructor | constructor]].
    + split; [apply demo_path; reflexivity|]. split; [repeat constructor; intros []|].
      repeat apply Forall_cons; [|apply Forall_nil]. split; [apply (demo_name _ [_] _); reflexivity|]. split; [reflexivity | apply plain_ok; reflexivity].
  - split; [reflexivity|]. split; [repeat constructor|]. repeat apply Forall_cons; try apply Forall_nil; split; discriminate.
Qed.

(** The demo is saved, both texts load to it, and the two texts differ. *)
Example C09_demo : map_ok shown read_back demo_map /\ keys_fit demo_map /\
  (exists bs, save shown demo_map = Some bs /\ parse_map read_back bs = ROk demo_map /\ bs <> dmm_text shown demo_map) /\
  parse_map read_back (dmm_text shown demo_map) = ROk demo_map.
Proof.
  split; [exact demo_map_ok|]. split; [repeat constructor|].
  split; [|vm_compute; reflexivity]. eexists. split; [vm_compute; reflexivity|]. split; [vm_compute; reflexivity | vm_compute; discriminate].
Qed.

(** ** what the conditions leave out does fail *)
Definition one_value (v : list N) : map_ (list N) :=
  Map 1 [ (0%Z, [ Prefab (lit "/t") [ (lit "n", v) ] ]) ] {| g3_dim := (1, 1, 1)%nat; g3_data := [0%Z] |}.
Definition loads_as (m : map_ (list N)) (r : read_out (map_ (list N))) : Prop :=
  exists bs, save shown m = Some bs /\ parse_map read_back bs = r.
Definition reload (m : map_ (list N)) : read_out (map_ (list N)) :=
  match save shown m with Some bs => parse_map read_back bs | None => RPanic end.
Lemma loads : forall m r, save shown m <> None -> reload m = ROk r -> loads_as m (ROk r).
Proof. intros m r H E. unfold reload in E. unfold loads_as. destruct (save shown m) as [bs|]; [|congruence]. exists bs. split; [reflexivity | exact E]. Qed.
Definition empty_map : map_ (list N) := Map 1 [] {| g3_dim := (0, 0, 0)%nat; g3_data := [] |}.

(** a string that ends in an escaped backslash swallows the rest of the file *)
Theorem C09_backslash_refuted : loads_as (one_value (lit """a\\""")) (ROk empty_map).
Proof. apply loads; vm_compute; [discriminate | reflexivity]. Qed.
(** two slashes in a single-quoted resource name start a comment *)
Theorem C09_resource_refuted : loads_as (one_value (lit "'a//b'")) (ROk (one_value (lit "'a/"))).
Proof. apply loads; vm_compute; [discriminate | reflexivity]. Qed.
(** the line breaks and tabs of a string are lost *)
Theorem C09_tab_refuted : loads_as (one_value (lit """a" ++ [9] ++ lit "b""")) (ROk (one_value (lit """ab"""))).
Proof. apply loads; vm_compute; [discriminate | reflexivity]. Qed.
(** a tile without prefabs is loaded as one with an empty prefab *)
Theorem C09_empty_tile_refuted :
  let m tile := Map 1 [ (0%Z, tile) ] {| g3_dim := (1, 1, 1)%nat; g3_data := [0%Z] |} in
  loads_as (m []) (ROk (m [Prefab [] []])).
Proof. apply loads; vm_compute; [discriminate | reflexivity]. Qed.
(** a variable whose name ends in U+00E0 (second byte 0xA0) loses it *)
Theorem C09_name_refuted :
  let m v := Map 1 [ (0%Z, [ Prefab (lit "/t") [ (v, lit "1") ] ]) ] {| g3_dim := (1, 1, 1)%nat; g3_data := [0%Z] |} in
  loads_as (m [97; 0xE0]) (ROk (m [97; 0xC3])).
Proof. apply loads; vm_compute; [discriminate | reflexivity]. Qed.

Print Assumptions C09_roundtrip.
Print Assumptions C42_standard_layout.
Print Assumptions C09_demo.
Print Assumptions C09_backslash_refuted.
Print Assumptions C09_resource_refuted.
Print Assumptions C09_tab_refuted.
Print Assumptions C09_empty_tile_refuted.
Print Assumptions C09_name_refuted.
