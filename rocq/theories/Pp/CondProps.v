(** C39, C40: conditional compilation and macro expansion. *)
From Coq Require Import List ZArith NArith Bool Lia Arith String.
From Verif Require Import Common.Text Loc.Model Lexer.Punct.
From Verif Require Lexer.Model.
From Verif Require Import Pp.Model Pp.Spec Pp.Flat Pp.Walk Pp.Cond.
Import ListNotations.
Open Scope nat_scope.

Section C39.
Context {F P : Type}.
Notation token := (Lexer.Model.token F).
Notation ltok := (loc * token)%type.
Notation TPunct := (Lexer.Model.TPunct F).
Notation TIdent := (Lexer.Model.TIdent F).
Notation TString := (Lexer.Model.TString F).
Notation TInt := (Lexer.Model.TInt F).
Notation define := (@define F).
Notation define_map := (@define_map F).
Notation state := (@state F P).
Notation include := (@include F P).
Notation items := (@items F).
Notation alts := (@alts F).
Variable W : @world F P.
Notation leads := (leads W).

Definition off (ifd : list ifdef) : bool := existsb (fun i => negb (i_active i)) ifd.
(** the source tokens of a file *)
Definition src (w : @place P) (ts : list ltok) : list ((nat * option P) * ltok) := map (pair (depth w, Some (file w))) ts.
Lemma src_lift : forall w ts, src w ts = lift (file w) (map (pair (depth w)) ts).
Proof using Type. intros. unfold src, lift. rewrite map_map. reflexivity. Qed.
Lemma src_app : forall w a b, src w (a ++ b) = src w a ++ src w b.
Proof using Type. intros. apply map_app. Qed.

(** the state before the tokens [ts] of the file of [w]; [rest] is what follows *)
Record inv (w : @place P) (on : bool) (st : @world_state F) (ifd : list ifdef) (ts : list ltok) (rest : list ((nat * option P) * ltok)) (s : state) : Prop := {
  v_flat : flat (stack s) = src w ts ++ rest;
  v_output : output s = [];
  v_docs : docs_in s = [];
  v_defines : defines s = macros st;
  v_env : env_file s = env w;
  v_included : map fst (include_locations s) = included st;
  v_multiple : multiple_locations s = [];
  v_ifdefs : ifdef_stack s = ifd;
  v_on : off ifd = negb on
}.
Lemma inv_disabled : forall w on st ifd ts rest s, inv w on st ifd ts rest s -> is_disabled s = negb on.
Proof using Type. intros w on st ifd ts rest s H. unfold is_disabled. rewrite (v_ifdefs _ _ _ _ _ _ _ H). apply (v_on _ _ _ _ _ _ _ H). Qed.
Lemma inv_split : forall w on st ifd a b rest s, inv w on st ifd (a ++ b) rest s <-> inv w on st ifd a (src w b ++ rest) s.
Proof using Type.
  intros w on st ifd a b rest s. split; intros []; constructor; try assumption.
  - rewrite v_flat0, src_app, app_assoc. reflexivity.
  - rewrite v_flat0, src_app, <- app_assoc. reflexivity.
Qed.
Lemma inv_shift : forall w on st ifd b rest s, inv w on st ifd b rest s <-> inv w on st ifd [] (src w b ++ rest) s.
Proof using Type. intros. apply (inv_split w on st ifd [] b rest s). Qed.

Lemma next_at : forall (s : state) v l t r (k : loc -> token -> state -> res state), flat (stack s) = (v, (l, t)) :: r ->
  exists st', next s k = k l t (set_stack st' s) /\ flat st' = r /\ v = (List.length st', top_file st').
Proof using Type. intros s v l t r k H. destruct (inner_next_flat _ _ _ _ H) as (st' & E & H1 & H2). exists st'. unfold next. rewrite E. split; [reflexivity|]. split; assumption. Qed.

(** what is done for a directive after its name was read *)
Definition act (fuel : nat) (on : bool) (n : text) (s1 : state) : res state :=
  match directive n with
        | DEndif => match pop_ifdef s1 with (None, s2) => fail EUnmatchedEndif s2 | (Some _, s2) => yield_newline s2 end
        | DElse =>
            match pop_ifdef s1 with
            | (None, s2) => fail EUnmatchedElse s2
            | (Some last, s2) => yield_newline (push_ifdef (ifdef_else last (last_input_loc s2)) s2)
            end
        | DIfdef => do_ifdef W false s1
        | DIfndef => do_ifdef W true s1
        | DIf =>
            do (enabled, s2) <- evaluate W (pump W fuel) s1;
            yield_newline (push_ifdef (ifdef_new (last_input_loc s2) enabled) s2)
        | DElif =>
            match pop_ifdef s1 with
            | (None, s2) => fail EUnmatchedElif s2
            | (Some last, s2) =>
                do (enabled, s3) <- evaluate W (pump W fuel) s2;
                yield_newline (push_ifdef (ifdef_else_if last (last_input_loc s3) enabled) s3)
            end
        | DInclude => if negb on then yield_newline s1 else do_include W s1
        | DDefine =>
            if negb on then
              match skip_line (S (available s1)) s1 with
              | None => Stuck
              | Some (true, s2) => yield_newline s2
              | Some (false, s2) => Ok s2
              end
            else do_define W s1
        | DUndef => if negb on then yield_newline s1 else do_undef s1
        | DWarn => if negb on then yield_newline s1 else do_message EWarnDirective s1
        | DError => if negb on then yield_newline s1 else do_message EErrorDirective s1
        | DPragma => if negb on then yield_newline s1 else do_pragma s1
        | DOther => fail EUnknownDirective s1
        end.
Lemma leads_directive : forall w on st ifd l0 l1 n ws ts rest s (Q : list ltok -> state -> Prop),
  inv w on st ifd ((l0, hash) :: (l1, TIdent n ws) :: ts) rest s ->
  (forall fuel s1 sx, inv w on st ifd ts rest s1 -> act fuel on n s1 = Ok sx -> Q (output sx) (set_output [] sx)) ->
  leads s Q.
Proof using Type.
  intros w on st ifd l0 l1 n ws ts rest s Q I H. destruct I. cbn [src map app] in v_flat0.
  eapply (leads_tok W s _ _ _ _ Q v_flat0). intros st1 fuel s2 Hf1 Hv1 Hr.
  assert (Hf1' : flat (stack (set_loc l0 (set_stack st1 s))) = (depth w, Some (file w), (l1, TIdent n ws)) :: src w ts ++ rest) by exact Hf1.
  unfold real_next, hash in Hr. unfold do_directive in Hr.
  match type of Hr with next ?s1 ?k = _ => destruct (next_at s1 _ _ _ _ k Hf1') as (st2 & En & Hf2 & Hv2) end. rewrite En in Hr. clear En.
  assert (Hd : is_disabled (set_loc l0 (set_stack st1 s)) = negb on) by (unfold is_disabled; cbn [ifdef_stack set_loc set_stack]; rewrite v_ifdefs0; exact v_on0).
  rewrite Hd in Hr. cbn [negb andb] in Hr.
  apply (H fuel (set_loc l0 (set_stack st2 s)) s2); [constructor; assumption | exact Hr].
Qed.

Definition post (w : @place P) (on : bool) (st' : @world_state F) (ifd : list ifdef) (rest : list ((nat * option P) * ltok)) (ls : list (list ltok)) (o : list ltok) (s1 : state) : Prop :=
  whole o /\ lines_of o = ls /\ inv w on st' ifd [] rest s1.

(** tokens in a part that is switched off *)
Lemma leads_dead : forall ts w st ifd rest s, inv w false st ifd ts rest s -> ~ In hash (toks ts) -> leads s (post w false st ifd rest []).
Proof using Type.
  induction ts as [|[l t] ts IH]; intros w st ifd rest s I N.
  - apply leads_ret. split; [left; reflexivity|]. split; [reflexivity | exact I].
  - pose proof (inv_disabled _ _ _ _ _ _ _ I) as Hd. destruct I. cbn [src map app] in v_flat0.
    eapply leads_bind.
    + eapply (leads_tok W s _ _ _ _ (fun o s1 => o = [] /\ inv w false st ifd ts rest s1) v_flat0). intros st1 fuel s2 Hf1 Hv1 Hr.
      assert (E : s2 = set_loc l (set_stack st1 s)).
      { unfold real_next in Hr. change (is_disabled (set_loc l (set_stack st1 s))) with (is_disabled s) in Hr. rewrite Hd in Hr. cbn [negb andb] in Hr.
        destruct t; try congruence. destruct p; try congruence. elim N. left. reflexivity. }
      subst s2. split; [exact v_output0|]. constructor; try assumption. reflexivity.
    + intros o s1 [-> I1]. cbn [app]. apply IH; [exact I1|]. intro Hin. apply N. right. exact Hin.
Qed.
(** the end of a directive's line *)
Lemma leads_newline : forall l w on st ifd rest s, inv w on st ifd [(l, nl)] rest s -> leads s (post w on st ifd rest []).
Proof using Type.
  intros l w on st ifd rest s I. destruct on.
  - pose proof (inv_disabled _ _ _ _ _ _ _ I) as Hd. destruct I. cbn [src map app] in v_flat0.
    eapply (leads_tok W s _ _ _ _ _ v_flat0). intros st1 fuel s2 Hf1 Hv1 Hr. unfold real_next, nl in Hr.
    change (is_disabled (set_loc l (set_stack st1 s))) with (is_disabled s) in Hr. rewrite Hd in Hr. cbn [negb andb count_interp bind] in Hr.
    rewrite emit_none in Hr by exact v_docs0. inversion Hr; subst s2. unfold push_output. cbn [output set_output set_loc set_stack last_input_loc]. rewrite v_output0. cbn [app].
    split; [apply whole_nl|]. split; [reflexivity|]. constructor; try assumption. reflexivity.
  - apply (leads_dead [(l, nl)]); [exact I|]. intros [C|[]]. discriminate C.
Qed.

(** a directive that is done and leaves the newline in the source *)
Lemma yield_post : forall w on st ifd ts rest s1 sx, inv w on st ifd ts rest s1 -> yield_newline s1 = Ok sx ->
  whole (output sx) /\ lines_of (output sx) = [] /\ inv w on st ifd ts rest (set_output [] sx).
Proof using Type.
  intros w on st ifd ts rest s1 sx I H. inversion H; subst. destruct I. unfold push_output. cbn [output set_output]. rewrite v_output0. cbn [app].
  split; [apply whole_nl|]. split; [reflexivity|]. constructor; assumption || reflexivity.
Qed.
Lemma post_app : forall w on st ifd rest ls1 ls2 o s1, whole o -> lines_of o = ls1 -> leads s1 (post w on st ifd rest ls2) -> leads s1 (fun o2 s2 => post w on st ifd rest (ls1 ++ ls2) (o ++ o2) s2).
Proof using Type.
  intros w on st ifd rest ls1 ls2 o s1 Hw Hl H. eapply leads_weaken; [exact H|]. intros o2 s2 (W2 & L2 & I2). split; [apply whole_app; assumption|]. split; [rewrite lines_app by exact Hw; congruence | exact I2].
Qed.

(** *** Each kind of line *)
Lemma toks_cons : forall (ts : list ltok) t r, toks ts = t :: r -> exists l ts', ts = (l, t) :: ts' /\ toks ts' = r.
Proof using Type. intros [|[l t'] ts] t r H; [discriminate|]. cbn [toks map snd] in H. injection H as -> <-. exists l, ts. split; reflexivity. Qed.
Lemma toks_app : forall (ts : list ltok) a b, toks ts = a ++ b -> exists ta tb, ts = ta ++ tb /\ toks ta = a /\ toks tb = b.
Proof using Type. intros ts a b H. apply map_eq_app in H. exact H. Qed.

Lemma text_line : forall w st ifd line o rest s, is_text line -> expands W false (w_display_path W (file w)) (macros st) [] (map (pair (depth w)) line) o ->
  inv w true st ifd line rest s -> leads s (post w true st ifd rest (lines_of o)).
Proof using Type.
  intros w st ifd line o rest s (body & Hb & _ & _) He I.
  pose proof (inv_disabled _ _ _ _ _ _ _ I) as Hd. destruct I.
  rewrite src_lift in v_flat0.
  destruct (expands_chain W false _ _ _ _ _ He (file w) s rest v_flat0) as (s1 & Hc & Hf1 & Hm & _ & Ho).
  { split; [exact v_docs0|]. intros _. split; assumption. } { exact v_defines0. } { reflexivity. } { discriminate. }
  eapply leads_weaken; [apply (chain_leads W _ _ _ Hc v_output0)|]. intros o' s2 [-> ->].
  assert (He2 : exists a l', o = a ++ [(l', nl)]).
  { apply toks_app in Hb. destruct Hb as (ta & tb & -> & _ & Hb). apply toks_cons in Hb. destruct Hb as (l & tb' & -> & Hb). destruct tb'; [|discriminate].
    eapply (expands_ends W _ _ _ _ _ _ He (map (pair (depth w)) ta) (depth w) l). rewrite map_app. reflexivity. }
  split; [right; exact He2|]. split; [reflexivity|]. unfold same in Hm. decompose [and] Hm. constructor; try congruence; try exact Hf1; apply Ho; reflexivity.
Qed.

Lemma step_inv : forall w on st ifd l t ts rest s st', inv w on st ifd ((l, t) :: ts) rest s -> flat st' = src w ts ++ rest -> inv w on st ifd ts rest (set_stack st' s).
Proof using Type. intros w on st ifd l t ts rest s st' [] H. constructor; assumption. Qed.
Lemma next_inv : forall w on st ifd l t ts rest s (k : loc -> token -> state -> res state), inv w on st ifd ((l, t) :: ts) rest s ->
  exists s1, next s k = k l t s1 /\ inv w on st ifd ts rest s1 /\ top_file (stack s1) = Some (file w) /\ List.length (stack s1) = depth w.
Proof using Type.
  intros w on st ifd l t ts rest s k I. destruct (next_at s _ _ _ _ k (v_flat _ _ _ _ _ _ _ I)) as (st' & E & Hf & Hv). exists (set_stack st' s).
  split; [exact E|]. split; [eapply step_inv; eassumption|]. cbn [stack set_stack]. inversion Hv. split; congruence.
Qed.

Lemma read_subst_line : forall w on st ifd rest ts, forall k sb ds s body, toks ts = body ++ [nl] -> plain_body body ->
  inv w on st ifd ts rest s -> exists s', read_subst (List.length ts + k) sb ds s = Some (Some (sb ++ body, ds), s') /\ inv w on st ifd [] rest s' /\ top_file (stack s') = Some (file w).
Proof using Type.
  intros w on st ifd rest ts. induction ts as [|[l t] ts IH]; intros k sb ds s body Hb [Hn Hd] I; [destruct body; discriminate|].
  destruct (inner_next_flat s _ _ _ (v_flat _ _ _ _ _ _ _ I)) as (st' & En & Hf & Hv).
  pose proof (step_inv _ _ _ _ _ _ _ _ _ _ I Hf) as I1. cbn [List.length Nat.add read_subst]. rewrite En.
  destruct body as [|b body].
  - cbn [app toks map snd] in Hb. injection Hb as -> Hb. apply map_eq_nil in Hb. subst ts. exists (set_stack st' s). rewrite app_nil_r. split; [reflexivity|]. split; [exact I1|]. cbn [stack set_stack]. congruence.
  - cbn [app toks map snd] in Hb. injection Hb as -> Hb.
    assert (Hpb : plain_body body) by (split; [intro C; apply Hn; right; exact C | intros a x y C; apply (Hd a x y); right; exact C]).
    destruct (IH k (sb ++ [b]) ds (set_stack st' s) body Hb Hpb I1) as (s' & E & I' & T). exists s'.
    replace (sb ++ b :: body) with ((sb ++ [b]) ++ body) by (rewrite <- app_assoc; reflexivity). split; [|split; assumption].
    rewrite <- E. destruct b; try reflexivity; [|elim (Hd k0 t s0); left; reflexivity]. destruct p; try reflexivity. elim Hn. left. reflexivity.
Qed.
Lemma inv_available : forall w on st ifd ts rest s, inv w on st ifd ts rest s -> available s = List.length ts + List.length rest.
Proof using Type. intros w on st ifd ts rest s I. rewrite available_flat, (v_flat _ _ _ _ _ _ _ I), app_length. unfold src. rewrite map_length. reflexivity. Qed.

Lemma add_define_post : forall w st ifd rest s n l d sx, inv w true st ifd [] rest s -> top_file (stack s) = Some (file w) -> definable w n ->
  yield_newline (add_define W n l d s) = Ok sx ->
  post w true {| macros := dm_insert (macros st) n (l, d); included := included st |} ifd rest [] (output sx) (set_output [] sx).
Proof using Type.
  intros w st ifd rest s n l d sx I T Hd H.
  assert (E : negb (text_eqb n (lit "DEBUG")) || in_environment W s = true).
  { destruct (text_eqb_spec n (lit "DEBUG")) as [->|]; [|reflexivity]. cbn [negb orb]. unfold in_environment. rewrite T, (v_env _ _ _ _ _ _ _ I), (Hd eq_refl). destruct (w_path_eq W (env w) (env w)); congruence. }
  assert (I' : inv w true {| macros := dm_insert (macros st) n (l, d); included := included st |} ifd [] rest (add_define W n l d s)).
  { unfold add_define. rewrite E. destruct I.
    assert (Ed : dm_insert (defines s) n (l, d) = dm_insert (macros st) n (l, d)) by (rewrite v_defines0; reflexivity).
    destruct (dm_get (defines s) n); [destruct (text_eqb n (lit "FILE_DIR"))|]; constructor; assumption. }
  apply (yield_post _ _ _ _ _ _ _ _ I' H).
Qed.

Lemma inner_inv : forall w on st ifd l t ts rest s, inv w on st ifd ((l, t) :: ts) rest s ->
  exists s1, inner_next s = (Some (l, t), s1) /\ inv w on st ifd ts rest s1 /\ top_file (stack s1) = Some (file w) /\ List.length (stack s1) = depth w.
Proof using Type.
  intros w on st ifd l t ts rest s I. destruct (inner_next_flat s _ _ _ (v_flat _ _ _ _ _ _ _ I)) as (st' & E & Hf & Hv). exists (set_stack st' s).
  split; [exact E|]. split; [eapply step_inv; eassumption|]. cbn [stack set_stack]. inversion Hv. split; congruence.
Qed.
Lemma read_params_names : forall w on st ifd rest params wss tp, List.length wss = List.length params -> params <> [] -> toks tp = names params wss ->
  forall fuel ps s l tail, List.length params <= fuel -> inv w on st ifd (tp ++ (l, TPunct PRParen) :: tail) rest s ->
  exists s', read_params fuel ps false s = PDone (ps ++ params) false s' /\ inv w on st ifd tail rest s'.
Proof using Type.
  intros w on st ifd rest. induction params as [|n params IH]; intros wss tp Hl Hne Ht fuel ps s l tail Hfu I; [congruence|].
  destruct wss as [|b wss]; [discriminate|]. injection Hl as Hl. destruct fuel as [|fuel]; [cbn [List.length] in Hfu; lia|]. cbn [List.length] in Hfu.
  destruct params as [|n2 params].
  - destruct wss; [|discriminate]. cbn [names combine map commas fst snd] in Ht. apply toks_cons in Ht. destruct Ht as (l1 & tp' & -> & Ht). destruct tp'; [|discriminate]. cbn [app] in I.
    destruct (inner_inv _ _ _ _ _ _ _ _ _ I) as (s1 & E1 & I1 & _). destruct (inner_inv _ _ _ _ _ _ _ _ _ I1) as (s2 & E2 & I2 & _).
    exists s2. cbn [read_params]. rewrite E1, E2. split; [reflexivity | exact I2].
  - destruct wss as [|b2 wss]; [discriminate|].
    assert (En : names (n :: n2 :: params) (b :: b2 :: wss) = TIdent n b :: TPunct PComma :: names (n2 :: params) (b2 :: wss)) by reflexivity. rewrite En in Ht.
    apply toks_cons in Ht. destruct Ht as (l1 & tp1 & -> & Ht). apply toks_cons in Ht. destruct Ht as (l2 & tp2 & -> & Ht). cbn [app] in I.
    destruct (inner_inv _ _ _ _ _ _ _ _ _ I) as (s1 & E1 & I1 & _). destruct (inner_inv _ _ _ _ _ _ _ _ _ I1) as (s2 & E2 & I2 & _).
    destruct (IH (b2 :: wss) tp2 Hl ltac:(discriminate) Ht fuel (ps ++ [n]) s2 l tail) as (s' & E' & I'); [lia | exact I2|].
    exists s'. cbn [read_params]. rewrite E1, E2, E', <- app_assoc. split; [reflexivity | exact I'].
Qed.
Lemma read_params_variadic : forall w on st ifd rest params wss tp, List.length wss = List.length params -> params <> [] -> toks tp = names params wss ->
  forall fuel ps s l l' tail, List.length params <= fuel -> inv w on st ifd (tp ++ (l, TPunct PEllipsis) :: (l', TPunct PRParen) :: tail) rest s ->
  exists s', read_params fuel ps false s = PDone (ps ++ params) true s' /\ inv w on st ifd tail rest s'.
Proof using Type.
  intros w on st ifd rest. induction params as [|n params IH]; intros wss tp Hl Hne Ht fuel ps s l l' tail Hfu I; [congruence|].
  destruct wss as [|b wss]; [discriminate|]. injection Hl as Hl. destruct fuel as [|fuel]; [cbn [List.length] in Hfu; lia|]. cbn [List.length] in Hfu.
  destruct params as [|n2 params].
  - destruct wss; [|discriminate]. cbn [names combine map commas fst snd] in Ht. apply toks_cons in Ht. destruct Ht as (l1 & tp' & -> & Ht). destruct tp'; [|discriminate]. cbn [app] in I.
    destruct (inner_inv _ _ _ _ _ _ _ _ _ I) as (s1 & E1 & I1 & _). destruct (inner_inv _ _ _ _ _ _ _ _ _ I1) as (s2 & E2 & I2 & _). destruct (inner_inv _ _ _ _ _ _ _ _ _ I2) as (s3 & E3 & I3 & _).
    exists s3. cbn [read_params]. rewrite E1, E2, E3. split; [reflexivity | exact I3].
  - destruct wss as [|b2 wss]; [discriminate|].
    assert (En : names (n :: n2 :: params) (b :: b2 :: wss) = TIdent n b :: TPunct PComma :: names (n2 :: params) (b2 :: wss)) by reflexivity. rewrite En in Ht.
    apply toks_cons in Ht. destruct Ht as (l1 & tp1 & -> & Ht). apply toks_cons in Ht. destruct Ht as (l2 & tp2 & -> & Ht). cbn [app] in I.
    destruct (inner_inv _ _ _ _ _ _ _ _ _ I) as (s1 & E1 & I1 & _). destruct (inner_inv _ _ _ _ _ _ _ _ _ I1) as (s2 & E2 & I2 & _).
    destruct (IH (b2 :: wss) tp2 Hl ltac:(discriminate) Ht fuel (ps ++ [n]) s2 l l' tail) as (s' & E' & I'); [lia | exact I2|].
    exists s'. cbn [read_params]. rewrite E1, E2, E', <- app_assoc. split; [reflexivity | exact I'].
Qed.
Lemma inv_docs : forall w on st ifd ts rest s, inv w on st ifd ts rest s -> inv w on st ifd ts rest (set_docs [] s).
Proof using Type. intros w on st ifd ts rest s []. constructor; assumption || reflexivity. Qed.

Lemma names_length : forall params wss (tp : list ltok), List.length wss = List.length params -> toks tp = names params wss -> List.length params <= List.length tp.
Proof using Type.
  intros params wss tp Hl H. rewrite <- (map_length snd tp). change (map snd tp) with (toks tp). rewrite H. clear -Hl. revert wss Hl. induction params as [|n params IH]; intros [|b wss] Hl; try discriminate; [cbn; lia|].
  injection Hl as Hl. specialize (IH wss Hl). destruct params as [|n2 params]; destruct wss as [|b2 wss]; try discriminate; [cbn; lia|].
  change (names (n :: n2 :: params) (b :: b2 :: wss)) with (TIdent n b :: TPunct PComma :: names (n2 :: params) (b2 :: wss)). cbn [List.length] in *. lia.
Qed.

Lemma define_line : forall w st ifd line l n d rest s, defining line l n d -> definable w n ->
  inv w true st ifd line rest s -> leads s (post w true {| macros := dm_insert (macros st) n (l, d); included := included st |} ifd rest []).
Proof using Type.
  intros w st ifd line l n d rest s Hdef Hn I. inversion Hdef as [ts l0 l1 l' ww n' ws body t Ets Ht Hpb Hp|ts l0 l1 l' ww n' params wss body t Ets Ht Hl Hne Hpb|ts l0 l1 l' ww n' params wss body t Ets Ht Hl Hne Hpb]; subst; clear Hdef;
    (eapply leads_directive; [exact I|]; clear s I; intros fuel s sx I Hact; unfold act in Hact; change (directive (lit "define")) with DDefine in Hact; cbn [negb] in Hact; unfold do_define in Hact;
     rewrite (v_docs _ _ _ _ _ _ _ I) in Hact; cbn [map] in Hact; apply inv_docs in I;
     match type of Hact with next ?s0 ?k = _ => destruct (next_inv _ _ _ _ _ _ _ _ _ k I) as (s1 & E1 & I1 & T1 & D1); rewrite E1 in Hact; clear E1 end).
  - (* constant *)
    destruct body as [|b body].
    + cbn [app] in Ht. apply toks_cons in Ht. destruct Ht as (l2 & t' & -> & Ht). destruct t'; [|discriminate].
      match type of Hact with next ?s0 ?k = _ => destruct (next_inv _ _ _ _ _ _ _ _ _ k I1) as (s2 & E2 & I2 & T2 & D2); rewrite E2 in Hact; clear E2 end.
      unfold nl in Hact. cbn [finish_define] in Hact. apply (add_define_post _ _ _ _ _ _ _ _ _ I2 T2 Hn Hact).
    + cbn [app] in Ht. apply toks_cons in Ht. destruct Ht as (l2 & t' & -> & Ht).
      match type of Hact with next ?s0 ?k = _ => destruct (next_inv _ _ _ _ _ _ _ _ _ k I1) as (s2 & E2 & I2 & T2 & D2); rewrite E2 in Hact; clear E2 end.
      assert (Hpb' : plain_body body) by (destruct Hpb as [Hn1 Hd1]; split; [intro C; apply Hn1; right; exact C | intros a x y C; apply (Hd1 a x y); right; exact C]).
      destruct (read_subst_line _ _ _ _ _ t' (S (List.length rest)) [b] [] s2 body Ht Hpb' I2) as (s3 & E3 & I3 & T3).
      assert (Hact' : finish_define W n l [] false (read_subst (S (available s2)) [b] [] s2) = Ok sx).
      { destruct Hpb as [Hn1 Hd1]. destruct b; try exact Hact; [|elim (Hd1 k t s0); left; reflexivity]. destruct p; try exact Hact; [elim Hn1; left; reflexivity|].
        destruct ws; [exact Hact|]. elim (Hp eq_refl). reflexivity. }
      rewrite (inv_available _ _ _ _ _ _ _ I2) in Hact'. replace (S (List.length t' + List.length rest)) with (List.length t' + S (List.length rest)) in Hact' by lia. rewrite E3 in Hact'. cbn [finish_define app] in Hact'.
      apply (add_define_post _ _ _ _ _ _ _ _ _ I3 T3 Hn Hact').
  - (* function *)
    apply toks_cons in Ht. destruct Ht as (l2 & t' & -> & Ht). apply toks_app in Ht. destruct Ht as (tp & tb & -> & Htp & Ht). apply toks_cons in Ht. destruct Ht as (l3 & t'' & -> & Ht).
    match type of Hact with next ?s0 ?k = _ => destruct (next_inv _ _ _ _ _ _ _ _ _ k I1) as (s2 & E2 & I2 & T2 & D2); rewrite E2 in Hact; clear E2 end.
    destruct (read_params_names w true st ifd rest params wss tp Hl Hne Htp (S (available s2)) [] s2 l3 t'') as (s3 & E3 & I3).
    { pose proof (names_length _ _ _ Hl Htp). rewrite (inv_available _ _ _ _ _ _ _ I2), app_length. lia. } { exact I2. }
    rewrite E3 in Hact. cbn [app] in Hact.
    destruct (read_subst_line _ _ _ _ _ t'' (S (List.length rest)) [] [] s3 body Ht Hpb I3) as (s4 & E4 & I4 & T4).
    rewrite (inv_available _ _ _ _ _ _ _ I3) in Hact. replace (S (List.length t'' + List.length rest)) with (List.length t'' + S (List.length rest)) in Hact by lia. rewrite E4 in Hact. cbn [finish_define app] in Hact.
    destruct params as [|p0 params]; [congruence|]. apply (add_define_post _ _ _ _ _ _ _ _ _ I4 T4 Hn Hact).
  - (* variadic *)
    apply toks_cons in Ht. destruct Ht as (l2 & t' & -> & Ht). apply toks_app in Ht. destruct Ht as (tp & tb & -> & Htp & Ht). apply toks_cons in Ht. destruct Ht as (l3 & t'' & -> & Ht). apply toks_cons in Ht. destruct Ht as (l4 & t3 & -> & Ht).
    match type of Hact with next ?s0 ?k = _ => destruct (next_inv _ _ _ _ _ _ _ _ _ k I1) as (s2 & E2 & I2 & T2 & D2); rewrite E2 in Hact; clear E2 end.
    destruct (read_params_variadic w true st ifd rest params wss tp Hl Hne Htp (S (available s2)) [] s2 l3 l4 t3) as (s3 & E3 & I3).
    { pose proof (names_length _ _ _ Hl Htp). rewrite (inv_available _ _ _ _ _ _ _ I2), app_length. lia. } { exact I2. }
    rewrite E3 in Hact. cbn [app] in Hact.
    destruct (read_subst_line _ _ _ _ _ t3 (S (List.length rest)) [] [] s3 body Ht Hpb I3) as (s4 & E4 & I4 & T4).
    rewrite (inv_available _ _ _ _ _ _ _ I3) in Hact. replace (S (List.length t3 + List.length rest)) with (List.length t3 + S (List.length rest)) in Hact by lia. rewrite E4 in Hact. cbn [finish_define app] in Hact.
    destruct params as [|p0 params]; [congruence|]. apply (add_define_post _ _ _ _ _ _ _ _ _ I4 T4 Hn Hact).
Qed.

Lemma undef_line : forall w st ifd line n rest s, undefining line n ->
  inv w true st ifd line rest s -> leads s (post w true {| macros := snd (dm_remove (macros st) n); included := included st |} ifd rest []).
Proof using Type.
  intros w st ifd line n rest s (w1 & ws & Ht) I. apply toks_cons in Ht. destruct Ht as (l0 & t0 & -> & Ht). apply toks_cons in Ht. destruct Ht as (l1 & t1 & -> & Ht).
  apply toks_cons in Ht. destruct Ht as (l2 & t2 & -> & Ht). apply toks_cons in Ht. destruct Ht as (l3 & t3 & -> & Ht). destruct t3; [|discriminate].
  eapply leads_directive; [exact I|]. clear s I. intros fuel s sx I Hact. unfold act in Hact. change (directive (lit "undef")) with DUndef in Hact. cbn [negb] in Hact. unfold do_undef in Hact.
  match type of Hact with next ?s0 ?k = _ => destruct (next_inv _ _ _ _ _ _ _ _ _ k I) as (s1 & E1 & I1 & T1 & D1); rewrite E1 in Hact; clear E1 end.
  match type of Hact with next ?s0 ?k = _ => destruct (next_inv _ _ _ _ _ _ _ _ _ k I1) as (s2 & E2 & I2 & T2 & D2); rewrite E2 in Hact; clear E2 end.
  unfold nl in Hact. rewrite (v_defines _ _ _ _ _ _ _ I2) in Hact. destruct (dm_remove (macros st) n) as [[[l d]|] m] eqn:E; cbn [snd].
  - eapply yield_post; [|exact Hact]. destruct I2. constructor; assumption || reflexivity.
  - eapply yield_post; [|exact Hact]. destruct I2. constructor; assumption || reflexivity.
Qed.

Lemma loc_of_In : forall (m : list (Z * loc)) id, loc_of m id = None <-> ~ In id (map fst m).
Proof using Type.
  induction m as [|[i l] m IH]; intro id; cbn [loc_of map fst In]; [tauto|]. destruct (Z.eqb_spec i id) as [->|Hne]; [split; [discriminate | intro H; elim H; left; reflexivity]|].
  rewrite IH. tauto.
Qed.
(** an #include line up to its newline; then the file is looked up *)
Lemma include_act : forall w st ifd line path rest s (Q : list ltok -> state -> Prop), including line path -> inv w true st ifd line rest s ->
  (forall s2 c1 c2, inv w true st ifd [] rest s2 -> List.length (stack s2) = depth w -> top_file (stack s2) = Some (file w) ->
     w_join W (file w) (slashes path) = Some c1 -> w_join W (env w) (slashes path) = Some c2 ->
     let sx := if w_exists W c1 then include_candidate W c1 s2 else if w_exists W c2 then include_candidate W c2 s2 else register ENotFound s2 in
     Q (output sx) (set_output [] sx)) ->
  leads s Q.
Proof using Type.
  intros w st ifd line path rest s Q (w1 & Ht) I H. apply toks_cons in Ht. destruct Ht as (l0 & t0 & -> & Ht). apply toks_cons in Ht. destruct Ht as (l1 & t1 & -> & Ht).
  apply toks_cons in Ht. destruct Ht as (l2 & t2 & -> & Ht). apply toks_cons in Ht. destruct Ht as (l3 & t3 & -> & Ht). destruct t3; [|discriminate].
  eapply leads_directive; [exact I|]. clear s I. intros fuel s sx I Hact. unfold act in Hact. change (directive (lit "include")) with DInclude in Hact. cbn [negb] in Hact. unfold do_include in Hact.
  match type of Hact with next ?s0 ?k = _ => destruct (next_inv _ _ _ _ _ _ _ _ _ k I) as (s1 & E1 & I1 & T1 & D1); rewrite E1 in Hact; clear E1 end.
  match type of Hact with next ?s0 ?k = _ => destruct (next_inv _ _ _ _ _ _ _ _ _ k I1) as (s2 & E2 & I2 & T2 & D2); rewrite E2 in Hact; clear E2 end.
  unfold nl in Hact. assert (Et : top_file_path W s2 = file w) by (unfold top_file_path; rewrite T2; reflexivity). rewrite Et, (v_env _ _ _ _ _ _ _ I2) in Hact.
  destruct (w_join W (file w) (slashes path)) as [c1|] eqn:J1; [|discriminate]. destruct (w_join W (env w) (slashes path)) as [c2|] eqn:J2; [|discriminate].
  specialize (H s2 c1 c2 I2 D2 T2 eq_refl eq_refl). cbv zeta in H.
  destruct (w_exists W c1); [|destruct (w_exists W c2)]; inversion Hact; subst; exact H.
Qed.
Lemma no_output_post : forall w on st ifd rest s, inv w on st ifd [] rest s -> post w on st ifd rest [] (output s) (set_output [] s).
Proof using Type.
  intros w on st ifd rest s I. destruct I. rewrite v_output0. split; [left; reflexivity|]. split; [reflexivity|]. constructor; assumption || reflexivity.
Qed.
Lemma inv_register : forall w on st ifd ts rest s e, inv w on st ifd ts rest s -> inv w on st ifd ts rest (register e s).
Proof using Type. intros w on st ifd ts rest s e []. constructor; assumption. Qed.
Lemma inv_resources : forall w on st ifd ts rest s a b c, inv w on st ifd ts rest s -> inv w on st ifd ts rest (set_resources a b c s).
Proof using Type. intros w on st ifd ts rest s a b c []. constructor; assumption. Qed.

Lemma found : forall w path q c1 c2 s2, finds W w path q -> w_join W (file w) (slashes path) = Some c1 -> w_join W (env w) (slashes path) = Some c2 ->
  (if w_exists W c1 then include_candidate W c1 s2 else if w_exists W c2 then include_candidate W c2 s2 else register ENotFound s2) =
  match q with Some q => include_candidate W q s2 | None => register ENotFound s2 end.
Proof using Type.
  intros w path q c1 c2 s2 H J1 J2. destruct H as [q q2 A B C|q q2 A B C D|q q2 A B C D]; rewrite J1 in A; rewrite J2 in B; inversion A; inversion B; subst; rewrite ?C, ?D; reflexivity.
Qed.

(** *** Opening and closing *)
Lemma open_line : forall w on st ifd line t v rest s, opens line t -> holds W w st t v -> inv w on st ifd line rest s ->
  leads s (fun o s1 => whole o /\ lines_of o = [] /\ exists l b, (on = true -> b = v) /\ inv w (on && v) st (ifdef_new l b :: ifd) [] rest s1).
Proof using Type.
  intros w on st ifd line t v rest s Hop Hh I.
  assert (ON : forall l b, (on = true -> b = v) -> off ifd = negb on -> off (ifdef_new l b :: ifd) = negb (on && v)).
  { clear. intros l b Hb Ho. unfold off in *. cbn [existsb ifdef_new i_active]. rewrite Ho. destruct on; cbn [negb andb] in *; [rewrite (Hb eq_refl); destruct v; reflexivity | apply orb_true_r]. }
  assert (DEF : forall (neg : bool) w0 n ws, toks line = [hash; TIdent (if neg then lit "ifndef" else lit "ifdef") w0; TIdent n ws; nl] -> v = xorb neg (defined_at W w st n) ->
    leads s (fun o s1 => whole o /\ lines_of o = [] /\ exists l b, (on = true -> b = v) /\ inv w (on && v) st (ifdef_new l b :: ifd) [] rest s1)).
  { intros neg w0 n ws Ht Hv. apply toks_cons in Ht. destruct Ht as (l0 & t0 & -> & Ht). apply toks_cons in Ht. destruct Ht as (l1 & t1 & -> & Ht).
    apply toks_cons in Ht. destruct Ht as (l2 & t2 & -> & Ht). apply toks_cons in Ht. destruct Ht as (l3 & t3 & -> & Ht). destruct t3; [|discriminate].
    eapply leads_directive; [exact I|]. clear s I. intros fuel s sx I Hact.
    assert (Hact' : do_ifdef W neg s = Ok sx) by (destruct neg; exact Hact). clear Hact. unfold do_ifdef in Hact'.
    match type of Hact' with next ?s0 ?k = _ => destruct (next_inv _ _ _ _ _ _ _ _ _ k I) as (s1 & E1 & I1 & T1 & D1); rewrite E1 in Hact'; clear E1 end.
    match type of Hact' with next ?s0 ?k = _ => destruct (next_inv _ _ _ _ _ _ _ _ _ k I1) as (s2 & E2 & I2 & T2 & D2); rewrite E2 in Hact'; clear E2 end.
    unfold nl in Hact'.
    assert (Ed : is_defined W s2 n = defined_at W w st n).
    { unfold is_defined, defined_at, in_environment. rewrite T2, (v_env _ _ _ _ _ _ _ I2), (v_defines _ _ _ _ _ _ _ I2). reflexivity. }
    rewrite Ed, <- Hv in Hact'.
    assert (I3 : inv w (on && v) st (ifdef_new (last_input_loc s2) v :: ifd) [] rest (push_ifdef (ifdef_new (last_input_loc s2) v) s2)).
    { destruct I2. unfold push_ifdef. constructor; try assumption; [cbn [ifdef_stack set_ifdefs]; congruence | apply ON; [reflexivity | assumption]]. }
    destruct (yield_post _ _ _ _ _ _ _ _ I3 Hact') as (A & B & C). split; [exact A|]. split; [exact B|]. exists (last_input_loc s2), v. split; [reflexivity | exact C]. }
  inversion Hop as [ts w0 n ws Ht|ts w0 n ws Ht|l0 l1 l2 w0 c Hc]; subst; inversion Hh as [n'|n'|c' o He]; subst.
  - apply (DEF false w0 n ws Ht). destruct (defined_at W w st n); reflexivity.
  - apply (DEF true w0 n ws Ht). destruct (defined_at W w st n); reflexivity.
  - clear DEF. eapply leads_directive; [exact I|]. clear s I. intros fuel s sx I Hact. unfold act in Hact. change (directive (lit "if")) with DIf in Hact.
    destruct (evaluate W (pump W fuel) s) as [[b s2]| |] eqn:Ev; try discriminate. cbn [bind] in Hact.
    pose proof (v_flat _ _ _ _ _ _ _ I) as Hf. rewrite src_app, <- app_assoc, src_lift in Hf. cbn [src map app] in Hf.
    rewrite <- (v_defines _ _ _ _ _ _ _ I) in He.
    destruct (eval_cond W s (file w) (depth w) c o _ l2 rest fuel b s2 Hf (v_docs _ _ _ _ _ _ _ I) (v_output _ _ _ _ _ _ _ I) He Ev) as (Hf2 & Hm & Ho & Hv & Hb).
    rewrite (inv_disabled _ _ _ _ _ _ _ I) in Hb.
    match goal with |- context [on && ?x] => set (v := x) in * end.
    assert (Hbv : on = true -> b = v) by (intros ->; cbn [negb] in Hb; unfold v; rewrite <- (v_defines _ _ _ _ _ _ _ I); exact Hb).
    assert (I3 : inv w (on && v) st (ifdef_new (last_input_loc s2) b :: ifd) [] rest (push_ifdef (ifdef_new (last_input_loc s2) b) s2)).
    { unfold same in Hm. decompose [and] Hm. destruct I. unfold push_ifdef. constructor; cbn [stack output docs_in defines env_file include_locations multiple_locations ifdef_stack set_ifdefs]; try congruence; [exact Hf2 | apply ON; assumption]. }
    destruct (yield_post _ _ _ _ _ _ _ _ I3 Hact) as (A & B & C). split; [exact A|]. split; [exact B|]. exists (last_input_loc s2), b. split; [exact Hbv | exact C].
Qed.

Lemma pop_inv : forall w on1 on st i ifd ts rest s, inv w on1 st (i :: ifd) ts rest s -> off ifd = negb on ->
  exists s2, pop_ifdef s = (Some i, s2) /\ inv w on st ifd ts rest s2.
Proof using Type.
  intros w on1 on st i ifd ts rest s [] Ho. unfold pop_ifdef. rewrite v_ifdefs0. eexists. split; [reflexivity|]. constructor; assumption || reflexivity.
Qed.
Lemma endif_line : forall w on1 on st i ifd line rest s, is_endif line -> inv w on1 st (i :: ifd) line rest s -> off ifd = negb on ->
  leads s (post w on st ifd rest []).
Proof using Type.
  intros w on1 on st i ifd line rest s (w0 & Ht) I Ho. apply toks_cons in Ht. destruct Ht as (l0 & t0 & -> & Ht). apply toks_cons in Ht. destruct Ht as (l1 & t1 & -> & Ht).
  apply toks_cons in Ht. destruct Ht as (l2 & t2 & -> & Ht). destruct t2; [|discriminate].
  eapply leads_bind.
  - eapply (leads_directive _ _ _ _ _ _ _ _ _ _ _ (fun o s1 => whole o /\ lines_of o = [] /\ inv w on st ifd [(l2, nl)] rest s1)); [exact I|]. clear s I. intros fuel s sx I Hact.
    unfold act in Hact. change (directive (lit "endif")) with DEndif in Hact. destruct (pop_inv _ _ _ _ _ _ _ _ _ I Ho) as (s2 & E2 & I2). rewrite E2 in Hact.
    apply (yield_post _ _ _ _ _ _ _ _ I2 Hact).
  - cbv beta. intros o s1 (A & B & C). apply (post_app w on st ifd rest [] [] o s1 A B). apply (leads_newline l2). exact C.
Qed.
Lemma else_line : forall w on1 on st i ifd line rest s, is_else line -> inv w on1 st (i :: ifd) line rest s -> off ifd = negb on ->
  leads s (fun o s1 => whole o /\ lines_of o = [] /\ exists i', inv w (on && negb (i_chain i)) st (i' :: ifd) [] rest s1).
Proof using Type.
  intros w on1 on st i ifd line rest s (w0 & Ht) I Ho. apply toks_cons in Ht. destruct Ht as (l0 & t0 & -> & Ht). apply toks_cons in Ht. destruct Ht as (l1 & t1 & -> & Ht).
  apply toks_cons in Ht. destruct Ht as (l2 & t2 & -> & Ht). destruct t2; [|discriminate].
  eapply leads_bind.
  - eapply (leads_directive _ _ _ _ _ _ _ _ _ _ _ (fun o s1 => whole o /\ lines_of o = [] /\ exists i', inv w (on && negb (i_chain i)) st (i' :: ifd) [(l2, nl)] rest s1)); [exact I|]. clear s I. intros fuel s sx I Hact.
    unfold act in Hact. change (directive (lit "else")) with DElse in Hact. destruct (pop_inv _ _ _ _ _ _ _ _ _ I Ho) as (s2 & E2 & I2). rewrite E2 in Hact.
    assert (I3 : inv w (on && negb (i_chain i)) st (ifdef_else i (last_input_loc s2) :: ifd) [(l2, nl)] rest (push_ifdef (ifdef_else i (last_input_loc s2)) s2)).
    { destruct I2. unfold push_ifdef. constructor; try assumption; [cbn [ifdef_stack set_ifdefs]; congruence|]. unfold off. cbn [existsb ifdef_else i_active]. fold (off ifd). rewrite Ho. destruct on, (i_chain i); reflexivity. }
    destruct (yield_post _ _ _ _ _ _ _ _ I3 Hact) as (A & B & C). split; [exact A|]. split; [exact B|]. eexists. exact C.
  - cbv beta. intros o s1 (A & B & i' & C). eapply leads_weaken; [apply (leads_newline l2 _ _ _ _ _ _ C)|]. intros o2 s2 (A2 & B2 & C2).
    split; [apply whole_app; assumption|]. split; [rewrite lines_app by exact A; rewrite B, B2; reflexivity|]. exists i'. exact C2.
Qed.
Lemma elif_line : forall w on1 on st i ifd line c v rest s, is_elif line c -> holds W w st (IfTrue c) v -> inv w on1 st (i :: ifd) line rest s -> off ifd = negb on ->
  leads s (fun o s1 => whole o /\ lines_of o = [] /\ exists i', inv w (on && negb (i_chain i) && v) st (i' :: ifd) [] rest s1 /\ (on = true -> i_chain i' = i_chain i || v)).
Proof using Type.
  intros w on1 on st i ifd line c v rest s (l0 & l1 & l2 & w0 & -> & Hc) Hh I Ho. inversion Hh as [|n'|c' o He]; subst. clear Hh.
  eapply leads_directive; [exact I|]. clear s I. intros fuel s sx I Hact. unfold act in Hact. change (directive (lit "elif")) with DElif in Hact.
  destruct (pop_inv _ _ _ _ _ _ _ _ _ I Ho) as (s1 & E1 & I1). rewrite E1 in Hact.
  destruct (evaluate W (pump W fuel) s1) as [[b s2]| |] eqn:Ev; try discriminate. cbn [bind] in Hact.
  pose proof (v_flat _ _ _ _ _ _ _ I1) as Hf. rewrite src_app, <- app_assoc, src_lift in Hf. cbn [src map app] in Hf.
  rewrite <- (v_defines _ _ _ _ _ _ _ I1) in He.
  destruct (eval_cond W s1 (file w) (depth w) c o _ l2 rest fuel b s2 Hf (v_docs _ _ _ _ _ _ _ I1) (v_output _ _ _ _ _ _ _ I1) He Ev) as (Hf2 & Hm & Hou & Hv & Hb).
  rewrite (inv_disabled _ _ _ _ _ _ _ I1) in Hb.
  match goal with |- context [on && negb (i_chain i) && ?x] => set (v := x) in * end.
  assert (Hbv : on = true -> b = v) by (intros ->; cbn [negb] in Hb; unfold v; rewrite <- (v_defines _ _ _ _ _ _ _ I1); exact Hb).
  assert (I3 : inv w (on && negb (i_chain i) && v) st (ifdef_else_if i (last_input_loc s2) b :: ifd) [] rest (push_ifdef (ifdef_else_if i (last_input_loc s2) b) s2)).
  { unfold same in Hm. decompose [and] Hm. destruct I1. unfold push_ifdef. constructor; cbn [stack output docs_in defines env_file include_locations multiple_locations ifdef_stack set_ifdefs]; try congruence; [exact Hf2|].
    unfold off. cbn [existsb ifdef_else_if i_active]. fold (off ifd). rewrite Ho. destruct on; [rewrite (Hbv eq_refl); destruct (i_chain i), v; reflexivity|]. cbn [negb andb]. apply orb_true_r. }
  destruct (yield_post _ _ _ _ _ _ _ _ I3 Hact) as (A & B & C). split; [exact A|]. split; [exact B|]. eexists. split; [exact C|].
  intro Hon. cbn [ifdef_else_if i_chain]. rewrite (Hbv Hon). reflexivity.
Qed.

(** *** Lines that are switched off *)
Lemma skip_line_inv : forall w on st ifd rest ts, forall k s body, toks ts = body ++ [nl] -> ~ In nl body -> inv w on st ifd ts rest s ->
  exists s', skip_line (List.length ts + k) s = Some (true, s') /\ inv w on st ifd [] rest s'.
Proof using Type.
  intros w on st ifd rest ts. induction ts as [|[l t] ts IH]; intros k s body Hb Hn I; [destruct body; discriminate|].
  destruct (inner_inv _ _ _ _ _ _ _ _ _ I) as (s1 & E1 & I1 & _). cbn [List.length Nat.add skip_line]. rewrite E1.
  destruct body as [|b body]; cbn [app toks map snd] in Hb; injection Hb as -> Hb.
  - apply map_eq_nil in Hb. subst ts. exists s1. split; [reflexivity | exact I1].
  - destruct (IH k s1 body Hb ltac:(intro C; apply Hn; right; exact C) I1) as (s' & E & I'). exists s'. split; [|exact I'].
    rewrite <- E. destruct b; try reflexivity. destruct p; try reflexivity. elim Hn. left. reflexivity.
Qed.
Lemma off_line : forall w st ifd line rest s, dead_line line -> inv w false st ifd line rest s -> leads s (post w false st ifd rest []).
Proof using Type.
  intros w st ifd line rest s [(body & Hb & _ & Hh)|(w0 & n & body & Ht & Hn & Hd)] I.
  - apply leads_dead with (ts := line); [exact I|]. rewrite Hb. intro C. apply in_app_or in C. destruct C as [C|[C|[]]]; [exact (Hh C) | discriminate C].
  - apply toks_cons in Ht. destruct Ht as (l0 & t0 & -> & Ht). apply toks_cons in Ht. destruct Ht as (l1 & t1 & -> & Ht).
    destruct Hd as [->|[Hin Hh]].
    + eapply leads_directive; [exact I|]. clear s I. intros fuel s sx I Hact. unfold act in Hact. change (directive (lit "define")) with DDefine in Hact. cbn [negb] in Hact.
      rewrite (inv_available _ _ _ _ _ _ _ I) in Hact. replace (S (List.length t1 + List.length rest)) with (List.length t1 + S (List.length rest)) in Hact by lia.
      destruct (skip_line_inv _ _ _ _ _ _ (S (List.length rest)) _ _ Ht Hn I) as (s' & E & I'). rewrite E in Hact. apply (yield_post _ _ _ _ _ _ _ _ I' Hact).
    + eapply leads_bind.
      * eapply (leads_directive _ _ _ _ _ _ _ _ _ _ _ (fun o s1 => whole o /\ lines_of o = [] /\ inv w false st ifd t1 rest s1)); [exact I|]. clear s I. intros fuel s sx I Hact.
        apply (yield_post _ _ _ _ _ _ _ _ I). rewrite <- Hact. unfold act.
        repeat (destruct Hin as [<-|Hin]; [reflexivity|]). destruct Hin.
      * cbv beta. intros o s1 (A & B & C). apply (post_app w false st ifd rest [] [] o s1 A B). apply (leads_dead t1); [exact C|].
        rewrite Ht. intro D. apply in_app_or in D. destruct D as [D|[D|[]]]; [exact (Hh D) | discriminate D].
Qed.

(** *** Lines after one another *)
Lemma seq : forall w on st1 ifd b rest ls1 on2 st2 ifd2 ls2 s,
  leads s (post w on st1 ifd (src w b ++ rest) ls1) -> (forall s1, inv w on st1 ifd b rest s1 -> leads s1 (post w on2 st2 ifd2 rest ls2)) ->
  leads s (post w on2 st2 ifd2 rest (ls1 ++ ls2)).
Proof using Type.
  intros w on st1 ifd b rest ls1 on2 st2 ifd2 ls2 s H1 H2. eapply leads_bind; [exact H1|]. intros o s1 (A & B & C).
  apply post_app; [exact A | exact B|]. apply H2, inv_shift, C.
Qed.
(** the place matters only as long as there are tokens of its file *)
Lemma inv_place : forall w w' on st ifd rest s, env w = env w' -> inv w on st ifd [] rest s -> inv w' on st ifd [] rest s.
Proof using Type. intros w w' on st ifd rest s E []. constructor; try assumption. congruence. Qed.

Lemma include_line : forall w st ifd line path q content rest s, including line path -> finds W w path (Some q) -> w_type W q = FDm -> w_open W q = Some content -> ~ In (w_file_id W q) (included st) ->
  inv w true st ifd line rest s ->
  leads s (fun o s1 => whole o /\ lines_of o = [] /\
    inv {| depth := S (depth w); file := q; env := env w |} true {| macros := macros st; included := w_file_id W q :: included st |} ifd content rest s1).
Proof using Type.
  intros w st ifd line path q content rest s Hi Hf Hty Ho Hn I. eapply include_act; [exact Hi | exact I|]. intros s2 c1 c2 I2 D2 T2 J1 J2. cbv zeta.
  rewrite (found _ _ _ _ _ s2 Hf J1 J2). unfold include_candidate. rewrite Hty. unfold include_file. rewrite Ho.
  assert (En : loc_of (include_locations s2) (w_file_id W q) = None) by (apply loc_of_In; rewrite (v_included _ _ _ _ _ _ _ I2); exact Hn).
  rewrite En. destruct I2. unfold push_output. cbn [output set_stack set_output set_include_locations stack]. rewrite v_output0. cbn [app].
  split; [apply whole_nl|]. split; [reflexivity|]. constructor; try assumption || reflexivity.
  - cbn [stack set_output set_stack]. cbn [flat own List.length top_file]. unfold src. cbn [depth file]. rewrite D2. f_equal. exact v_flat0.
  - cbn [include_locations set_output set_stack set_include_locations map fst included]. f_equal. exact v_included0.
Qed.
Lemma include_again_line : forall w st ifd line path q content rest s, including line path -> finds W w path (Some q) -> w_type W q = FDm -> w_open W q = Some content -> In (w_file_id W q) (included st) ->
  inv w true st ifd line rest s -> leads s (post w true st ifd rest []).
Proof using Type.
  intros w st ifd line path q content rest s Hi Hf Hty Ho Hn I. eapply include_act; [exact Hi | exact I|]. intros s2 c1 c2 I2 D2 T2 J1 J2. cbv zeta.
  rewrite (found _ _ _ _ _ s2 Hf J1 J2). unfold include_candidate. rewrite Hty. unfold include_file. rewrite Ho, (v_multiple _ _ _ _ _ _ _ I2).
  destruct (loc_of (include_locations s2) (w_file_id W q)) eqn:En; [apply no_output_post, inv_register, I2|].
  apply loc_of_In in En. rewrite (v_included _ _ _ _ _ _ _ I2) in En. elim (En Hn).
Qed.
Lemma include_other_line : forall w st ifd line path q rest s, including line path -> finds W w path (Some q) -> w_type W q <> FDm ->
  inv w true st ifd line rest s -> leads s (post w true st ifd rest []).
Proof using Type.
  intros w st ifd line path q rest s Hi Hf Hty I. eapply include_act; [exact Hi | exact I|]. intros s2 c1 c2 I2 D2 T2 J1 J2. cbv zeta.
  rewrite (found _ _ _ _ _ s2 Hf J1 J2). unfold include_candidate. destruct (w_type W q); try (elim Hty; reflexivity); apply no_output_post; apply inv_register || apply inv_resources; exact I2.
Qed.
Lemma include_missing_line : forall w st ifd line path rest s, including line path -> finds W w path None ->
  inv w true st ifd line rest s -> leads s (post w true st ifd rest []).
Proof using Type.
  intros w st ifd line path rest s Hi Hf I. eapply include_act; [exact Hi | exact I|]. intros s2 c1 c2 I2 D2 T2 J1 J2. cbv zeta.
  rewrite (found _ _ _ _ _ s2 Hf J1 J2). apply no_output_post, inv_register, I2.
Qed.

Scheme means_ind2 := Minimality for means Sort Prop
  with others_ind2 := Minimality for others Sort Prop.
Combined Scheme means_others_ind from means_ind2, others_ind2.

Definition meaning_of (w : @place P) (on : bool) (st : @world_state F) (prog : items) (st' : @world_state F) (ls : list (list ltok)) : Prop :=
  forall ifd rest s, inv w on st ifd (spell prog) rest s -> leads s (post w on st' ifd rest ls).
Definition meaning_of_others (w : @place P) (on taken : bool) (st : @world_state F) (a : alts) (st' : @world_state F) (ls : list (list ltok)) : Prop :=
  forall i ifd on1 rest s, inv w on1 st (i :: ifd) (spell_alts a) rest s -> off ifd = negb on -> (on = true -> i_chain i = taken) -> leads s (post w on st' ifd rest ls).

Lemma meaning : (forall w on st prog st' ls, means W w on st prog st' ls -> meaning_of w on st prog st' ls) /\
  (forall w on taken st a st' ls, others W w on taken st a st' ls -> meaning_of_others w on taken st a st' ls).
Proof using Type.
  apply means_others_ind.
  - (* nil *) intros w on st ifd rest s I. apply leads_ret. split; [left; reflexivity|]. split; [reflexivity | exact I].
  - (* text *) intros w st line o rest st' ls Ht He _ IH ifd R s I. cbn [spell] in I. apply inv_split in I.
    eapply seq; [apply (text_line _ _ _ _ _ _ _ Ht He I)|]. intros s1 I1. apply (IH _ _ _ I1).
  - (* define *) intros w st line l n d rest st' ls Hd Hn _ IH ifd R s I. cbn [spell] in I. apply inv_split in I.
    apply (seq _ _ _ _ _ _ [] _ _ _ ls _ (define_line _ _ _ _ _ _ _ _ _ Hd Hn I)). intros s1 I1. apply (IH _ _ _ I1).
  - (* undef *) intros w st line n rest st' ls Hu _ IH ifd R s I. cbn [spell] in I. apply inv_split in I.
    apply (seq _ _ _ _ _ _ [] _ _ _ ls _ (undef_line _ _ _ _ _ _ _ Hu I)). intros s1 I1. apply (IH _ _ _ I1).
  - (* include *) intros w st line path q content st1 ls1 rest st' ls Hi Hf Hty Ho Hn _ IH1 _ IH2 ifd R s I. cbn [spell] in I. apply inv_split in I.
    eapply seq; [|intros s1 I1; apply (IH2 _ _ _ I1)].
    eapply leads_bind; [apply (include_line _ _ _ _ _ _ _ _ _ Hi Hf Hty Ho Hn I)|]. cbv beta. intros o s1 (A & B & C).
    apply (post_app w true st1 ifd _ [] ls1 o s1 A B). eapply leads_weaken; [apply (IH1 _ _ _ C)|]. intros o2 s2 (A2 & B2 & C2). split; [exact A2|]. split; [exact B2|].
    eapply inv_place; [|exact C2]. reflexivity.
  - (* again *) intros w st line path q content rest st' ls Hi Hf Hty Ho Hn _ IH ifd R s I. cbn [spell] in I. apply inv_split in I.
    apply (seq _ _ _ _ _ _ [] _ _ _ ls _ (include_again_line _ _ _ _ _ _ _ _ _ Hi Hf Hty Ho Hn I)). intros s1 I1. apply (IH _ _ _ I1).
  - (* other *) intros w st line path q rest st' ls Hi Hf Hty _ IH ifd R s I. cbn [spell] in I. apply inv_split in I.
    apply (seq _ _ _ _ _ _ [] _ _ _ ls _ (include_other_line _ _ _ _ _ _ _ _ Hi Hf Hty I)). intros s1 I1. apply (IH _ _ _ I1).
  - (* missing *) intros w st line path rest st' ls Hi Hf _ IH ifd R s I. cbn [spell] in I. apply inv_split in I.
    apply (seq _ _ _ _ _ _ [] _ _ _ ls _ (include_missing_line _ _ _ _ _ _ _ Hi Hf I)). intros s1 I1. apply (IH _ _ _ I1).
  - (* dead *) intros w st line rest st' ls Hd _ IH ifd R s I. cbn [spell] in I. apply inv_split in I.
    apply (seq _ _ _ _ _ _ [] _ _ _ ls _ (off_line _ _ _ _ _ _ Hd I)). intros s1 I1. apply (IH _ _ _ I1).
  - (* conditional *) intros w on st line t v body a rest st1 ls1 st2 ls2 st3 ls3 Ho Hh _ IH1 _ IH2 _ IH3 ifd R s I.
    cbn [spell] in I. pose proof (v_on _ _ _ _ _ _ _ I) as Hon. apply inv_split in I.
    eapply leads_bind; [apply (open_line _ _ _ _ _ _ _ _ _ Ho Hh I)|]. cbv beta. intros o s1 (A & B & l & b & Hb & C).
    apply (post_app w on st3 ifd R [] (ls1 ++ ls2 ++ ls3) o s1 A B). apply inv_shift in C. apply inv_split in C.
    eapply seq; [apply (IH1 _ _ _ C)|]. clear s I o s1 A B C. intros s I. apply inv_split in I.
    eapply seq; [apply (IH2 _ _ _ _ _ I Hon); intro E; apply (Hb E)|]. clear s I. intros s I. apply (IH3 _ _ _ I).
  - (* endif *) intros w on taken st line He i ifd on1 R s I Hon Hc. apply (endif_line _ _ _ _ _ _ _ _ _ He I Hon).
  - (* else *) intros w on taken st line body e st' ls Hel He _ IH i ifd on1 R s I Hon Hc. cbn [spell_alts] in I. apply inv_split in I.
    eapply leads_bind; [apply (else_line _ _ _ _ _ _ _ _ _ Hel I Hon)|]. cbv beta. intros o s1 (A & B & i' & C).
    apply (post_app w on st' ifd R [] ls o s1 A B). apply inv_shift in C. apply inv_split in C.
    assert (E : on && negb (i_chain i) = on && negb taken) by (destruct on; [rewrite Hc; reflexivity | reflexivity]). rewrite E in C.
    rewrite <- (app_nil_r ls). eapply seq; [apply (IH _ _ _ C)|]. clear s I o s1 A B C. intros s I. apply (endif_line _ _ _ _ _ _ _ _ _ He I Hon).
  - (* elif *) intros w on taken st line c v body a st1 ls1 st2 ls2 Hel Hh _ IH1 _ IH2 i ifd on1 R s I Hon Hc. cbn [spell_alts] in I. apply inv_split in I.
    eapply leads_bind; [apply (elif_line _ _ _ _ _ _ _ _ _ _ _ Hel Hh I Hon)|]. cbv beta. intros o s1 (A & B & i' & C & Hi').
    apply (post_app w on st2 ifd R [] (ls1 ++ ls2) o s1 A B). apply inv_shift in C. apply inv_split in C.
    assert (E : on && negb (i_chain i) = on && negb taken) by (destruct on; [rewrite Hc; reflexivity | reflexivity]). rewrite E in C.
    eapply seq; [apply (IH1 _ _ _ C)|]. clear s I o s1 A B C. intros s I. apply (IH2 _ _ _ _ _ I Hon). intro Ht. rewrite (Hi' Ht), (Hc Ht). reflexivity.
Qed.

Lemma trace_end : forall w on st s ts sN, inv w on st [] [] [] s -> trace W s ts sN -> ts = [] /\ defines sN = macros st /\ ifdef_stack sN = [] /\ map fst (include_locations sN) = included st.
Proof using Type.
  intros w on st s ts sN [] H. cbn [src map app] in v_flat0. inversion H as [s0 s1 En|s0 l t s1 fuel s2 ts2 s' En Hr Ht]; subst.
  - unfold inner_next in En. rewrite (next_flat_nil _ v_flat0) in En. injection En as <-. cbn [ifdef_stack set_stack]. rewrite v_ifdefs0. cbn [List.length close_ifdefs].
    split; [reflexivity|]. split; [exact v_defines0|]. split; [exact v_ifdefs0 | exact v_included0].
  - unfold inner_next in En. rewrite (next_flat_nil _ v_flat0) in En. discriminate.
Qed.
Lemma inv_init : forall env prog st0 l0, included st0 = [] ->
  inv {| depth := 1; file := env; env := env |} true st0 [] prog [] (init env prog (macros st0) l0).
Proof using Type.
  intros env prog st0 l0 E. constructor; try reflexivity. symmetry. exact E.
Qed.
End C39.

(** C39: whatever [Preprocessor] yields for an environment file is what its lines mean: of every conditional only the lines
    of the first part whose condition holds take effect, at any nesting, and the rest - text, definitions, includes -
    has none; an included file takes effect in place of the #include, once; the macros in force at the end are those that
    the live #define and #undef lines leave. *)
Theorem C39_conditional : forall (F P : Type) (W : @world F P) env prog st0 st1 lines l0 fuel ts s',
  included st0 = [] ->
  means W {| depth := 1; file := env; env := env |} true st0 prog st1 lines ->
  run W fuel (init env (spell prog) (macros st0) l0) = Ok (ts, s') ->
  lines_of ts = lines /\ defines s' = macros st1 /\ map fst (include_locations s') = included st1 /\ ifdef_stack s' = [].
Proof.
  intros F P W env prog st0 st1 lines l0 fuel ts s' Hi Hm Hr. apply run_trace in Hr. destruct Hr as (ts' & -> & Ht). cbn [init output app] in *.
  pose proof (inv_init env (spell prog) st0 l0 Hi) as I.
  destruct (proj1 (meaning W) _ _ _ _ _ _ Hm [] [] _ I ts' s') as (o & s1 & ts2 & -> & Ht2 & Hw & Hl & I1); [exact Ht|].
  destruct (trace_end W _ _ _ _ _ _ I1 Ht2) as (-> & A & B & C). rewrite app_nil_r. split; [exact Hl|]. split; [exact A|]. split; [exact C | exact B].
Qed.

(** C40: the tokens that come out for a text without directives are exactly its expansion: macros are replaced wherever they
    occur, also in what replaces other macros, up to the limit of depth; arguments are split at the commas outside
    parentheses and pasted in for the parameters. *)
Theorem C40_expansion : forall (F P : Type) (W : @world F P) env text macros l0 fuel ts s' out,
  expands W false (w_display_path W env) macros [] (map (pair 1) text) out ->
  run W fuel (init env text macros l0) = Ok (ts, s') ->
  ts = out /\ defines s' = macros.
Proof.
  intros F P W env text macros l0 fuel ts s' out He Hr. apply run_trace in Hr. destruct Hr as (ts' & -> & Ht). cbn [init output app] in *.
  set (s0 := init env text macros l0) in *. change (trace W s0 ts' s') in Ht.
  destruct (expands_chain W false _ _ _ _ _ He env s0 []) as (s1 & Hc & Hf1 & Hm & _ & Ho).
  { rewrite app_nil_r. unfold lift. rewrite map_map. cbn [s0 init stack flat own List.length top_file]. rewrite app_nil_r. reflexivity. }
  { split; [reflexivity|]. intros _. split; reflexivity. } { reflexivity. } { reflexivity. } { discriminate. }
  destruct (chain_leads W _ _ _ Hc eq_refl ts' s' Ht) as (o & s2 & ts2 & -> & Ht2 & -> & ->).
  assert (I : inv {| depth := 1; file := env; env := env |} true {| Spec.macros := macros; included := [] |} [] [] [] s1).
  { unfold same in Hm. decompose [and] Hm. constructor; try exact Hf1; try (apply Ho; reflexivity); try (match goal with |- ?x = _ => match goal with E : x = _ |- _ => rewrite E; reflexivity end end).
    - rewrite H1. reflexivity.
    - reflexivity. }
  destruct (trace_end W _ _ _ _ _ _ I Ht2) as (-> & A & B & C). rewrite app_nil_r. split; [reflexivity | exact A].
Qed.
Print Assumptions C39_conditional.
Print Assumptions C40_expansion.
