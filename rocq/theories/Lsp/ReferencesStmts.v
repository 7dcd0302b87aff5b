(** C73: the references of the language server, in the code of procedures. *)
From Coq Require Import List Arith NArith ZArith Bool String Relations Lia.
From Verif Require Import Common.Text Objtree.Ispath Objtree.Model Objtree.Lemmas Objtree.Spec Objtree.Wf Objtree.Assign Objtree.Paths Parse.Ast Stmt.Ast.
From Verif Require Import Checker.CallTree Checker.Kwargs Checker.TypeExpr Checker.Exprs Checker.ExprsSpec Checker.Stmts Checker.StmtsSpec Checker.StmtsProps Lsp.References Lsp.ReferencesProps Lsp.ReferencesSpec.
Import ListNotations.
Open Scope nat_scope.

Section C73.
Variables F V D : Type.
Notation stmt := (stmt F). Notation expr := (expr F). Notation vardecl := (vardecl F). Notation case := (case F). Notation spot := (spot F). Notation use := (use F). Notation walk := (walk F).
Variable t : objtree V D.
Variable vars : nat -> list (text * rvar F).
Hypothesis TD : tidy V D t.
Hypothesis AC : acyclic t.
Notation size := (List.length (graph t)).
Notation list_type := (expect t "/list").
Notation written := (written V D t).
Notation stype := (stype t).
Section PROC.
Variable self : procref.
Notation self_type := (pr_ty self).
Notation declared := (ReferencesSpec.declared V D t self).
Notation all_declared := (ReferencesSpec.all_declared V D t self).
Notation decls := (ReferencesSpec.decls F).
Notation block_decls := (ReferencesSpec.block_decls F).
Notation part_decls := (ReferencesSpec.part_decls F).
Notation arms_decls := (ReferencesSpec.arms_decls F).
Notation maybe := (ReferencesSpec.maybe).
Notation of_var := (ReferencesSpec.of_var F).
Notation item := (ReferencesSpec.item F).
Notation inside := (ReferencesSpec.inside F V D t self).
Notation within := (ReferencesSpec.within F V D t self).
Notation introduces := (ReferencesSpec.introduces F V D t self).
Notation item_uses := (ReferencesSpec.item_uses F V D t vars self).
Notation block_uses := (ReferencesSpec.block_uses F V D t vars self).
Notation expr_uses := (ReferencesSpec.expr_uses F V D t vars self_type (Some self)).
Notation look := (look t vars self).
Notation look_option := (look_option t vars self).
Notation visit_var := (visit_var t vars self).
Notation visit_decl := (visit_decl t vars self).
Notation visit_decls := (visit_decls t vars self).
Notation visit_typed := (visit_typed t vars self).
Notation visit_caught := (visit_caught t vars self).
Notation visit_stmt := (visit_stmt t vars self).
Notation block := (run_block visit_stmt).
Notation run_arms := (run_arms t vars self visit_stmt).
Notation run_cases := (run_cases t vars self visit_stmt).

(** ** The variables that there are *)
Definition add (l : scope) (d : decl) : scope := bind self l (fst d) (stype (snd d)).
Definition adds (l : scope) (ds : list decl) : scope := fold_left add ds l.
Lemma adds_app l d1 d2 : adds l (d1 ++ d2) = adds (adds l d1) d2.
Proof using Type. apply fold_left_app. Qed.
Lemma declared_iff l d l' : declared l d l' <-> add l d = l'.
Proof using TD.
  destruct d as [x path]. unfold add, bind. cbn [fst snd]. split.
  - intros H. remember (x, path) as d eqn:Ed. destruct H as [y q s W]. injection Ed as -> ->. apply (written_iff V D t TD) in W. rewrite W. reflexivity.
  - intros <-. constructor. apply (written_is V D t TD).
Qed.
Lemma all_iff l ds l' : all_declared l ds l' <-> adds l ds = l'.
Proof using TD.
  split.
  - induction 1 as [l|l d l1 ds l2 H _ IH]; [reflexivity|]. apply declared_iff in H. subst l1. exact IH.
  - revert l. induction ds as [|d ds IH]; intros l; cbn [adds fold_left]; [intros <-; constructor|]. intro H. econstructor; [apply declared_iff; reflexivity|apply IH; exact H].
Qed.
Lemma all_is l ds : all_declared l ds (adds l ds).
Proof using TD. apply all_iff. reflexivity. Qed.
Lemma var_scope at_ l path x o : fst (visit_var at_ l path x o) = add l (x, path).
Proof using Type. reflexivity. Qed.
Lemma decls_scope at_ (ds : list vardecl) : forall l, fst (visit_decls at_ l ds) = adds l (map of_var ds).
Proof using Type.
  induction ds as [|d ds IH]; intro l; [reflexivity|]. cbn [References.visit_decls map adds fold_left]. specialize (IH (fst (visit_decl at_ l d))). destruct (visit_decl at_ l d) as [l1 u1] eqn:E. cbn [fst] in IH.
  destruct (visit_decls at_ l1 ds) as [l2 u2]. cbn [fst] in *. rewrite IH. apply (f_equal fst) in E. cbn [fst] in E. rewrite <- E. reflexivity.
Qed.
Lemma typed_scope at_ l ty x (o : option expr) : fst (visit_typed at_ l ty x o) = adds l (maybe ty x).
Proof using Type. destruct ty as [ty|]; reflexivity. Qed.
Lemma caught_scope at_ (ps : list (list text)) : forall l, fst (visit_caught at_ l ps) = adds l (catch_decls ps).
Proof using Type.
  induction ps as [|p ps IH]; intro l; [reflexivity|]. cbn [References.visit_caught]. unfold catch_decls. cbn [flat_map]. destruct (caught p) as [[x path]|]; [|exact (IH l)]. cbn [app adds fold_left].
  specialize (IH (fst (visit_var at_ l path x None))). destruct (visit_var at_ l path x None) as [l1 u1] eqn:E. cbn [fst] in IH. destruct (visit_caught at_ l1 ps) as [l2 u2]. cbn [fst] in *. rewrite IH. apply (f_equal fst) in E. cbn [fst] in E. rewrite <- E. reflexivity.
Qed.
(** one step of the walk *)
Definition maybe_stmt (l : scope) (o : option stmt) : walk := match o with Some s => visit_stmt l s | None => (l, []) end.
Definition body (l : scope) (s : stmt) : walk :=
  let at_ := AtStmt s in
  match s with
  | Expr e | Throw e | Del e => (l, look l None e)
  | Return o => (l, match get (lit ".") l with Some (_, dot) => [(dot, at_)] | None => [] end ++ look_option l o)
  | While c b => (fst (block l b), look l None c ++ snd (block l b))
  | DoWhile b c => (fst (block l b), snd (block l b) ++ look (fst (block l b)) None c)
  | If arms els => let r1 := run_arms l arms in let r2 := run_option visit_stmt (fst r1) els in (fst r2, snd r1 ++ snd r2)
  | ForInfinite b => block l b
  | ForLoop init test inc b =>
      let r1 := maybe_stmt l init in let r3 := maybe_stmt (fst r1) inc in
      let r4 := block (fst r3) b in (fst r4, snd r1 ++ look_option (fst r1) test ++ snd r3 ++ snd r4)
  | ForList ty x _ o b => let r1 := visit_typed at_ l ty x None in let r2 := block (fst r1) b in (fst r2, look_option l o ++ snd r1 ++ snd r2)
  | ForRange ty x start end_ step b =>
      let r1 := visit_typed at_ l ty x (Some start) in let r2 := block (fst r1) b in (fst r2, look l None end_ ++ look_option l step ++ snd r1 ++ snd r2)
  | ForKeyValue ty key _ value o b =>
      let r1 := visit_typed at_ l ty key None in let r2 := visit_var at_ (fst r1) [] value None in let r3 := block (fst r2) b in (fst r3, look_option l o ++ snd r1 ++ snd r2 ++ snd r3)
  | Var d => visit_decl at_ l d
  | Vars ds => visit_decls at_ l ds
  | Spawn delay b => (fst (block l b), look_option l delay ++ snd (block l b))
  | Switch input cases default => let r1 := run_cases l cases in let r2 := run_option visit_stmt (fst r1) default in (fst r2, look l None input ++ snd r1 ++ snd r2)
  | TryCatch b params handler =>
      let r1 := block l b in let r2 := visit_caught at_ (fst r1) params in let r3 := block (fst r2) handler in (fst r3, snd r1 ++ snd r2 ++ snd r3)
  | Label _ b => block l b
  | Setting _ _ _ | Continue _ | Break _ | Goto _ | Crash _ => (l, [])
  end.
Ltac open_pairs := repeat match goal with |- context [let '(_, _) := ?x in _] => destruct x as [? ?]; cbn [fst snd] end.
Lemma step l s : visit_stmt l s = body l s.
Proof using Type.
  destruct s as [e|o|e|c b|b c|arms els|b|init test inc b|ty x it o b|ty k it v o b|ty x a e st b|d|ds|x m v|d b|e cs d|b ps h|x|x|x|x b|e|e]; cbn [References.visit_stmt body]; cbv zeta; unfold maybe_stmt; try reflexivity; open_pairs; reflexivity.
Qed.
Definition settles (s : stmt) : Prop := forall l, fst (visit_stmt l s) = adds l (decls s).
Lemma block_scope b : (forall s, In s b -> settles s) -> forall l, fst (block l b) = adds l (block_decls b).
Proof using Type.
  induction b as [|s b IH]; intros H l; [reflexivity|]. cbn [run_block]. unfold ReferencesSpec.block_decls. cbn [flat_map]. rewrite adds_app, <- (H s (or_introl eq_refl) l).
  specialize (IH (fun s' Hs => H s' (or_intror Hs)) (fst (visit_stmt l s))). destruct (visit_stmt l s) as [l1 u1]. cbn [fst] in *. destruct (block l1 b) as [l2 u2]. exact IH.
Qed.
Lemma option_scope o : (forall b s, o = Some b -> In s b -> settles s) -> forall l, fst (run_option visit_stmt l o) = adds l (block_decls (block_of F o)).
Proof using Type. destruct o as [b|]; intros H l; [|reflexivity]. apply block_scope. intros s Hs. exact (H b s eq_refl Hs). Qed.
Lemma arms_scope arms : (forall c b s, In (c, b) arms -> In s b -> settles s) -> forall l, fst (run_arms l arms) = adds l (arms_decls arms).
Proof using Type.
  induction arms as [|[c b] arms IH]; intros H l; [reflexivity|]. cbn [References.run_arms]. unfold ReferencesSpec.arms_decls. cbn [flat_map snd]. rewrite adds_app, <- (block_scope b (fun s => H c b s (or_introl eq_refl)) l).
  specialize (IH (fun c' b' s Ha => H c' b' s (or_intror Ha)) (fst (block l b))). destruct (block l b) as [l1 u1]. cbn [fst] in *. destruct (run_arms l1 arms) as [l2 u2]. exact IH.
Qed.
Lemma cases_scope cases : (forall c b s, In (c, b) cases -> In s b -> settles s) -> forall l, fst (run_cases l cases) = adds l (arms_decls cases).
Proof using Type.
  induction cases as [|[c b] arms IH]; intros H l; [reflexivity|]. cbn [References.run_cases]. unfold ReferencesSpec.arms_decls. cbn [flat_map snd]. rewrite adds_app, <- (block_scope b (fun s => H c b s (or_introl eq_refl)) l).
  specialize (IH (fun c' b' s Ha => H c' b' s (or_intror Ha)) (fst (block l b))). destruct (block l b) as [l1 u1]. cbn [fst] in *. destruct (run_cases l1 arms) as [l2 u2]. exact IH.
Qed.
Lemma settled n : forall s, ssize F s < n -> settles s.
Proof using Type.
  induction n as [|n IH]; intros s Hn; [lia|].
  assert (K : forall b, many (ssize F) b < n -> forall l, fst (block l b) = adds l (block_decls b)) by (intros b Hb; apply block_scope; intros s' Hs; apply IH; apply (many_in (ssize F)) in Hs; lia).
  assert (KO : forall o, opt (many (ssize F)) o < n -> forall l, fst (run_option visit_stmt l o) = adds l (block_decls (block_of F o))).
  { intros o Ho. apply option_scope. intros b s' -> Hs. apply IH. rewrite opt_some in Ho. apply (many_in (ssize F)) in Hs. lia. }
  intro l. rewrite step. destruct s as [e|o|e|c b|b c|arms els|b|init test inc b|ty x it o b|ty k it v o b|ty x a e st b|d|ds|x m v|d b|e cs d|b ps h|x|x|x|x b|e|e]; cbn [body ReferencesSpec.decls]; cbv zeta; cbn [fst]; try reflexivity; cbn [ssize] in Hn.
  - rewrite K by lia. reflexivity.
  - rewrite K by lia. reflexivity.
  - rewrite KO by lia. rewrite arms_scope; [|intros c b s' Ha Hs; apply IH; pose proof (kids_arms _ _ arms c b s' Ha Hs); lia]. rewrite adds_app. destruct els; reflexivity.
  - rewrite K by lia. reflexivity.
  - rewrite K by lia. rewrite !adds_app. destruct init as [s1|], inc as [s2|]; cbn [maybe_stmt fst adds fold_left opt] in *; rewrite ?(IH s1), ?(IH s2) by lia; reflexivity.
  - rewrite K by lia. rewrite typed_scope, adds_app. reflexivity.
  - rewrite K by lia. rewrite typed_scope, adds_app. reflexivity.
  - rewrite K by lia. rewrite typed_scope, adds_app. reflexivity.
  - apply decls_scope.
  - rewrite K by lia. reflexivity.
  - rewrite KO by lia. rewrite cases_scope; [|intros c b s' Ha Hs; apply IH; pose proof (kids_arms _ _ cs c b s' Ha Hs); lia]. rewrite adds_app. destruct d; reflexivity.
  - rewrite K by lia. rewrite caught_scope. rewrite K by lia. rewrite !adds_app. reflexivity.
  - rewrite K by lia. reflexivity.
Qed.
Lemma scope_is s : settles s. Proof using Type. apply (settled (S (ssize F s))). lia. Qed.
Lemma maybe_scope l o : fst (maybe_stmt l o) = adds l (part_decls o). Proof using Type. destruct o as [s|]; [apply scope_is|reflexivity]. Qed.
Lemma scope_block l b : fst (block l b) = adds l (block_decls b). Proof using Type. apply block_scope. intros s _. apply scope_is. Qed.

(** ** Parts of the walk *)
Lemma block_in l b (u : use) : In u (snd (block l b)) <-> exists b1 s b2, b = b1 ++ s :: b2 /\ In u (snd (visit_stmt (adds l (block_decls b1)) s)).
Proof using Type.
  revert l. induction b as [|s b IH]; intro l; cbn [run_block].
  - split; [intros []|]. intros (b1 & s & b2 & Q & _). destruct b1; discriminate Q.
  - pose proof (scope_is s l) as Es. destruct (visit_stmt l s) as [l1 u1] eqn:E1. cbn [fst] in Es. specialize (IH l1). destruct (block l1 b) as [l2 u2]. cbn [snd] in IH |- *. rewrite in_app_iff, IH. split.
    + intros [H|(b1 & s' & b2 & -> & H)]; [exists [], s, b; split; [reflexivity|cbn [ReferencesSpec.block_decls flat_map adds fold_left]; rewrite E1; exact H]|].
      exists (s :: b1), s', b2. split; [reflexivity|]. unfold ReferencesSpec.block_decls. cbn [flat_map]. rewrite adds_app, <- Es. exact H.
    + intros (b1 & s' & b2 & Q & H). destruct b1 as [|s1 b1]; injection Q as <- ->.
      * left. cbn [ReferencesSpec.block_decls flat_map adds fold_left] in H. rewrite E1 in H. exact H.
      * right. exists b1, s', b2. split; [reflexivity|]. unfold ReferencesSpec.block_decls in H. cbn [flat_map] in H. rewrite adds_app, <- Es in H. exact H.
Qed.
Lemma arms_in l arms (u : use) : In u (snd (run_arms l arms)) <->
  exists a1 c b a2, arms = a1 ++ (c, b) :: a2 /\ (In u (look (adds l (arms_decls a1)) None c) \/ In u (snd (block (adds l (arms_decls a1)) b))).
Proof using Type.
  revert l. induction arms as [|[c b] arms IH]; intro l; cbn [References.run_arms].
  - split; [intros []|]. intros (a1 & c & b & a2 & Q & _). destruct a1; discriminate Q.
  - pose proof (scope_block l b) as Es. destruct (block l b) as [l1 u1] eqn:E1. cbn [fst] in Es. specialize (IH l1). destruct (run_arms l1 arms) as [l2 u2]. cbn [snd] in IH |- *. rewrite !in_app_iff, IH. split.
    + intros [H|[H|(a1 & c' & b' & a2 & -> & H)]].
      * exists [], c, b, arms. split; [reflexivity|left; exact H].
      * exists [], c, b, arms. split; [reflexivity|right; cbn [ReferencesSpec.arms_decls flat_map adds fold_left]; rewrite E1; exact H].
      * exists ((c, b) :: a1), c', b', a2. split; [reflexivity|]. unfold ReferencesSpec.arms_decls. cbn [flat_map snd]. rewrite adds_app, <- Es. exact H.
    + intros (a1 & c' & b' & a2 & Q & H). destruct a1 as [|[c1 b1] a1].
      * injection Q as <- <- ->. cbn [ReferencesSpec.arms_decls flat_map adds fold_left] in H. rewrite E1 in H. destruct H as [H|H]; [left; exact H|right; left; exact H].
      * injection Q as <- <- ->. right. right. exists a1, c', b', a2. split; [reflexivity|]. unfold ReferencesSpec.arms_decls in H. cbn [flat_map snd] in H. rewrite adds_app, <- Es in H. exact H.
Qed.
Lemma values_iff (c : case) v : In v (values_of c) <-> value_in c v.
Proof using Type.
  unfold value_in. destruct c as [e|a b]; cbn [values_of In].
  - split; [intros [<-|[]]; left; reflexivity|]. intros [H|[(b & H)|(a & H)]]; try discriminate H. injection H as ->. left. reflexivity.
  - split; [intros [<-|[<-|[]]]; right; [left; exists b|right; exists a]; reflexivity|]. intros [H|[(b' & H)|(a' & H)]]; [discriminate H|injection H as -> _; left; reflexivity|injection H as _ ->; right; left; reflexivity].
Qed.
Lemma looks_in_values l cs (u : use) : In u (flat_map (look l None) (flat_map values_of cs)) <-> exists c v, In c cs /\ value_in c v /\ In u (look l None v).
Proof using Type.
  rewrite in_flat_map. split.
  - intros (v & Hv & Hu). apply in_flat_map in Hv. destruct Hv as (c & Hc & Hv). exists c, v. split; [exact Hc|split; [apply values_iff; exact Hv|exact Hu]].
  - intros (c & v & Hc & Hv & Hu). exists v. split; [|exact Hu]. apply in_flat_map. exists c. split; [exact Hc|apply values_iff; exact Hv].
Qed.
Lemma cases_in l cases (u : use) : In u (snd (run_cases l cases)) <->
  exists a1 cs b a2, cases = a1 ++ (cs, b) :: a2 /\ ((exists c v, In c cs /\ value_in c v /\ In u (look (adds l (arms_decls a1)) None v)) \/ In u (snd (block (adds l (arms_decls a1)) b))).
Proof using Type.
  revert l. induction cases as [|[cs b] arms IH]; intro l; cbn [References.run_cases].
  - split; [intros []|]. intros (a1 & c & b & a2 & Q & _). destruct a1; discriminate Q.
  - pose proof (scope_block l b) as Es. destruct (block l b) as [l1 u1] eqn:E1. cbn [fst] in Es. specialize (IH l1). destruct (run_cases l1 arms) as [l2 u2]. cbn [snd] in IH |- *. rewrite !in_app_iff, IH, looks_in_values. split.
    + intros [H|[H|(a1 & c' & b' & a2 & -> & H)]].
      * exists [], cs, b, arms. split; [reflexivity|left; exact H].
      * exists [], cs, b, arms. split; [reflexivity|right; cbn [ReferencesSpec.arms_decls flat_map adds fold_left]; rewrite E1; exact H].
      * exists ((cs, b) :: a1), c', b', a2. split; [reflexivity|]. unfold ReferencesSpec.arms_decls. cbn [flat_map snd]. rewrite adds_app, <- Es. exact H.
    + intros (a1 & c' & b' & a2 & Q & H). destruct a1 as [|[c1 b1] a1].
      * injection Q as <- <- ->. cbn [ReferencesSpec.arms_decls flat_map adds fold_left] in H. rewrite E1 in H. destruct H as [H|H]; [left; exact H|right; left; exact H].
      * injection Q as <- <- ->. right. right. exists a1, c', b', a2. split; [reflexivity|]. unfold ReferencesSpec.arms_decls in H. cbn [flat_map snd] in H. rewrite adds_app, <- Es in H. exact H.
Qed.
Lemma decls_in at_ l (ds : list vardecl) (u : use) : In u (snd (visit_decls at_ l ds)) <-> exists ds1 d ds2, ds = ds1 ++ d :: ds2 /\ In u (snd (visit_decl at_ (adds l (map of_var ds1)) d)).
Proof using Type.
  revert l. induction ds as [|d ds IH]; intro l; cbn [References.visit_decls].
  - split; [intros []|]. intros (ds1 & d & ds2 & Q & _). destruct ds1; discriminate Q.
  - assert (Es : fst (visit_decl at_ l d) = add l (of_var d)) by reflexivity. destruct (visit_decl at_ l d) as [l1 u1] eqn:E1. cbn [fst] in Es. specialize (IH l1). destruct (visit_decls at_ l1 ds) as [l2 u2]. cbn [snd] in IH |- *. rewrite in_app_iff, IH. split.
    + intros [H|(b1 & s' & b2 & -> & H)]; [exists [], d, ds; split; [reflexivity|cbn [map adds fold_left]; rewrite E1; exact H]|].
      exists (d :: b1), s', b2. split; [reflexivity|]. cbn [map adds fold_left]. rewrite <- Es. exact H.
    + intros (b1 & s' & b2 & Q & H). destruct b1 as [|s1 b1]; injection Q as <- ->.
      * left. cbn [map adds fold_left] in H. rewrite E1 in H. exact H.
      * right. exists b1, s', b2. split; [reflexivity|]. cbn [map adds fold_left] in H. rewrite <- Es in H. exact H.
Qed.
Lemma caught_in at_ l ps (u : use) : In u (snd (visit_caught at_ l ps)) <->
  exists ps1 p ps2 x path, ps = ps1 ++ p :: ps2 /\ catches p path x /\ In u (snd (visit_var at_ (adds l (catch_decls ps1)) path x None)).
Proof using Type.
  revert l. induction ps as [|p ps IH]; intro l; cbn [References.visit_caught].
  - split; [intros []|]. intros (ds1 & d & ds2 & x & path & Q & _). destruct ds1; discriminate Q.
  - destruct (caught p) as [[x path]|] eqn:Ec.
    + assert (Es : fst (visit_var at_ l path x None) = add l (x, path)) by reflexivity. destruct (visit_var at_ l path x None) as [l1 u1] eqn:E1. cbn [fst] in Es. specialize (IH l1). destruct (visit_caught at_ l1 ps) as [l2 u2]. cbn [snd] in IH |- *. rewrite in_app_iff, IH.
      assert (Ed : forall ps1, adds l (catch_decls (p :: ps1)) = adds l1 (catch_decls ps1)) by (intro ps1; unfold catch_decls; cbn [flat_map]; rewrite Ec; cbn [app adds fold_left]; rewrite <- Es; reflexivity). split.
      * intros [H|(b1 & p' & b2 & x' & path' & -> & Hc & H)]; [exists [], p, ps, x, path; split; [reflexivity|split; [apply caught_iff; exact Ec|cbn [catch_decls flat_map adds fold_left]; rewrite E1; exact H]]|].
        exists (p :: b1), p', b2, x', path'. split; [reflexivity|split; [exact Hc|]]. rewrite Ed. exact H.
      * intros (b1 & p' & b2 & x' & path' & Q & Hc & H). destruct b1 as [|s1 b1]; injection Q as <- ->.
        -- left. apply caught_iff in Hc. rewrite Ec in Hc. injection Hc as <- <-. cbn [catch_decls flat_map adds fold_left] in H. rewrite E1 in H. exact H.
        -- right. exists b1, p', b2, x', path'. split; [reflexivity|split; [exact Hc|]]. rewrite Ed in H. exact H.
    + rewrite IH. assert (Ed : forall ps1, adds l (catch_decls (p :: ps1)) = adds l (catch_decls ps1)) by (intro ps1; unfold catch_decls; cbn [flat_map]; rewrite Ec; reflexivity). split.
      * intros (b1 & p' & b2 & x' & path' & -> & Hc & H). exists (p :: b1), p', b2, x', path'. split; [reflexivity|split; [exact Hc|]]. rewrite Ed. exact H.
      * intros (b1 & p' & b2 & x' & path' & Q & Hc & H). destruct b1 as [|s1 b1]; injection Q as <- ->; [apply caught_iff in Hc; congruence|]. exists b1, p', b2, x', path'. split; [reflexivity|split; [exact Hc|]]. rewrite Ed in H. exact H.
Qed.
Lemma option_in l o (u : use) : In u (look_option l o) <-> exists e, o = Some e /\ In u (look l None e).
Proof using Type. destruct o as [e|]; cbn [References.look_option]; [split; [intro H; exists e; split; [reflexivity|exact H]|intros (e' & Q & H); injection Q as <-; exact H]|split; [intros []|intros (e & Q & _); discriminate]]. Qed.
Lemma blocks_in l o (u : use) : In u (snd (run_option visit_stmt l o)) <-> exists b, o = Some b /\ In u (snd (block l b)).
Proof using Type. destruct o as [e|]; cbn [run_option]; [split; [intro H; exists e; split; [reflexivity|exact H]|intros (e' & Q & H); injection Q as <-; exact H]|split; [intros []|intros (e & Q & _); discriminate]]. Qed.
Lemma typed_in at_ l ty x (o : option expr) (u : use) : In u (snd (visit_typed at_ l ty x o)) <-> exists ty', ty = Some ty' /\ In u (snd (visit_var at_ l (v_path ty') x o)).
Proof using Type. destruct ty as [e|]; cbn [References.visit_typed]; [split; [intro H; exists e; split; [reflexivity|exact H]|intros (e' & Q & H); injection Q as <-; exact H]|split; [intros []|intros (e & Q & _); discriminate]]. Qed.
Lemma var_in at_ l path x (o : option expr) (u : use) : In u (snd (visit_var at_ l path x o)) <->
  (exists i, mentions (stype path) i /\ u = (STyp i, at_)) \/ (exists e, o = Some e /\ In u (look l (basic_type (stype path)) e)) \/ u = (SLocal self (List.length l), at_).
Proof using Type.
  unfold References.visit_var. cbv zeta. cbn [snd]. rewrite !in_app_iff, (mentions_iff F). cbn [In]. unfold fresh.
  assert (O : In u match o with Some e => look l (basic_type (stype path)) e | None => [] end <-> exists e, o = Some e /\ In u (look l (basic_type (stype path)) e)).
  { destruct o as [e|]; [split; [intro H; exists e; split; [reflexivity|exact H]|intros (e' & Q & H); injection Q as <-; exact H]|split; [intros []|intros (e & Q & _); discriminate]]. }
  rewrite O. split.
  - intros [H|[H|[H|[]]]]; [left; exact H|right; left; exact H|right; right; symmetry; exact H].
  - intros [H|[H|H]]; [left; exact H|right; left; exact H|right; right; left; symmetry; exact H].
Qed.

(** ** One step *)
Definition seen (i : item) : list use := match i with IB l b => snd (block l b) | IS l s => snd (visit_stmt l s) | IE l h e => look l h e end.
Definition from (i : item) (u : use) : Prop := item_uses i (fst u) (snd u) \/ exists j, inside i j /\ In u (seen j).
Lemma from_in i j (u : use) : inside i j -> In u (seen j) -> from i u.
Proof using Type. intros H Hu. right. exists j. split; assumption. Qed.
Lemma from_var l s l' x path o (u : use) : introduces l s l' (x, path) o -> In u (snd (visit_var (AtStmt s) l' path x o)) -> from (IS l s) u.
Proof using TD.
  intros H Hu. apply var_in in Hu. destruct Hu as [(i & M & ->)|[(e & -> & Hu)| ->]].
  - left. eapply iu_type; [exact H|apply (written_is V D t TD)|exact M].
  - apply (from_in _ (IE l' (basic_type (stype path)) e)); [|exact Hu]. eapply in_value; [exact H|apply (written_is V D t TD)].
  - left. eapply iu_new. exact H.
Qed.
Lemma from_stmt l s (u : use) : In u (seen (IS l s)) -> from (IS l s) u.
Proof using TD.
  cbn [seen]. rewrite step. intro Hu. destruct s as [e|o|e|c b|b c|arms els|b|init test inc b|ty x it o b|ty k it v o b|ty x a e st b|d|ds|x m v|d b|e cs d|b ps h|x|x|x|x b|e|e]; cbn [body] in Hu; cbv zeta in Hu; cbn [snd] in Hu; rewrite ?in_app_iff in Hu; try (destruct Hu; fail).
  - apply (from_in _ (IE l None e)); [apply in_expr; left; reflexivity|exact Hu].
  - destruct Hu as [Hu|Hu].
    + destruct (get (lit ".") l) as [[s dot]|] eqn:G; [|destruct Hu]. destruct Hu as [<-|[]]. left. eapply iu_return. exact G.
    + apply option_in in Hu. destruct Hu as (e & -> & Hu). apply (from_in _ (IE l None e)); [apply in_expr; right; right; right; reflexivity|exact Hu].
  - apply (from_in _ (IE l None e)); [apply in_expr; right; left; reflexivity|exact Hu].
  - destruct Hu as [Hu|Hu]; [apply (from_in _ (IE l None c)); [apply in_while|exact Hu]|apply (from_in _ (IB l b)); [apply in_while_body|exact Hu]].
  - rewrite scope_block in Hu. destruct Hu as [Hu|Hu]; [apply (from_in _ (IB l b)); [apply in_do|exact Hu]|]. apply (from_in _ (IE (adds l (block_decls b)) None c)); [apply in_do_cond, all_is|exact Hu].
  - rewrite (arms_scope arms (fun _ _ s _ _ => scope_is s)) in Hu. destruct Hu as [Hu|Hu].
    + apply arms_in in Hu. destruct Hu as (a1 & c & b & a2 & -> & [Hu|Hu]).
      * apply (from_in _ (IE (adds l (arms_decls a1)) None c)); [apply in_if, all_is|exact Hu].
      * apply (from_in _ (IB (adds l (arms_decls a1)) b)); [apply in_then, all_is|exact Hu].
    + apply blocks_in in Hu. destruct Hu as (b & -> & Hu). apply (from_in _ (IB (adds l (arms_decls arms)) b)); [apply in_else, all_is|exact Hu].
  - apply (from_in _ (IB l b)); [apply in_forever|exact Hu].
  - rewrite !maybe_scope, <- adds_app in Hu.
    destruct Hu as [Hu|[Hu|[Hu|Hu]]].
    + destruct init as [s'|]; [|destruct Hu]. apply (from_in _ (IS l s')); [apply in_init|exact Hu].
    + apply option_in in Hu. destruct Hu as (e & -> & Hu). apply (from_in _ (IE (adds l (part_decls init)) None e)); [apply in_test, all_is|exact Hu].
    + destruct inc as [s'|]; [|destruct Hu]. apply (from_in _ (IS (adds l (part_decls init)) s')); [apply in_inc, all_is|exact Hu].
    + apply (from_in _ (IB (adds l (part_decls init ++ part_decls inc)) b)); [apply in_for_body, all_is|exact Hu].
  - rewrite typed_scope in Hu. destruct Hu as [Hu|[Hu|Hu]].
    + apply option_in in Hu. destruct Hu as (e & -> & Hu). apply (from_in _ (IE l None e)); [apply in_list|exact Hu].
    + apply typed_in in Hu. destruct Hu as (ty' & -> & Hu). apply (from_var _ _ l x (v_path ty') None); [apply it_list|exact Hu].
    + apply (from_in _ (IB (adds l (maybe ty x)) b)); [apply in_list_body, all_is|exact Hu].
  - rewrite typed_scope in Hu. destruct Hu as [Hu|[Hu|[Hu|Hu]]].
    + apply option_in in Hu. destruct Hu as (e & -> & Hu). apply (from_in _ (IE l None e)); [apply in_pairs|exact Hu].
    + apply typed_in in Hu. destruct Hu as (ty' & -> & Hu). apply (from_var _ _ l k (v_path ty') None); [apply it_key|exact Hu].
    + apply (from_var _ _ (adds l (maybe ty k)) v [] None); [apply it_value, all_is|exact Hu].
    + apply (from_in _ (IB (adds l (maybe ty k ++ [(v, [])])) b)); [apply in_pairs_body, all_is|]. rewrite adds_app. exact Hu.
  - rewrite typed_scope in Hu. destruct Hu as [Hu|[Hu|[Hu|Hu]]].
    + apply (from_in _ (IE l None e)); [apply in_range_end|exact Hu].
    + apply option_in in Hu. destruct Hu as (e' & -> & Hu). apply (from_in _ (IE l None e')); [apply in_range_step|exact Hu].
    + apply typed_in in Hu. destruct Hu as (ty' & -> & Hu). apply (from_var _ _ l x (v_path ty') (Some a)); [apply it_range|exact Hu].
    + apply (from_in _ (IB (adds l (maybe ty x)) b)); [apply in_range_body, all_is|exact Hu].
  - apply (from_var _ _ l (v_name d) (v_path (v_type d)) (v_value d)); [apply (it_var F V D t self l d)|exact Hu].
  - apply decls_in in Hu. destruct Hu as (ds1 & d & ds2 & -> & Hu). apply (from_var _ _ (adds l (map of_var ds1)) (v_name d) (v_path (v_type d)) (v_value d)); [apply (it_vars F V D t self l ds1 d ds2), all_is|exact Hu].
  - destruct Hu as [Hu|Hu]; [|apply (from_in _ (IB l b)); [apply in_spawn|exact Hu]]. apply option_in in Hu. destruct Hu as (e & -> & Hu). apply (from_in _ (IE l None e)); [apply in_delay|exact Hu].
  - rewrite (cases_scope cs (fun _ _ s _ _ => scope_is s)) in Hu. destruct Hu as [Hu|[Hu|Hu]].
    + apply (from_in _ (IE l None e)); [apply in_switch|exact Hu].
    + apply cases_in in Hu. destruct Hu as (a1 & c & b & a2 & -> & [(c' & v & Hc & Hv & Hu)|Hu]).
      * apply (from_in _ (IE (adds l (arms_decls a1)) None v)); [eapply in_case; [apply all_is|exact Hc|exact Hv]|exact Hu].
      * apply (from_in _ (IB (adds l (arms_decls a1)) b)); [apply in_case_body, all_is|exact Hu].
    + apply blocks_in in Hu. destruct Hu as (b & -> & Hu). apply (from_in _ (IB (adds l (arms_decls cs)) b)); [apply in_default, all_is|exact Hu].
  - rewrite caught_scope, scope_block in Hu. destruct Hu as [Hu|[Hu|Hu]].
    + apply (from_in _ (IB l b)); [apply in_try|exact Hu].
    + apply caught_in in Hu. destruct Hu as (ps1 & p & ps2 & x & path & -> & Hc & Hu). apply (from_var _ _ (adds l (block_decls b ++ catch_decls ps1)) x path None); [apply it_catch; [apply all_is|exact Hc]|]. rewrite adds_app. exact Hu.
    + apply (from_in _ (IB (adds l (block_decls b ++ catch_decls ps)) h)); [apply in_catch, all_is|]. rewrite adds_app. exact Hu.
  - apply (from_in _ (IB l b)); [apply in_label|exact Hu].
  - apply (from_in _ (IE l None e)); [apply in_expr; right; right; left; reflexivity|exact Hu].
Qed.
Lemma intro_in l s l' x path o (u : use) : introduces l s l' (x, path) o -> In u (snd (visit_var (AtStmt s) l' path x o)) -> In u (snd (visit_stmt l s)).
Proof using TD.
  rewrite step. intros H Hu. remember (x, path) as d eqn:Ed. destruct H as [d|ds1 d ds2 l' H|ty y it o b|ty y a e o b|ty k it v o b|ty k it v o b l' H|b ps1 p ps2 h path' y l' H Hc]; try (apply all_iff in H; subst l'); cbn [body]; cbv zeta; cbn [snd]; rewrite ?in_app_iff.
  - injection Ed as <- <-. exact Hu.
  - injection Ed as <- <-. apply decls_in. exists ds1, d, ds2. split; [reflexivity|exact Hu].
  - injection Ed as -> <-. right. left. exact Hu.
  - injection Ed as -> <-. right. right. left. exact Hu.
  - injection Ed as -> <-. right. left. exact Hu.
  - injection Ed as -> <-. right. right. left. rewrite typed_scope. exact Hu.
  - injection Ed as -> ->. right. left. rewrite scope_block. apply caught_in. exists ps1, p, ps2, x, path. split; [reflexivity|split; [exact Hc|]]. rewrite <- adds_app. exact Hu.
Qed.
Lemma uses_in_stmt l s (sym : symbol) (sp : spot) : item_uses (IS l s) sym sp -> In (sym, sp) (snd (visit_stmt l s)).
Proof using TD.
  intro H. remember (IS l s) as i eqn:Ei. destruct H as [l0 o s0 sym G|l0 s0 l' [x path] o H|l0 s0 l' x path o sy i' H W M|l0 h e sym sp H]; try discriminate Ei; injection Ei as -> E; subst.
  - rewrite step. cbn [body snd]. apply in_app_iff. left. rewrite G. left. reflexivity.
  - eapply intro_in; [exact H|]. apply var_in. right. right. reflexivity.
  - eapply intro_in; [exact H|]. apply var_in. left. apply (written_iff V D t TD) in W. subst sy. exists i'. split; [exact M|reflexivity].
Qed.
Lemma inside_in i j (u : use) : inside i j -> In u (seen j) -> In u (seen i).
Proof using TD.
  intros H Hu. destruct H as [l b1 s b2 l' A|l s l' x path e sy I W|l e s K|l c b|l c b|l b c|l b c l' A|l a1 c b a2 els l' A|l a1 c b a2 els l' A|l arms b l' A|l b|l s test inc b|l init e inc b l' A|l init test s b l' A|l init test inc b l' A
    |l ty x it e b|l ty x it o b l' A|l ty x a e o b|l ty x a e s b|l ty x a e o b l' A|l ty k it v e b|l ty k it v o b l' A|l e b|l o b|l e cases d|l e c1 cs b c2 d l' c v A Hc Hv|l e c1 cs b c2 d l' A|l e cases b l' A|l b ps h|l b ps h l' A|l x b];
    try (apply all_iff in A; subst l'); cbn [seen] in Hu |- *; try (rewrite step; cbn [body]; cbv zeta; cbn [snd]; rewrite ?in_app_iff).
  - apply block_in. exists b1, s, b2. split; [reflexivity|exact Hu].
  - rewrite <- step. eapply intro_in; [exact I|]. apply var_in. right. left. exists e. apply (written_iff V D t TD) in W. subst sy. split; [reflexivity|exact Hu].
  - rewrite <- step. destruct K as [-> |[-> |[-> | ->]]]; rewrite step; cbn [body snd]; try exact Hu. apply in_app_iff. right. exact Hu.
  - left. exact Hu.
  - right. exact Hu.
  - left. exact Hu.
  - right. rewrite scope_block. exact Hu.
  - left. apply arms_in. exists a1, c, b, a2. split; [reflexivity|left; exact Hu].
  - left. apply arms_in. exists a1, c, b, a2. split; [reflexivity|right; exact Hu].
  - right. apply blocks_in. exists b. split; [reflexivity|]. rewrite (arms_scope arms (fun _ _ s _ _ => scope_is s)). exact Hu.
  - exact Hu.
  - left. exact Hu.
  - right. left. rewrite maybe_scope. apply option_in. exists e. split; [reflexivity|exact Hu].
  - right. right. left. rewrite maybe_scope. exact Hu.
  - right. right. right. rewrite !maybe_scope, <- adds_app. exact Hu.
  - left. exact Hu.
  - right. right. rewrite typed_scope. exact Hu.
  - left. exact Hu.
  - right. left. exact Hu.
  - right. right. right. rewrite typed_scope. exact Hu.
  - left. exact Hu.
  - right. right. right. rewrite typed_scope. rewrite adds_app in Hu. exact Hu.
  - left. exact Hu.
  - right. exact Hu.
  - left. exact Hu.
  - right. left. apply cases_in. exists c1, cs, b, c2. split; [reflexivity|]. left. exists c, v. split; [exact Hc|split; [exact Hv|exact Hu]].
  - right. left. apply cases_in. exists c1, cs, b, c2. split; [reflexivity|]. right. exact Hu.
  - right. right. apply blocks_in. exists b. split; [reflexivity|]. rewrite (cases_scope cases (fun _ _ s _ _ => scope_is s)). exact Hu.
  - left. exact Hu.
  - right. right. rewrite caught_scope, scope_block. rewrite adds_app in Hu. exact Hu.
  - exact Hu.
Qed.
Lemma item_step i (u : use) : In u (seen i) <-> from i u.
Proof using TD AC.
  split.
  - destruct i as [l b|l s|l h e].
    + intro Hu. apply block_in in Hu. destruct Hu as (b1 & s & b2 & -> & Hu). apply (from_in _ (IS (adds l (block_decls b1)) s)); [apply in_block, all_is|exact Hu].
    + apply from_stmt.
    + intro Hu. left. apply iu_expr. apply (expr_is F V D t vars TD AC). destruct u. exact Hu.
  - intros [H|(j & Hj & Hu)]; [|eapply inside_in; eassumption]. destruct u as [sym sp]. cbn [fst snd] in H. destruct i as [l b|l s|l h e].
    + inversion H.
    + apply uses_in_stmt. exact H.
    + apply (expr_is F V D t vars TD AC). inversion H. assumption.
Qed.
Definition isize (i : item) : nat := match i with IB _ b => S (many (ssize F) b) | IS _ s => S (ssize F s) | IE _ _ _ => 0 end.
Lemma many_cons {A : Type} (f : A -> nat) x (l : list A) : many f (x :: l) = S (f x) + many f l. Proof using Type. reflexivity. Qed.
Lemma inside_size i j : inside i j -> isize j < isize i.
Proof using Type.
  intros H. destruct H; cbn [isize ssize]; rewrite ?many_app, ?many_cons; cbn [snd]; rewrite ?opt_some; lia.
Qed.
Lemma item_is i sym sp : In (sym, sp) (seen i) <-> exists j, within i j /\ item_uses j sym sp.
Proof using TD AC.
  split.
  - induction i as [i IH] using (well_founded_induction (well_founded_ltof _ isize)). unfold ltof in IH. intro H. apply item_step in H. destruct H as [H|(j & Hj & H)]; [exists i; split; [constructor|exact H]|].
    destruct (IH j (inside_size _ _ Hj) H) as (k & Hk & Ht). exists k. split; [econstructor; [exact Hj|exact Hk]|exact Ht].
  - intros (j & Hj & Ht). induction Hj as [i|i j k Hij _ IH]; [apply item_step; left; exact Ht|]. apply item_step. right. exists j. split; [exact Hij|apply IH; exact Ht].
Qed.

(** ** Procedures *)
Notation starts := (ReferencesSpec.starts V D t self).
Notation proc_uses := (ReferencesSpec.proc_uses F V D t vars self).
Notation params_decls := (ReferencesSpec.params_decls F).
Notation begin := (start_vars self global_scope (first_vars t self)).
Lemma starts_iff l : starts l <-> fst (@start_vars F self global_scope (first_vars t self)) = l.
Proof using Type.
  unfold first_vars, is_root. split.
  - intro H. destruct H as [E|E].
    + rewrite E. reflexivity.
    + destruct (path_of t self_type) as [|c cs]; [destruct (E eq_refl)|reflexivity].
  - intros <-. destruct (path_of t self_type) as [|c cs] eqn:E; [apply st_root; exact E|apply st_type; rewrite E; discriminate].
Qed.
Lemma start_in l (u : use) : starts l -> (In u (snd (@start_vars F self global_scope (first_vars t self))) <-> exists x s n, In (x, (s, SLocal self n)) l /\ u = (SLocal self n, AtProc)).
Proof using Type.
  intro H. apply starts_iff in H. subst l. unfold first_vars. destruct (is_root t self_type); cbn [app start_vars fst snd In bind fresh List.length global_scope]; unfold fresh; cbn [List.length bind global_scope]; (split; [intro H|intros (x & s & n & H & ->)]).
  - destruct H as [<-|[<-|[<-|[]]]]; [exists (lit "."), SNone, 1|exists (lit "args"), (SType list_type), 2|exists (lit "usr"), (SType (expect t "/mob")), 3]; (split; [cbn [In]; auto 8|reflexivity]).
  - destruct H as [H|[H|[H|[H|[]]]]]; apply (f_equal (fun a => snd (snd a))) in H; cbn [snd] in H; try discriminate H; injection H as <-; cbn [In]; auto 8.
  - destruct H as [<-|[<-|[<-|[<-|[]]]]]; [exists (lit "."), SNone, 1|exists (lit "args"), (SType list_type), 2|exists (lit "usr"), (SType (expect t "/mob")), 3|exists (lit "src"), (SType self_type), 4]; (split; [cbn [In]; auto 8|reflexivity]).
  - destruct H as [H|[H|[H|[H|[H|[]]]]]]; apply (f_equal (fun a => snd (snd a))) in H; cbn [snd] in H; try discriminate H; injection H as <-; cbn [In]; auto 8.
Qed.
Lemma params_scope (ps : list (rparam F)) : forall l, fst (with_params t vars self l ps) = adds l (params_decls ps).
Proof using Type.
  induction ps as [|q ps IH]; intro l; [reflexivity|]. cbn [with_params]. cbv zeta. unfold ReferencesSpec.params_decls. cbn [map adds fold_left]. specialize (IH (bind self l (rp_name q) (stype (rp_path q)))).
  destruct (with_params t vars self (bind self l (rp_name q) (stype (rp_path q))) ps) as [l2 u2]. exact IH.
Qed.
Lemma params_in (ps : list (rparam F)) : forall l (u : use), In u (snd (with_params t vars self l ps)) <->
  exists ps1 q ps2, ps = ps1 ++ q :: ps2 /\ ((exists i, mentions (stype (rp_path q)) i /\ u = (STyp i, AtParam q)) \/
    (exists e, rp_default q = Some e /\ In u (look (adds l (params_decls ps1)) None e)) \/ u = (SLocal self (List.length (adds l (params_decls ps1))), AtParam q)).
Proof using Type.
  induction ps as [|q ps IH]; intros l u; cbn [with_params].
  - split; [intros []|]. intros (ps1 & q & ps2 & Q & _). destruct ps1; discriminate Q.
  - cbv zeta. specialize (IH (bind self l (rp_name q) (stype (rp_path q))) u). destruct (with_params t vars self (bind self l (rp_name q) (stype (rp_path q))) ps) as [l2 u2]. cbn [snd] in IH |- *. rewrite !in_app_iff. cbn [In]. rewrite IH, (mentions_iff F), option_in. split.
    + intros [H|[H|[H|(ps1 & q' & ps2 & -> & H)]]].
      * exists [], q, ps. split; [reflexivity|left; exact H].
      * exists [], q, ps. split; [reflexivity|right; left; exact H].
      * exists [], q, ps. split; [reflexivity|right; right; symmetry; exact H].
      * exists (q :: ps1), q', ps2. split; [reflexivity|exact H].
    + intros (ps1 & q' & ps2 & Q & H). destruct ps1 as [|q1 ps1]; injection Q as <- ->.
      * destruct H as [H|[H|H]]; [left; exact H|right; left; exact H|right; right; left; symmetry; exact H].
      * right. right. right. exists ps1, q', ps2. split; [reflexivity|exact H].
Qed.
Lemma run_is ps b sym sp : In (sym, sp) (run t vars self ps b) <-> proc_uses ps b sym sp.
Proof using TD AC.
  unfold run. assert (S0 : starts (fst (@start_vars F self global_scope (first_vars t self)))) by (apply starts_iff; reflexivity).
  pose proof (start_in _ (sym, sp) S0) as Hs. destruct (start_vars self global_scope (first_vars t self)) as [l1 u1]. cbn [fst snd] in S0, Hs.
  pose proof (params_scope ps l1) as Es. pose proof (params_in ps l1 (sym, sp)) as Hp. destruct (with_params t vars self l1 ps) as [l2 u2]. cbn [fst snd] in Es, Hp.
  rewrite !in_app_iff, Hs, Hp. unfold visit_block. pose proof (item_is (IB l2 b) sym sp) as Hb. cbn [seen] in Hb. rewrite Hb. clear Hs Hp Hb. split.
  - intros [(x & s & n & Hi & Q)|[(ps1 & q & ps2 & -> & [(i & M & Q)|[(e & Hd & Hu)|Q]])|H]].
    + injection Q as -> ->. eapply pu_start; eassumption.
    + injection Q as -> ->. eapply pu_type; [apply in_elt|apply (written_is V D t TD)|exact M].
    + eapply pu_default; [exact S0|reflexivity|apply all_is|exact Hd|]. apply (expr_is F V D t vars TD AC). exact Hu.
    + injection Q as -> ->. eapply pu_param; [exact S0|reflexivity|apply all_is].
    + apply (pu_body _ _ _ _ _ _ ps b l1 l2); [exact S0|apply all_iff; symmetry; exact Es|exact H].
  - assert (U : forall l, starts l -> l = l1) by (intros l H; apply starts_iff in H; apply starts_iff in S0; congruence).
    intros H. destruct H as [l x s n S1 Hi|l ps1 q ps2 l' S1 -> A|q s i Hq W M|l ps1 q ps2 l' e sym sp S1 -> A Hd Hu|l l' sym sp S1 A H]; try (rewrite (U l S1) in *; clear S1); try (apply all_iff in A; subst l').
    + left. exists x, s, n. split; [exact Hi|reflexivity].
    + right. left. exists ps1, q, ps2. split; [reflexivity|]. right. right. reflexivity.
    + right. left. apply in_split in Hq. destruct Hq as (ps1 & ps2 & ->). exists ps1, q, ps2. split; [reflexivity|]. left. apply (written_iff V D t TD) in W. subst s. exists i. split; [exact M|reflexivity].
    + right. left. exists ps1, q, ps2. split; [reflexivity|]. right. left. exists e. split; [exact Hd|]. apply (expr_is F V D t vars TD AC) in Hu. exact Hu.
    + right. right. rewrite Es. exact H.
Qed.

(** ** Which declaration a name stands for *)
Lemma get_cons (x y : text) (v : sty * symbol) l : get x ((y, v) :: l) = if text_eqb y x then Some v else get x l.
Proof using Type. unfold get. cbn [List.find fst]. destruct (text_eqb y x); reflexivity. Qed.
Lemma adds_none l ds x : (forall d, In d ds -> fst d <> x) -> get x (adds l ds) = get x l.
Proof using Type.
  revert l. induction ds as [|d ds IH]; intros l H; [reflexivity|]. cbn [adds fold_left]. unfold adds in IH. rewrite IH by (intros d' Hd; apply H; right; exact Hd). unfold add, bind. rewrite get_cons. destruct (text_eqb_spec (fst d) x) as [E|_]; [destruct (H d (or_introl eq_refl) E)|reflexivity].
Qed.
Lemma adds_length l ds : List.length (adds l ds) = List.length l + List.length ds.
Proof using Type. revert l. induction ds as [|d ds IH]; intro l; cbn [adds fold_left List.length]; [lia|]. unfold adds in IH. rewrite IH. cbn [add bind List.length]. lia. Qed.
Lemma latest l ds1 x path ds2 l' : all_declared l (ds1 ++ (x, path) :: ds2) l' -> (forall d, In d ds2 -> fst d <> x) -> exists s, written path s /\ get x l' = Some (s, SLocal self (List.length l + List.length ds1)).
Proof using TD.
  intros H N. apply all_iff in H. subst l'. rewrite adds_app. cbn [adds fold_left]. change (fold_left add ds2 (add (adds l ds1) (x, path))) with (adds (add (adds l ds1) (x, path)) ds2). rewrite adds_none by exact N.
  exists (stype path). split; [apply (written_is V D t TD)|]. unfold add, bind. rewrite get_cons. cbn [fst snd]. rewrite text_eqb_refl, adds_length. reflexivity.
Qed.
Lemma untouched l ds l' x : all_declared l ds l' -> (forall d, In d ds -> fst d <> x) -> get x l' = get x l.
Proof using TD. intros H N. apply all_iff in H. subst l'. apply adds_none. exact N. Qed.

(** ** What is looked at *)
Lemma can_all l ds : exists l', all_declared l ds l'. Proof. eexists. apply all_is. Qed.
Lemma complete i c : StmtsSpec.part (code_in F i) c -> missed F (code_in F i) c \/ exists j, inside i j /\ code_in F j = c.
Proof using TD.
  intro H. destruct i as [l b|l s|l h e]; cbn [code_in] in *.
  - remember (CB b) as k eqn:Ek. destruct H; try discriminate Ek. injection Ek as ->. apply in_split in H as (b1 & b2 & ->). right. exists (IS (adds l (block_decls b1)) s). split; [apply in_block, all_is|reflexivity].
  - remember (CS s) as k eqn:Ek. destruct H; try discriminate Ek; injection Ek as <-.
    + right. exists (IE l None e). split; [apply in_expr; left; reflexivity|reflexivity].
    + right. exists (IE l None e). split; [apply in_expr; right; right; right; reflexivity|reflexivity].
    + right. exists (IE l None e). split; [apply in_expr; right; left; reflexivity|reflexivity].
    + right. exists (IE l None e). split; [apply in_expr; right; right; left; reflexivity|reflexivity].
    + left. constructor.
    + right. destruct H as [-> | ->]; [exists (IE l None c); split; [apply in_while|reflexivity]|exists (IB l b); split; [apply in_while_body|reflexivity]].
    + right. destruct H as [-> | ->]; [exists (IE (adds l (block_decls b)) None c); split; [apply in_do_cond, all_is|reflexivity]|exists (IB l b); split; [apply in_do|reflexivity]].
    + right. apply in_split in H as (a1 & a2 & ->). destruct H0 as [-> | ->]; [exists (IE (adds l (arms_decls a1)) None c); split; [apply in_if, all_is|reflexivity]|exists (IB (adds l (arms_decls a1)) b); split; [apply in_then, all_is|reflexivity]].
    + right. exists (IB (adds l (arms_decls arms)) b). split; [apply in_else, all_is|reflexivity].
    + right. exists (IB l b). split; [apply in_forever|reflexivity].
    + right. destruct H as [(s & -> & ->)|[(e & -> & ->)|[(s & -> & ->)| ->]]].
      * exists (IS l s). split; [apply in_init|reflexivity].
      * exists (IE (adds l (part_decls init)) None e). split; [apply in_test, all_is|reflexivity].
      * exists (IS (adds l (part_decls init)) s). split; [apply in_inc, all_is|reflexivity].
      * exists (IB (adds l (part_decls init ++ part_decls inc)) b). split; [apply in_for_body, all_is|reflexivity].
    + right. destruct H as [(e & -> & ->)| ->]; [exists (IE l None e); split; [apply in_list|reflexivity]|exists (IB (adds l (maybe ty n)) b); split; [apply in_list_body, all_is|reflexivity]].
    + right. destruct H as [(e & -> & ->)| ->]; [exists (IE l None e); split; [apply in_pairs|reflexivity]|exists (IB (adds l (maybe ty k ++ [(v, [])])) b); split; [apply in_pairs_body, all_is|reflexivity]].
    + destruct H as [-> |[-> |[(s & -> & ->)| ->]]].
      * destruct ty as [ty|]; [right|left; apply ms_start]. exists (IE l (basic_type (stype (v_path ty))) a). split; [|reflexivity]. eapply in_value; [apply it_range|apply (written_is V D t TD)].
      * right. exists (IE l None e). split; [apply in_range_end|reflexivity].
      * right. exists (IE l None s). split; [apply in_range_step|reflexivity].
      * right. exists (IB (adds l (maybe ty n)) b). split; [apply in_range_body, all_is|reflexivity].
    + right. exists (IE l (basic_type (stype (v_path (v_type d)))) e). split; [|reflexivity]. apply (in_value F V D t self l (Var d) l (v_name d) (v_path (v_type d)) e _); [rewrite <- H; apply (it_var F V D t self l d)|apply (written_is V D t TD)].
    + right. apply in_split in H as (ds1 & ds2 & ->). exists (IE (adds l (map of_var ds1)) (basic_type (stype (v_path (v_type d)))) e). split; [|reflexivity].
      apply (in_value F V D t self l _ (adds l (map of_var ds1)) (v_name d) (v_path (v_type d)) e _); [rewrite <- H0; apply (it_vars F V D t self l ds1 d ds2), all_is|apply (written_is V D t TD)].
    + left. constructor.
    + right. destruct H as [(e & -> & ->)| ->]; [exists (IE l None e); split; [apply in_delay|reflexivity]|exists (IB l b); split; [apply in_spawn|reflexivity]].
    + right. exists (IE l None e). split; [apply in_switch|reflexivity].
    + right. apply in_split in H as (c1 & c2 & ->). destruct H0 as [(c & v & Hc & Hv & ->)| ->].
      * exists (IE (adds l (arms_decls c1)) None v). split; [eapply in_case; [apply all_is|exact Hc|exact Hv]|reflexivity].
      * exists (IB (adds l (arms_decls c1)) b). split; [apply in_case_body, all_is|reflexivity].
    + right. exists (IB (adds l (arms_decls cases)) b). split; [apply in_default, all_is|reflexivity].
    + right. destruct H as [-> | ->]; [exists (IB l b); split; [apply in_try|reflexivity]|exists (IB (adds l (block_decls b ++ catch_decls ps)) h); split; [apply in_catch, all_is|reflexivity]].
    + right. exists (IB l b). split; [apply in_label|reflexivity].
  - inversion H.
Qed.
End PROC.

(** ** The table *)
Variable code : V -> list (rparam F) * option (list stmt).
Notation reference := (ReferencesSpec.reference F V D t vars code).
Notation implementation := (ReferencesSpec.implementation F V D t vars).
Notation valid := (ReferencesSpec.valid V D t).
Notation value_of := (ReferencesSpec.value_of V D t).
Notation var_hint := (ReferencesSpec.var_hint F V D t vars).
Lemma symbol_eq a b : symbol_eqb a b = true <-> a = b.
Proof using Type.
  destruct a as [i|i x|i x|[[i x] k] n], b as [j|j y|j y|[[j y] m] o]; cbn [symbol_eqb]; try (split; discriminate);
    rewrite ?andb_true_iff, ?Nat.eqb_eq, ?text_eqb_eq; (split; [intro H; decompose [and] H; subst; reflexivity|intro H; injection H; intros; subst; repeat split; reflexivity]).
Qed.
Lemma of_symbol_in {A : Type} s (l : list (symbol * A)) a : In a (of_symbol s l) <-> In (s, a) l.
Proof using Type.
  unfold of_symbol. rewrite in_map_iff. split.
  - intros ((s' & a') & <- & H). apply filter_In in H. destruct H as [H E]. cbn [fst snd] in *. apply symbol_eq in E. subst s'. exact H.
  - intros H. exists (s, a). split; [reflexivity|]. apply filter_In. split; [exact H|]. apply symbol_eq. reflexivity.
Qed.
Lemma every_iff i : In i (every V D t) <-> valid i.
Proof using Type.
  unfold every, ReferencesSpec.valid. rewrite in_seq. split.
  - intros [_ H]. destruct (nth_error (graph t) i) as [n|] eqn:E; [exists n; reflexivity|]. apply nth_error_None in E. cbn [Nat.add] in H. lia.
  - intros (n & E). split; [lia|]. cbn [Nat.add]. apply nth_error_Some. congruence.
Qed.
Lemma node_is i n : node_at t i = Some n <-> nth_error (graph t) i = Some n. Proof using Type. reflexivity. Qed.
Lemma here_in o (us : list use) sym r : In (sym, r) (here o us) <-> exists sp, r = (o, sp) /\ In (sym, sp) us.
Proof using Type.
  unfold here. rewrite in_map_iff. split.
  - intros ((s & sp) & Q & H). cbn [fst snd] in Q. injection Q as <- <-. exists sp. split; [reflexivity|exact H].
  - intros (sp & -> & H). exists (sym, sp). split; [reflexivity|exact H].
Qed.
Lemma hint_iff i x h : var_hint i x h <-> match var_decl_at t vars i x with Some (_, path) => basic_type (stype path) | None => None end = h.
Proof using TD AC.
  unfold ReferencesSpec.var_hint. destruct (var_decl_at t vars i x) as [[j path]|] eqn:E.
  - apply (declares_iff F V D t vars TD AC) in E. split.
    + intros [(j' & path' & s & H & W & ->)|[N _]]; [|destruct (N _ _ E)]. apply (declares_iff F V D t vars TD AC) in E. apply (declares_iff F V D t vars TD AC) in H. rewrite E in H. injection H as <- <-. apply (written_iff V D t TD) in W. rewrite W. reflexivity.
    + intros <-. left. exists j, path, (stype path). split; [exact E|split; [apply (written_is V D t TD)|reflexivity]].
  - split; [|intros <-; right; split; [apply (declares_none F V D t vars TD AC); exact E|reflexivity]]. intros [(j' & path' & s & H & W & ->)|[_ ->]]; [|reflexivity]. apply (declares_iff F V D t vars TD AC) in H. congruence.
Qed.
Lemma numbered {A : Type} (l : list A) : forall a k v, In (k, v) (combine (seq a (List.length l)) l) <-> exists z, k = a + z /\ nth_error l z = Some v.
Proof using Type.
  induction l as [|w l IH]; intros a k v; cbn [List.length seq combine In].
  - split; [intros []|]. intros (z & _ & H). destruct z; discriminate H.
  - rewrite IH. split.
    + intros [H|(z & -> & H)]; [injection H as <- <-; exists 0; split; [lia|reflexivity]|exists (S z); split; [lia|exact H]].
    + intros ([|z] & -> & H); [left; injection H as <-; f_equal; lia|right; exists z; split; [lia|exact H]].
Qed.
Lemma self_procs_in i p v : In (p, v) (self_procs t i) <-> pr_ty p = i /\ value_of p v.
Proof using Type.
  unfold self_procs, ReferencesSpec.value_of, node_at. destruct p as [[j x] k]. cbn [pr_ty pr_name fst snd]. destruct (nth_error (graph t) i) as [n|] eqn:E.
  - rewrite in_flat_map. split.
    + intros ((y & q) & Hq & H). cbn [fst snd] in H. apply in_map_iff in H. destruct H as ((m & w) & Q & H). cbn [fst snd] in Q. injection Q as <- <- <- <-. split; [reflexivity|]. exists n, q. split; [exact E|split; [exact Hq|]].
      apply numbered in H. destruct H as (z & -> & H). exact H.
    + intros (-> & n' & q & E' & Hq & H). rewrite E in E'. injection E' as <-. exists (x, q). split; [exact Hq|]. cbn [fst snd]. apply in_map_iff. exists (k, v). split; [reflexivity|].
      apply numbered. exists k. split; [reflexivity|exact H].
  - split; [intros []|]. intros (-> & n' & q & E' & _). congruence.
Qed.
Lemma references_is sym r : In r (find_references t vars code sym) <-> reference sym r.
Proof using TD AC.
  unfold find_references. rewrite of_symbol_in. unfold all_uses. rewrite in_flat_map. split.
  - intros (i & Hi & H). apply every_iff in Hi. apply in_app_iff in H. destruct H as [H|H]; apply in_flat_map in H.
    + destruct H as ((x & v) & Hv & H). unfold var_uses in H. cbn [fst snd] in H. destruct (rv_value v) as [e|] eqn:Ev; [|destruct H]. cbv zeta in H. apply here_in in H. destruct H as (sp & -> & H).
      eapply rf_value; [exact Hi|exact Hv|exact Ev|apply hint_iff; reflexivity|]. apply (expr_is F V D t vars TD AC). exact H.
    + destruct H as ((p & v) & Hp & H). apply self_procs_in in Hp. destruct Hp as [_ Hp]. unfold References.proc_uses in H. cbn [fst snd] in H. destruct (code v) as [ps [b|]] eqn:Ec; [|destruct H]. apply here_in in H. destruct H as (sp & -> & H).
      eapply rf_proc; [exact Hp|exact Ec|]. apply run_is. exact H.
  - intros H. destruct H as [i x v e h sp Hi Hv Ev Hh Hu|p v ps b sp Hp Ec Hu].
    + exists i. split; [apply every_iff; exact Hi|]. apply in_app_iff. left. apply in_flat_map. exists (x, v). split; [exact Hv|]. unfold var_uses. cbn [fst snd]. rewrite Ev. cbv zeta. apply hint_iff in Hh. rewrite Hh. apply here_in. exists sp. split; [reflexivity|].
      apply (expr_is F V D t vars TD AC) in Hu. exact Hu.
    + exists (pr_ty p). split; [apply every_iff; destruct Hp as (n & q & E & _); exists n; exact E|]. apply in_app_iff. right. apply in_flat_map. exists (p, v). split; [apply self_procs_in; split; [reflexivity|exact Hp]|].
      unfold References.proc_uses. cbn [fst snd]. rewrite Ec. apply here_in. exists sp. split; [reflexivity|]. apply run_is. exact Hu.
Qed.
Lemma implementations_is sym r : In r (find_implementations t vars sym) <-> implementation sym r.
Proof using TD AC.
  unfold find_implementations. rewrite of_symbol_in. unfold all_impls. rewrite in_flat_map. split.
  - intros (i & Hi & H). apply every_iff in Hi. destruct H as [H|H]; [injection H as <- <-; constructor; exact Hi|]. apply in_app_iff in H. destruct H as [H|H]; apply in_flat_map in H.
    + destruct H as ((x & v) & Hv & H). cbn [fst] in H. destruct (var_decl_at t vars i x) as [[j path]|] eqn:E; [|destruct H]. destruct H as [H|[]]. injection H as <- <-. eapply im_var; [exact Hi|exact Hv|apply (declares_iff F V D t vars TD AC); exact E].
    + destruct H as ((x & q) & Hq & H). cbn [fst] in H. destruct (proc_decl_at t i x) as [j|] eqn:E; [|destruct H]. destruct H as [H|[]]. injection H as <- <-. unfold node_at in Hq. destruct (nth_error (graph t) i) as [n|] eqn:En; [|destruct Hq].
      eapply im_proc; [exact En|exact Hq|apply (declares_proc_iff V D t TD AC); exact E].
  - intros H. destruct H as [i Hi|i x v j path Hi Hv Hd|i n x q j En Hq Hd].
    + exists i. split; [apply every_iff; exact Hi|left; reflexivity].
    + exists i. split; [apply every_iff; exact Hi|]. right. apply in_app_iff. left. apply in_flat_map. exists (x, v). split; [exact Hv|]. apply (declares_iff F V D t vars TD AC) in Hd. cbn [fst]. rewrite Hd. left. reflexivity.
    + exists i. split; [apply every_iff; exists n; exact En|]. right. apply in_app_iff. right. unfold node_at. rewrite En. apply in_flat_map. exists (x, q). split; [exact Hq|]. apply (declares_proc_iff V D t TD AC) in Hd. cbn [fst]. rewrite Hd. left. reflexivity.
Qed.
End C73.

(** ** The theorems *)
Section THEOREMS.
Variables F V D : Type.
Variable t : objtree V D.
Variable vars : nat -> list (text * rvar F).
Variable code : V -> list (rparam F) * option (list (stmt F)).
(** The references of a symbol: exactly the places, in the values of variables and in the code of procedures, that use it. *)
Theorem C73_references : forall out sym r, finished t out -> acyclic t -> (In r (find_references t vars code sym) <-> reference F V D t vars code sym r).
Proof using Type. intros out sym r H AC. apply references_is; [exact (finished_tidy V D t out H)|exact AC]. Qed.
(** The implementations of a symbol: the type itself; every type that sets the variable; every type that has code for the procedure *)
Theorem C73_implementations : forall out sym r, finished t out -> acyclic t -> (In r (find_implementations t vars sym) <-> implementation F V D t vars sym r).
Proof using Type. intros out sym r H AC. apply implementations_is; [exact (finished_tidy V D t out H)|exact AC]. Qed.
(** What one procedure uses, one expression; and which type an expression has *)
Theorem C73_procedure : forall out self ps b sym sp, finished t out -> acyclic t -> (In (sym, sp) (run t vars self ps b) <-> proc_uses F V D t vars self ps b sym sp).
Proof using Type. intros out self ps b sym sp H AC. apply run_is; [exact (finished_tidy V D t out H)|exact AC]. Qed.
Theorem C73_expression : forall out ty proc locals hint e sym sp, finished t out -> acyclic t -> (In (sym, sp) (snd (visit t vars ty proc locals hint e)) <-> expr_uses F V D t vars ty proc locals hint e sym sp).
Proof using Type. intros out ty proc locals hint e sym sp H AC. apply expr_is; [exact (finished_tidy V D t out H)|exact AC]. Qed.
Theorem C73_types : forall out ty (proc : option procref) locals hint e s, finished t out -> acyclic t -> (fst (visit t vars ty proc locals hint e) = s <-> gives F V D t vars ty locals (E hint e) s).
Proof using Type. intros out ty proc locals hint e s H AC. symmetry. apply (gives_iff F V D t vars (finished_tidy V D t out H) AC ty proc locals (E hint e)). Qed.
(** A name stands for the last variable that was declared under it; the symbols of two variables of a procedure differ. *)
Theorem C73_latest : forall out self l ds1 x path ds2 l', finished t out -> all_declared V D t self l (ds1 ++ (x, path) :: ds2) l' -> (forall d, In d ds2 -> fst d <> x) ->
  exists s, written V D t path s /\ get x l' = Some (s, SLocal self (List.length l + List.length ds1)).
Proof using Type. intros out self l ds1 x path ds2 l' H A N. apply (latest V D t (finished_tidy V D t out H) self l ds1 x path ds2); assumption. Qed.
Theorem C73_others : forall out self l ds l' x, finished t out -> all_declared V D t self l ds l' -> (forall d, In d ds -> fst d <> x) -> get x l' = get x l.
Proof using Type. intros out self l ds l' x H A N. apply (untouched V D t (finished_tidy V D t out H) self l ds); assumption. Qed.
(** What a parameter of catch declares *)
Theorem C73_catch : forall p path x, catches p path x <-> caught p = Some (x, path).
Proof using Type. exact caught_iff. Qed.
(** All the code is looked at, but for [missed]. *)
Theorem C73_complete : forall out self i c, finished t out -> StmtsSpec.part (code_in F i) c -> missed F (code_in F i) c \/ exists j, inside F V D t self i j /\ code_in F j = c.
Proof using Type. intros out self i c H P. apply complete; [exact (finished_tidy V D t out H)|exact P]. Qed.
End THEOREMS.
