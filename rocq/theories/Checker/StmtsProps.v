(** C71: what the checker makes of the body of a procedure. *)
From Coq Require Import List Arith NArith ZArith Bool String Lia Relations.
From Verif Require Import Common.Text Objtree.Lemmas Objtree.Model Parse.Ast Stmt.Ast Checker.CallTree Checker.Kwargs Checker.Directives Checker.TypeExpr Checker.Filters Checker.Exprs Checker.ExprsSpec Checker.ExprsProps Checker.Stmts Checker.StmtsSpec.
From Verif Require Flow.Model.
Import ListNotations.
Open Scope nat_scope.

Section PROOFS.
Variables F V D L : Type.
Variable f_zero : F -> bool.
Variable t : objtree V D.
Variable rules : env L.
Variable pure_rules : entries L.
Variable rets : procref -> option texpr.
Variable vars : nat -> list (text * option vdecl).
Variable builtin : procref -> bool.
Variable kind : D -> text.
Variable self : procref.
Notation self_type := (pr_ty self).
Notation stmt := (stmt F). Notation expr := (expr F). Notation vardecl := (vardecl F). Notation case := (case F).
Notation list_type := (expect t "/list").
Notation sevent := (sevent F L). Notation item := (item F).
Notation visit_stmt := (visit_stmt f_zero t rules pure_rules rets vars builtin kind self).
Notation visit_expr := (visit_expr (F := F) t rules rets vars builtin kind self).
Notation visit_var := (visit_var (F := F) t rules rets vars builtin kind self).
Notation visit_decl := (visit_decl (F := F) t rules rets vars builtin kind self).
Notation visit_decls := (visit_decls (F := F) t rules rets vars builtin kind self).
Notation visit_typed := (visit_typed (F := F) t rules rets vars builtin kind self).
Notation visit_caught := (visit_caught (F := F) t rules rets vars builtin kind self).
Notation visit_block := (visit_block f_zero t rules pure_rules rets vars builtin kind self).
Notation flow_of := (flow_of f_zero). Notation stops := (stops f_zero). Notation once := (once f_zero). Notation sure := (sure f_zero).
Notation value_of_expr := (value_of_expr t rules rets vars builtin kind self).
Notation declared := (declared (F := F) t rules rets vars builtin kind self).
Notation all_declared := (all_declared (F := F) t rules rets vars builtin kind self).
Notation loop_var := (loop_var (F := F) t rules rets vars builtin kind self).
Notation all_caught := (all_caught (F := F) t rules rets vars builtin kind self).
Notation after := (after (F := F) t rules rets vars builtin kind self).
Notation through := (through t rules rets vars builtin kind self).
Notation left_with := (left_with f_zero t rules rets vars builtin kind self).
Notation maybe_after := (maybe_after (F := F) t rules rets vars builtin kind self).
Notation inside := (inside f_zero t rules rets vars builtin kind self).
Notation within := (within f_zero t rules rets vars builtin kind self).
Notation tells := (tells f_zero t rules pure_rules rets vars builtin kind self).
Implicit Types (s : stmt) (e : expr) (b : list stmt) (l : scope) (ev : sevent) (sp top : bool).

(** ** Sizes *)
Definition many {A : Type} (f : A -> nat) (l : list A) : nat := list_sum (map (fun x => S (f x)) l).
Definition opt {A : Type} (f : A -> nat) (o : option A) : nat := match o with Some x => S (f x) | None => 0 end.
Fixpoint ssize (s : stmt) : nat :=
  S match s with
  | While _ b | DoWhile b _ | ForInfinite b | ForList _ _ _ _ b | ForKeyValue _ _ _ _ _ b | ForRange _ _ _ _ _ b | Spawn _ b | Label _ b => many ssize b
  | If arms els => many (fun a => many ssize (snd a)) arms + opt (many ssize) els
  | ForLoop init _ inc b => opt ssize init + opt ssize inc + many ssize b
  | Switch _ cases d => many (fun a => many ssize (snd a)) cases + opt (many ssize) d
  | TryCatch b _ h => many ssize b + many ssize h
  | _ => 0
  end.
Lemma many_app {A : Type} (f : A -> nat) (l1 l2 : list A) : many f (l1 ++ l2) = many f l1 + many f l2.
Proof using Type. unfold many. rewrite map_app. apply list_sum_app. Qed.
Lemma many_in {A : Type} (f : A -> nat) x (l : list A) : In x l -> f x < many f l.
Proof using Type. intros H. apply in_split in H as (l1 & l2 & ->). rewrite many_app. unfold many at 2. cbn [map list_sum fold_right]. lia. Qed.
Lemma opt_some {A : Type} (f : A -> nat) x : opt f (Some x) = S (f x). Proof using Type. reflexivity. Qed.
Definition isize (i : item) : nat := match i with IB _ _ _ b => S (many ssize b) | IS _ _ s => S (ssize s) | IE _ _ _ _ => 0 end.
Lemma inside_size i j : inside i j -> isize j < isize i.
Proof using Type.
  intros H. destruct H; cbn [isize ssize]; try lia;
    try match goal with H : In _ _ |- _ => first [apply (many_in (fun a => many ssize (snd a))) in H] end; cbn [snd] in *; rewrite ?opt_some; try lia.
  rewrite many_app. unfold many at 2. cbn [map list_sum fold_right]. lia.
Qed.

(** ** The control flow is that of Flow/Model.v *)
Notation fvisit := (Flow.Model.visit f_zero tt).
Notation fblock := (Flow.Model.visit_block f_zero).
Lemma f_then bf (x : Flow.Model.stmt F unit) r : fblock bf (Flow.Model.Then tt x r) =
  if Flow.Model.terminates bf then (bf, [Flow.Model.Unreachable tt]) else let '(st, rs) := fvisit x in let '(t2, rs2) := fblock (Flow.Model.merge bf st) r in (t2, rs ++ rs2).
Proof using Type. reflexivity. Qed.
Lemma f_arm bf al (c : expr) (x : Flow.Model.block F unit) r : Flow.Model.visit_arms f_zero bf al (Flow.Model.Arm tt c x r) =
  let r1 := if al then [Flow.Model.UnreachableIf tt] else [] in
  let '(st, rs) := fblock Flow.Model.allfalse x in
  let '(t2, al2, r2) := match Flow.Model.is_truthy f_zero c with
                            | Some true => (Flow.Model.merge_false bf st, true, [Flow.Model.AlwaysTrue tt])
                            | Some false => (bf, al, [Flow.Model.AlwaysFalse tt])
                            | None => (Flow.Model.merge_false bf st, al, [])
                            end in
  let '(t3, al3, rs3) := Flow.Model.visit_arms f_zero t2 al2 r in (t3, al3, r1 ++ rs ++ r2 ++ rs3).
Proof using Type. reflexivity. Qed.
Lemma f_case bf (x : Flow.Model.block F unit) r : Flow.Model.visit_cases f_zero bf (Flow.Model.Case x r) =
  let '(st, rs) := fblock Flow.Model.allfalse x in let '(t2, rs2) := Flow.Model.visit_cases f_zero (Flow.Model.merge_false bf st) r in (t2, rs ++ rs2).
Proof using Type. reflexivity. Qed.
Definition flow_ok (sp : bool) (s : stmt) : Prop := forall l, snd (fst (visit_stmt sp l s)) = fst (fvisit (erase s)).
Lemma block_flow sp b : (forall s, In s b -> flow_ok sp s) -> forall top bf l, snd (fst (run_block (visit_stmt sp) top bf l b)) = fst (fblock bf (erase_block b)).
Proof using Type.
  induction b as [|s b IH]; intros H top bf l; [reflexivity|].
  cbn [run_block]. unfold erase_block. cbn [erase_list]. rewrite f_then. destruct (Flow.Model.terminates bf); [reflexivity|].
  pose proof (H s (or_introl eq_refl) l) as Hs. destruct (visit_stmt sp l s) as [[l1 st] ev1]. cbn [fst snd] in Hs. rewrite Hs. clear Hs st.
  destruct (fvisit (erase s)) as [st rs]. cbn [fst].
  specialize (IH (fun s' Hs' => H s' (or_intror Hs')) (top && is_setting s) (Flow.Model.merge bf st) l1).
  destruct (run_block (visit_stmt sp) (top && is_setting s) (Flow.Model.merge bf st) l1 b) as [[l2 st2] ev2]. cbn [fst snd] in IH |- *. rewrite IH. unfold erase_block.
  destruct (fblock (Flow.Model.merge bf st) (erase_list erase b)) as [t2 rs2]. reflexivity.
Qed.
Lemma inner_flow sp b l : (forall s, In s b -> flow_ok sp s) -> snd (fst (inner (visit_stmt sp) l b)) = flow_of b.
Proof using Type. intros H. apply (block_flow sp b H). Qed.
Lemma arms_flow sp look l (arms : list (expr * list stmt)) : (forall c b s, In (c, b) arms -> In s b -> flow_ok sp s) -> forall bf al,
  fst (run_arms f_zero (visit_stmt sp) look bf al l arms) = fst (Flow.Model.visit_arms f_zero bf al (erase_arms erase arms)).
Proof using Type.
  induction arms as [|[c b] arms IH]; intros H bf al; [reflexivity|].
  cbn [run_arms erase_arms]. rewrite f_arm. cbv zeta.
  pose proof (inner_flow sp b l (fun s Hs => H c b s (or_introl eq_refl) Hs)) as Hb. destruct (inner (visit_stmt sp) l b) as [[l1 st] ev1]. cbn [fst snd] in Hb. subst st.
  unfold StmtsSpec.flow_of, erase_block. destruct (fblock Flow.Model.allfalse (erase_list erase b)) as [st rs]. cbn [fst]. unfold truthy.
  specialize (IH (fun c' b' s Hc Hs => H c' b' s (or_intror Hc) Hs)).
  destruct (Flow.Model.is_truthy f_zero c) as [[|]|]; cbn zeta;
    match goal with |- context [run_arms _ _ _ ?x ?y l arms] => specialize (IH x y); destruct (run_arms f_zero (visit_stmt sp) look x y l arms) as [[? ?] ?]; destruct (Flow.Model.visit_arms f_zero x y (erase_arms erase arms)) as [[? ?] ?] end;
    cbn [fst] in IH |- *; exact IH.
Qed.
Lemma cases_flow sp look l (cs : list (list case * list stmt)) : (forall c b s, In (c, b) cs -> In s b -> flow_ok sp s) -> forall bf,
  fst (run_cases (visit_stmt sp) look bf l cs) = fst (Flow.Model.visit_cases f_zero bf (erase_cases erase cs)).
Proof using Type.
  induction cs as [|[c b] cs IH]; intros H bf; [reflexivity|].
  cbn [run_cases erase_cases]. rewrite f_case.
  pose proof (inner_flow sp b l (fun s Hs => H c b s (or_introl eq_refl) Hs)) as Hb. destruct (inner (visit_stmt sp) l b) as [[l1 st] ev1]. cbn [fst snd] in Hb. subst st.
  unfold StmtsSpec.flow_of, erase_block. destruct (fblock Flow.Model.allfalse (erase_list erase b)) as [st rs]. cbn [fst].
  specialize (IH (fun c' b' s Hc Hs => H c' b' s (or_intror Hc) Hs) (Flow.Model.merge_false bf st)).
  destruct (run_cases (visit_stmt sp) look (Flow.Model.merge_false bf st) l cs) as [? ?], (Flow.Model.visit_cases f_zero (Flow.Model.merge_false bf st) (erase_cases erase cs)) as [? ?]. cbn [fst] in IH |- *. exact IH.
Qed.
Lemma kids_arms (A : Type) (l : list (A * list stmt)) c b s : In (c, b) l -> In s b -> ssize s < many (fun a => many ssize (snd a)) l.
Proof using Type. intros H1 H2. apply (many_in (fun a => many ssize (snd a))) in H1. cbn [snd] in H1. apply (many_in ssize) in H2. lia. Qed.
Lemma flow_stmt n : forall s sp, ssize s < n -> flow_ok sp s.
Proof using Type.
  induction n as [|n IH]; intros s sp Hn l; [lia|].
  assert (K : forall b, many ssize b < n -> forall sp' s', In s' b -> flow_ok sp' s') by (intros b Hb sp' s' Hi; apply IH; apply (many_in ssize) in Hi; lia).
  assert (B : forall b sp' l', many ssize b < n -> snd (fst (inner (visit_stmt sp') l' b)) = fst (fblock Flow.Model.allfalse (erase_list erase b))) by (intros b sp' l' Hb; apply (inner_flow sp' b l'); apply K; exact Hb).
  Ltac block_step B := match goal with |- context [inner (Stmts.visit_stmt _ _ _ _ _ _ _ _ _ ?p) ?l ?b] =>
      let H := fresh "Hb" in assert (H := B b p l ltac:(cbn [ssize] in *; rewrite ?opt_some in *; lia)); destruct (inner (visit_stmt p) l b) as [[? ?] ?]; cbn [fst snd] in H; subst end.
  destruct s as [e|[e|]|e|c b|b c|arms els|b|init test inc b|ty x it o b|ty k it v o b|ty x a e step b|d|ds|x m v|d b|e cs d|b ps h|x|x|x|x b|e|e]; cbn [Stmts.visit_stmt erase]; try reflexivity.
  - destruct (visit_expr sp l None e) as [a evs]. reflexivity.
  - block_step B. cbn [fst snd]. change (fvisit (Flow.Model.While c (erase_list erase b))) with (let '(st, rs) := fblock Flow.Model.allfalse (erase_list erase b) in (Flow.Model.end_loop st, rs)). destruct (fblock Flow.Model.allfalse (erase_list erase b)). reflexivity.
  - block_step B. change (fvisit (Flow.Model.DoWhile (erase_list erase b) c)) with (let '(st, rs) := fblock Flow.Model.allfalse (erase_list erase b) in if Flow.Model.terminates_loop st then (st, rs ++ [Flow.Model.NeverTested tt]) else (Flow.Model.end_loop st, rs)).
    destruct (fblock Flow.Model.allfalse (erase_list erase b)). cbn [fst]. destruct (Flow.Model.terminates_loop _); reflexivity.
  - cbn [ssize] in Hn.
    pose proof (arms_flow sp (fun e => map Said (snd (visit_expr sp l None e))) l arms (fun c b s Hc Hs => IH s sp ltac:(pose proof (kids_arms _ arms c b s Hc Hs); lia)) Flow.Model.alltrue false) as Ha.
    destruct (run_arms f_zero (visit_stmt sp) (fun e => map Said (snd (visit_expr sp l None e))) Flow.Model.alltrue false l arms) as [[st al] evs]. cbn [fst] in Ha.
    change (fvisit (Flow.Model.If (erase_arms erase arms) (erase_option erase els))) with
      (let '(st, always, rs) := Flow.Model.visit_arms f_zero Flow.Model.alltrue false (erase_arms erase arms) in
       match erase_option erase els with
       | Flow.Model.SomeBlock b =>
          let r := match b with Flow.Model.Then l _ _ => if always then [Flow.Model.UnreachableElse l] else [] | Flow.Model.End => [] end in
          let '(st2, rs2) := fblock Flow.Model.allfalse b in
          (Flow.Model.finalize (Flow.Model.merge_false st st2), rs ++ r ++ rs2)
       | Flow.Model.NoBlock => (Flow.Model.no_else st, rs)
       end).
    destruct (Flow.Model.visit_arms f_zero Flow.Model.alltrue false (erase_arms erase arms)) as [[st' al'] rs]. cbn [fst] in Ha. injection Ha as -> ->.
    destruct els as [b|]; [|reflexivity]. block_step B. cbn [erase_option]. cbv zeta. destruct (fblock Flow.Model.allfalse (erase_list erase b)). reflexivity.
  - block_step B. change (fvisit (Flow.Model.ForInfinite (erase_list erase b))) with (let '(st, rs) := fblock Flow.Model.allfalse (erase_list erase b) in (Flow.Model.end_loop st, rs)). destruct (fblock Flow.Model.allfalse (erase_list erase b)). reflexivity.
  - change (fvisit (Flow.Model.ForLoop (option_map erase_part init) test (option_map erase_part inc) (erase_list erase b))) with (let '(st, rs) := fblock Flow.Model.allfalse (erase_list erase b) in (Flow.Model.end_loop st, Flow.Model.loop_check f_zero tt test ++ rs)).
    repeat match goal with |- context [let '(l1, _) := ?x in _] => destruct x as [? ?] end.
    reflexivity.
  - change (fvisit (Flow.Model.ForEach (erase_list erase b))) with (let '(st, rs) := fblock Flow.Model.allfalse (erase_list erase b) in (Flow.Model.end_loop st, rs)). destruct (visit_typed sp l ty x None) as [? ?]. block_step B. destruct (fblock Flow.Model.allfalse (erase_list erase b)). reflexivity.
  - change (fvisit (Flow.Model.ForEach (erase_list erase b))) with (let '(st, rs) := fblock Flow.Model.allfalse (erase_list erase b) in (Flow.Model.end_loop st, rs)). destruct (visit_typed sp l ty k None) as [l1 ?]. destruct (visit_var sp l1 [] v None) as [? ?]. block_step B. destruct (fblock Flow.Model.allfalse (erase_list erase b)). reflexivity.
  - change (fvisit (Flow.Model.ForRange a e step (erase_list erase b))) with (let '(st, rs) := fblock Flow.Model.allfalse (erase_list erase b) in
      match Flow.Model.as_term a, Flow.Model.as_term e with
      | Some x, Some y =>
          match Flow.Model.valid_for_range x y step with
          | Some false => (Flow.Model.end_loop st, rs ++ [Flow.Model.NeverEntered tt])
          | Some true => (st, rs)
          | None => (Flow.Model.end_loop st, rs)
          end
      | _, _ => (Flow.Model.end_loop st, rs)
      end).
    destruct (visit_typed sp l ty x (Some a)) as [l1 ?]. block_step B. destruct (fblock Flow.Model.allfalse (erase_list erase b)). cbn [fst].
    destruct (Flow.Model.as_term a) as [y|], (Flow.Model.as_term e) as [z|]; try reflexivity. destruct (Flow.Model.valid_for_range y z step) as [[|]|]; reflexivity.
  - destruct (visit_decl sp l d). reflexivity.
  - destruct (visit_decls sp l ds). reflexivity.
  - destruct (inner (visit_stmt true) l b) as [[? ?] ?]. change (fvisit (Flow.Model.Spawn (erase_list erase b))) with (let '(_, rs) := fblock Flow.Model.allfalse (erase_list erase b) in (Flow.Model.allfalse, rs)). destruct (fblock Flow.Model.allfalse (erase_list erase b)). reflexivity.
  - cbn [ssize] in Hn.
    pose proof (cases_flow sp (fun e => map Said (snd (visit_expr sp l None e))) l cs (fun c b s Hc Hs => IH s sp ltac:(pose proof (kids_arms _ cs c b s Hc Hs); lia)) Flow.Model.alltrue) as Ha.
    destruct (run_cases (visit_stmt sp) (fun e => map Said (snd (visit_expr sp l None e))) Flow.Model.alltrue l cs) as [st evs]. cbn [fst] in Ha. subst st.
    change (fvisit (Flow.Model.Switch (erase_cases erase cs) (erase_option erase d))) with
      (let '(st, rs) := Flow.Model.visit_cases f_zero Flow.Model.alltrue (erase_cases erase cs) in
       match erase_option erase d with
       | Flow.Model.SomeBlock b => let '(st2, rs2) := fblock Flow.Model.allfalse b in (Flow.Model.finalize (Flow.Model.merge_false st st2), rs ++ rs2)
       | Flow.Model.NoBlock => (Flow.Model.no_else st, rs)
       end).
    destruct (Flow.Model.visit_cases f_zero Flow.Model.alltrue (erase_cases erase cs)) as [st' rs]. cbn [fst].
    destruct d as [b|]; [|reflexivity]. block_step B. cbn [erase_option]. destruct (fblock Flow.Model.allfalse (erase_list erase b)). reflexivity.
  - change (fvisit (Flow.Model.TryCatch (erase_list erase b) (erase_list erase h))) with (let '(_, rs1) := fblock Flow.Model.allfalse (erase_list erase b) in let '(_, rs2) := fblock Flow.Model.allfalse (erase_list erase h) in (Flow.Model.allfalse, rs1 ++ rs2)).
    destruct (fblock Flow.Model.allfalse (erase_list erase b)), (fblock Flow.Model.allfalse (erase_list erase h)). destruct (inner (visit_stmt sp) l b) as [[? ?] ?]. destruct (visit_caught sp l ps) as [lc ?]. destruct (inner (visit_stmt sp) lc h) as [[? ?] ?]. reflexivity.
  - change (fvisit (Flow.Model.Label x (erase_list erase b))) with (let '(_, rs) := fblock Flow.Model.allfalse (erase_list erase b) in (Flow.Model.allfalse, rs)). destruct (inner (visit_stmt sp) l b) as [[? ?] ?]. destruct (fblock Flow.Model.allfalse (erase_list erase b)). reflexivity.
Qed.
Lemma stmt_flow sp s : flow_ok sp s. Proof using Type. apply (flow_stmt (S (ssize s))). lia. Qed.

(** ** The variables *)
Lemma value_iff sp l h e a : value_of_expr l h e a <-> fst (visit_expr sp l h e) = a.
Proof using Type. unfold StmtsSpec.value_of_expr, Stmts.visit_expr. apply C69_types. Qed.
Lemma typed_is path im : exists s : sty, var_type t path s /\ x_type (fst (var_typed (F := F) (L := L) t path im)) = s /\ forall s' : sty, var_type t path s' -> s' = s.
Proof using Type.
  destruct (var_typed_is F V D L t path im) as (s & Hs & E). exists s. split; [exact Hs|]. split; [rewrite E; reflexivity|].
  intros s' Hs'. pose proof (var_typed_eq F V D L t path im s' Hs') as E'. rewrite E in E'. injection E' as ->. reflexivity.
Qed.
Lemma typed_iff path im (s : sty) : var_type t path s <-> x_type (fst (var_typed (F := F) (L := L) t path im)) = s.
Proof using Type. destruct (typed_is path im) as (s0 & H0 & E & U). split; [intros H; rewrite E; symmetry; apply U; exact H|intros <-; rewrite E; exact H0]. Qed.
Lemma var_eq sp l path x o : visit_var sp l path x o =
  let s := x_type (fst (var_typed (F := F) (L := L) t path false)) in
  ((x, {| x_type := s; x_val := match o with Some e => x_val (fst (visit_expr sp l (basic_type s) e)) | None => Some VOther end;
          x_impure := match o with Some e => x_impure (fst (visit_expr sp l (basic_type s) e)) | None => false end |}) :: l,
   map Said (snd (var_typed (F := F) (L := L) t path false)) ++ match o with Some e => map Said (snd (visit_expr sp l (basic_type s) e)) | None => [] end).
Proof using Type.
  unfold Stmts.visit_var. destruct (var_typed t path false) as [s evs]. cbn [fst snd]. cbv zeta. destruct o as [e|]; [|rewrite app_nil_r; reflexivity].
  destruct (visit_expr sp l (basic_type (x_type s)) e) as [a evs']. reflexivity.
Qed.
Lemma declared_iff sp l path x o l' : declared l path x o l' <-> fst (visit_var sp l path x o) = l'.
Proof using Type.
  rewrite var_eq. cbv zeta. cbn [fst]. split.
  - intros H. destruct H as [e s a Hs Ha|s Hs]; apply (typed_iff path false) in Hs; rewrite Hs; [|reflexivity]. apply (value_iff sp) in Ha. rewrite Ha. reflexivity.
  - intros <-. destruct o as [e|].
    + apply dl_value; [apply (typed_iff path false); reflexivity|]. apply (value_iff sp). reflexivity.
    + apply dl_null. apply (typed_iff path false). reflexivity.
Qed.
Lemma all_declared_iff sp ds l l' : all_declared l ds l' <-> fst (visit_decls sp l ds) = l'.
Proof using Type.
  revert l. induction ds as [|d ds IH]; intros l; cbn [Stmts.visit_decls].
  - split; [intros H; inversion H; reflexivity|intros <-; constructor].
  - unfold Stmts.visit_decl. pose proof (declared_iff sp l (v_path (v_type d)) (v_name d) (v_value d)) as Hd. destruct (visit_var sp l (v_path (v_type d)) (v_name d) (v_value d)) as [l1 ev1]. cbn [fst] in Hd.
    specialize (IH l1). destruct (visit_decls sp l1 ds) as [l2 ev2]. cbn [fst] in IH |- *. split.
    + intros H. inversion H as [|? ? l1' ? ? H1 H2]; subst. apply Hd in H1. subst l1'. apply IH. exact H2.
    + intros E. apply (ad_cons _ _ _ _ _ _ _ _ _ _ _ l d l1 ds l'); [apply Hd; reflexivity|apply IH; exact E].
Qed.
Lemma loop_var_iff sp l x o ty l' : loop_var l x o ty l' <-> fst (visit_typed sp l ty x o) = l'.
Proof using Type.
  unfold Stmts.visit_typed. destruct ty as [ty|].
  - split; [intros H; inversion H; subst; apply declared_iff; assumption|intros H; constructor; apply (declared_iff sp); exact H].
  - cbn [fst]. split; [intros H; inversion H; reflexivity|intros <-; constructor].
Qed.
Lemma flag_iff w : existsb (text_eqb w) flag_names = true <-> flag w.
Proof using Type. rewrite mem_text. unfold flag, flag_names. cbn [map In]. clear - w; tauto. Qed.
Lemma drop_iff p q : drop_flags p = q <-> exists fs, p = fs ++ q /\ (forall w, In w fs -> flag w) /\ forall w r, q = w :: r -> ~ flag w.
Proof using Type.
  revert q. induction p as [|w p IH]; intros q; cbn [drop_flags].
  - split; [intros <-; exists []; split; [reflexivity|]; split; [intros w []|discriminate]|]. intros (fs & E & _). symmetry in E. apply app_eq_nil in E as [_ ->]. reflexivity.
  - destruct (existsb (text_eqb w) flag_names) eqn:E.
    + apply flag_iff in E. rewrite IH. split.
      * intros (fs & -> & Hf & Hq). exists (w :: fs). split; [reflexivity|]. split; [|exact Hq]. intros w' [<-|H]; [exact E|apply Hf; exact H].
      * intros (fs & Ef & Hf & Hq). destruct fs as [|w' fs]; [cbn [app] in Ef; subst q; exfalso; exact (Hq w p eq_refl E)|]. injection Ef as <- ->. exists fs. split; [reflexivity|]. split; [intros w' H; apply Hf; right; exact H|exact Hq].
    + assert (N : ~ flag w) by (intros H; apply flag_iff in H; congruence). split.
      * intros <-. exists []. split; [reflexivity|]. split; [intros w' []|]. intros w' r H. injection H as <- <-. exact N.
      * intros (fs & Ef & Hf & Hq). destruct fs as [|w' fs]; [exact Ef|]. injection Ef as <- ->. exfalso. apply N. apply Hf. left. reflexivity.
Qed.
Lemma not_flag_var : ~ flag (lit "var").
Proof using Type. unfold flag. cbn [map In]. intros H. repeat (destruct H as [H|H]; [discriminate H|]). exact H. Qed.
Lemma caught_iff p path x : catches p path x <-> caught p = Some (x, path).
Proof using Type.
  unfold caught. split.
  - intros H. destruct H as [v fs path x Hv Hf Hp]. rewrite !app_assoc, rev_app_distr. cbn [rev app]. rewrite rev_involutive. f_equal. f_equal.
    assert (Ed : drop_flags (fs ++ path) = path) by (apply drop_iff; exists fs; split; [reflexivity|split; [exact Hf|exact Hp]]).
    destruct Hv as [-> | [-> Hh]].
    + rewrite <- app_assoc. cbn [app]. destruct (text_eqb_spec (lit "var") (lit "var")) as [_|N]; [exact Ed|contradiction].
    + cbn [app]. destruct (fs ++ path) as [|w r]; [exact Ed|]. destruct (text_eqb_spec w (lit "var")) as [->|_]; [contradiction Hh; reflexivity|exact Ed].
  - destruct (rev p) as [|y front] eqn:Er; [discriminate|]. intros H. injection H as <- H.
    assert (Ep : p = rev front ++ [y]) by (rewrite <- (rev_involutive p), Er; reflexivity). rewrite Ep. clear p Er Ep.
    destruct (rev front) as [|w r] eqn:Ef.
    + cbn [drop_flags] in H. subst path. apply (ct [] [] [] y); [right; split; [reflexivity|discriminate]|intros w []|discriminate].
    + revert H. change (text_eqb w [118%N; 97%N; 114%N]) with (text_eqb w (lit "var")). destruct (text_eqb_spec w (lit "var")) as [->|N].
      * intros H. apply drop_iff in H as (fs & -> & Hf & Hp). rewrite app_comm_cons. rewrite <- (app_assoc (lit "var" :: fs)). apply (ct [lit "var"] fs path y); [left; reflexivity|exact Hf|exact Hp].
      * intros H. apply drop_iff in H as (fs & E & Hf & Hp). rewrite E, <- app_assoc. apply (ct [] fs path y); [|exact Hf|exact Hp]. right. split; [reflexivity|]. rewrite <- E. cbn [hd_error]. congruence.
Qed.
Lemma all_caught_iff sp ps l l' : all_caught l ps l' <-> fst (visit_caught sp l ps) = l'.
Proof using Type.
  revert l. induction ps as [|p ps IH]; intros l; cbn [Stmts.visit_caught].
  - split; [intros H; inversion H; reflexivity|intros <-; constructor].
  - destruct (caught p) as [[x path]|] eqn:Ec.
    + pose proof (declared_iff sp l path x None) as Hd. destruct (visit_var sp l path x None) as [l1 ev1]. cbn [fst] in Hd. specialize (IH l1). destruct (visit_caught sp l1 ps) as [l2 ev2]. cbn [fst] in IH |- *.
      split.
      * intros H. inversion H as [|? ? ? Hr|? ? path' x' l1' ? ? H1 H2 H3]; subst; [discriminate Ec|]. apply caught_iff in H1. rewrite Ec in H1. injection H1 as <- <-. apply Hd in H2. subst l1'. apply IH. exact H3.
      * intros E. apply (ac_cons _ _ _ _ _ _ _ _ _ _ _ l p path x l1); [apply caught_iff; exact Ec|apply Hd; reflexivity|apply IH; exact E].
    + assert (p = []) as ->. { unfold caught in Ec. destruct (rev p) as [|y r] eqn:Er; [|discriminate]. rewrite <- (rev_involutive p), Er. reflexivity. }
      rewrite <- IH. split; [|apply ac_empty]. intros H. inversion H as [|? ? ? Hr|? ? path' x' l1' ? ? H1 H2 H3]; subst; [exact Hr|]. apply caught_iff in H1. discriminate H1.
Qed.
Ltac open_pairs := repeat match goal with |- context [let '(_, _) := ?x in _] => destruct x as [? ?] end.
Lemma after_iff sp l s l' : after l s l' <-> fst (fst (visit_stmt sp l s)) = l'.
Proof using Type.
  assert (O : (forall d, s <> Var d) -> (forall ds, s <> Vars ds) -> (forall e, s <> Return (Some e)) -> fst (fst (visit_stmt sp l s)) = l).
  { intros H1 H2 H3. destruct s as [e|[e|]|e|c b|b c|arms els|b|init test inc b|ty x it o b|ty k it v o b|ty x a e step b|d|ds|x m v|d b|e cs d|b ps h|x|x|x|x b|e|e]; cbn [Stmts.visit_stmt];
      try reflexivity; try (exfalso; eapply H1; reflexivity); try (exfalso; eapply H2; reflexivity); try (exfalso; eapply H3; reflexivity).
    - destruct (inner (visit_stmt sp) l b) as [[? ?] ?]. reflexivity.
    - destruct (inner (visit_stmt sp) l b) as [[? st] ?]. destruct (Flow.Model.terminates_loop st); reflexivity.
    - destruct (run_arms _ _ _ _ _ _ _) as [[? ?] ?]. destruct els as [bb|]; [|reflexivity]. destruct (inner (visit_stmt sp) l bb) as [[? st] ?]. reflexivity.
    - destruct (inner (visit_stmt sp) l b) as [[? ?] ?]. reflexivity.
    - repeat match goal with |- context [let '(_, _) := ?x in _] => destruct x as [? ?] end. reflexivity.
    - repeat match goal with |- context [let '(_, _) := ?x in _] => destruct x as [? ?] end. reflexivity.
    - repeat match goal with |- context [let '(_, _) := ?x in _] => destruct x as [? ?] end. reflexivity.
    - repeat match goal with |- context [let '(_, _) := ?x in _] => destruct x as [? ?] end. reflexivity.
    - destruct (inner (visit_stmt true) l b) as [[? ?] ?]. reflexivity.
    - destruct (run_cases _ _ _ _ _) as [? ?]. destruct d as [bb|]; [|reflexivity]. destruct (inner (visit_stmt sp) l bb) as [[? st] ?]. reflexivity.
    - destruct (inner (visit_stmt sp) l b) as [[? ?] ?]. destruct (visit_caught sp l ps) as [lc ?]. destruct (inner (visit_stmt sp) lc h) as [[? ?] ?]. reflexivity.
    - destruct (inner (visit_stmt sp) l b) as [[? ?] ?]. reflexivity. }
  split.
  - intros H. destruct H as [d l' H|ds l' H|e a H|s H1 H2 H3].
    + cbn [Stmts.visit_stmt]. unfold Stmts.visit_decl. apply (declared_iff sp) in H. destruct (visit_var sp l _ _ _) as [l1 evs]. exact H.
    + cbn [Stmts.visit_stmt]. apply (all_declared_iff sp) in H. destruct (visit_decls sp l ds) as [l1 evs]. exact H.
    + cbn [Stmts.visit_stmt]. apply (value_iff sp) in H. destruct (visit_expr sp l None e) as [a' evs]. cbn [fst] in H |- *. rewrite H. reflexivity.
    + apply O; assumption.
  - intros <-. assert (C : (exists d, s = Var d) \/ (exists ds, s = Vars ds) \/ (exists e, s = Return (Some e)) \/ ((forall d, s <> Var d) /\ (forall ds, s <> Vars ds) /\ (forall e, s <> Return (Some e)))).
    { clear O. destruct s as [e|[e|]|e|c b|b c|arms els|b|init test inc b|ty x it o b|ty k it v o b|ty x a e step b|d|ds|x m v|d b|e cs d|b ps h|x|x|x|x b|e|e];
        first [left; eexists; reflexivity|right; left; eexists; reflexivity|right; right; left; eexists; reflexivity|right; right; right; repeat split; discriminate]. }
    destruct C as [(d & ->)|[(ds & ->)|[(e & ->)|(H1 & H2 & H3)]]].
    + cbn [Stmts.visit_stmt]. unfold Stmts.visit_decl. apply af_var. pose proof (declared_iff sp l (v_path (v_type d)) (v_name d) (v_value d)) as Hd. destruct (visit_var sp l _ _ _) as [l1 evs]. apply Hd. reflexivity.
    + cbn [Stmts.visit_stmt]. apply af_vars. pose proof (all_declared_iff sp ds l) as Hd. destruct (visit_decls sp l ds) as [l1 evs]. apply Hd. reflexivity.
    + cbn [Stmts.visit_stmt]. pose proof (value_iff sp l None e) as Hv. destruct (visit_expr sp l None e) as [a evs]. cbn [fst]. apply af_return. apply Hv. reflexivity.
    + rewrite O; [|assumption..]. apply af_other; assumption.
Qed.
Lemma maybe_after_iff sp l o l' : maybe_after l o l' <-> match o with Some s => fst (fst (visit_stmt sp l s)) | None => l end = l'.
Proof using Type. split; [intros H; destruct H; [reflexivity|apply after_iff; assumption]|]. destruct o as [s|]; [intros H; apply ma_some; apply (after_iff sp); exact H|intros <-; apply ma_none]. Qed.

(** ** Blocks *)
Lemma run_scope b : forall l, exists l', through l b l'.
Proof. induction b as [|s b IH]; intros l; [exists l; constructor|]. destruct (IH (fst (fst (visit_stmt false l s)))) as (l' & H). exists l'. apply tr_cons with (l1 := fst (fst (visit_stmt false l s))); [apply (after_iff false); reflexivity|exact H]. Qed.
Lemma init_scope l (o : option stmt) : exists l', maybe_after l o l'.
Proof. eexists. apply (maybe_after_iff false). reflexivity. Qed.
Lemma decl_scope l (ds : list vardecl) : exists l', all_declared l ds l'.
Proof. eexists. apply (all_declared_iff false). reflexivity. Qed.
Lemma flow_snoc b1 s : ~ stops b1 -> flow_of (b1 ++ [s]) = Flow.Model.merge (flow_of b1) (fst (fvisit (erase s))).
Proof using Type.
  unfold StmtsSpec.stops, StmtsSpec.flow_of, erase_block. generalize Flow.Model.allfalse as bf. induction b1 as [|x b1 IH]; intros bf H; cbn [app erase_list] in *.
  - rewrite f_then. cbn [Flow.Model.visit_block] in H |- *. cbn [fst] in H |- *. destruct (Flow.Model.terminates bf) eqn:E; [contradiction H; reflexivity|]. destruct (fvisit (erase s)) as [st rs]. reflexivity.
  - rewrite f_then in H |- *. rewrite f_then. destruct (Flow.Model.terminates bf) eqn:E; [contradiction H; exact E|]. destruct (fvisit (erase x)) as [st rs]. specialize (IH (Flow.Model.merge bf st)).
    destruct (fblock (Flow.Model.merge bf st) (erase_list erase b1)) as [t2 rs2]. destruct (fblock (Flow.Model.merge bf st) (erase_list erase (b1 ++ [s]))) as [t3 rs3]. cbn [fst] in *. apply IH. exact H.
Qed.
Lemma stops_app b1 b2 : stops b1 -> flow_of (b1 ++ b2) = flow_of b1.
Proof using Type.
  unfold StmtsSpec.stops, StmtsSpec.flow_of, erase_block. generalize Flow.Model.allfalse as bf. induction b1 as [|x b1 IH]; intros bf H; cbn [app erase_list] in *.
  - cbn [Flow.Model.visit_block fst] in H |- *. destruct b2 as [|y b2]; [reflexivity|]. cbn [erase_list]. rewrite f_then, H. reflexivity.
  - rewrite f_then in H |- *. rewrite f_then. destruct (Flow.Model.terminates bf) eqn:E; [reflexivity|]. destruct (fvisit (erase x)) as [st rs]. specialize (IH (Flow.Model.merge bf st)).
    destruct (fblock (Flow.Model.merge bf st) (erase_list erase b1)) as [t2 rs2]. destruct (fblock (Flow.Model.merge bf st) (erase_list erase (b1 ++ b2))) as [t3 rs3]. cbn [fst] in *. apply IH. exact H.
Qed.
Lemma stops_more b1 b2 : stops b1 -> stops (b1 ++ b2).
Proof using Type. intros H. unfold StmtsSpec.stops. rewrite stops_app; exact H. Qed.
Lemma stops_dec b : stops b \/ ~ stops b.
Proof using Type. unfold StmtsSpec.stops. destruct (Flow.Model.terminates (flow_of b)); [left; reflexivity|right; discriminate]. Qed.
Lemma next_flow sp l b0 s : ~ stops b0 -> Flow.Model.merge (flow_of b0) (snd (fst (visit_stmt sp l s))) = flow_of (b0 ++ [s]).
Proof using Type. intros H. rewrite flow_snoc; [|exact H]. rewrite (stmt_flow sp s l). reflexivity. Qed.
Lemma nil_not_stops : ~ stops []. Proof using Type. unfold StmtsSpec.stops. discriminate. Qed.
Lemma block_cons sp top b0 l s b : ~ stops b0 -> run_block (visit_stmt sp) top (flow_of b0) l (s :: b) =
  let r := run_block (visit_stmt sp) (top && is_setting s) (flow_of (b0 ++ [s])) (fst (fst (visit_stmt sp l s))) b in
  (fst r, setting_fault top s ++ snd (visit_stmt sp l s) ++ snd r).
Proof using Type.
  intros H. cbn [run_block]. unfold StmtsSpec.stops in H. destruct (Flow.Model.terminates (flow_of b0)) eqn:E; [contradiction H; reflexivity|]. pose proof (next_flow sp l b0 s) as N. unfold StmtsSpec.stops in N. rewrite E in N. specialize (N H).
  destruct (visit_stmt sp l s) as [[l1 st] ev1]. cbn [fst snd] in *. rewrite N. cbv zeta. destruct (run_block _ _ _ _ _) as [[l2 st2] ev2]. reflexivity.
Qed.
Lemma block_stop sp top b0 l s b : stops b0 -> run_block (visit_stmt sp) top (flow_of b0) l (s :: b) = (l, flow_of b0, [Flows (Flow.Model.Unreachable tt)]).
Proof using Type. intros H. cbn [run_block]. unfold StmtsSpec.stops in H. rewrite H. reflexivity. Qed.
Lemma block_says sp b : forall top b0 l ev, In ev (snd (run_block (visit_stmt sp) top (flow_of b0) l b)) <->
  (exists b1 s b2, b = b1 ++ s :: b2 /\ stops (b0 ++ b1) /\ ev = Flows (Flow.Model.Unreachable tt)) \/
  (exists b1 s b2 l', b = b1 ++ s :: b2 /\ through l b1 l' /\ ~ stops (b0 ++ b1) /\ (In ev (setting_fault (top && forallb is_setting b1) s) \/ In ev (snd (visit_stmt sp l' s)))).
Proof using Type.
  induction b as [|s b IH]; intros top b0 l ev.
  - cbn [run_block snd In]. split; [intros []|]. intros [(b1 & s & b2 & E & _)|(b1 & s & b2 & l' & E & _)]; destruct b1; discriminate E.
  - destruct (stops_dec b0) as [S|S].
    + rewrite block_stop by exact S. cbn [snd In]. split.
      * intros [<-|[]]. left. exists [], s, b. split; [reflexivity|]. split; [rewrite app_nil_r; exact S|reflexivity].
      * intros [(b1 & s' & b2 & _ & _ & ->)|(b1 & s' & b2 & l' & _ & _ & N & _)]; [left; reflexivity|]. contradiction N. apply stops_more. exact S.
    + rewrite block_cons by exact S. cbv zeta. cbn [snd]. rewrite !in_app_iff, IH. clear IH. pose proof (after_iff sp l s) as Ha. split.
      * intros [H|[H|[(b1 & s' & b2 & -> & Hs & ->)|(b1 & s' & b2 & l' & -> & Ht & Hn & H)]]].
        -- right. exists [], s, b, l. split; [reflexivity|]. split; [constructor|]. split; [rewrite app_nil_r; exact S|]. left. cbn [forallb]. rewrite andb_true_r. exact H.
        -- right. exists [], s, b, l. split; [reflexivity|]. split; [constructor|]. split; [rewrite app_nil_r; exact S|]. right. exact H.
        -- left. exists (s :: b1), s', b2. split; [reflexivity|]. rewrite <- app_assoc in Hs. split; [exact Hs|reflexivity].
        -- right. exists (s :: b1), s', b2, l'. split; [reflexivity|]. rewrite <- app_assoc in Hn. split; [apply tr_cons with (l1 := fst (fst (visit_stmt sp l s))); [apply Ha; reflexivity|exact Ht]|]. split; [exact Hn|]. cbn [forallb]. rewrite andb_assoc. exact H.
      * intros [(b1 & s' & b2 & E & Hs & ->)|(b1 & s' & b2 & l' & E & Ht & Hn & H)].
        -- destruct b1 as [|x b1]; [rewrite app_nil_r in Hs; contradiction|]. injection E as <- ->. right. right. left. exists b1, s', b2. split; [reflexivity|]. rewrite <- app_assoc. split; [exact Hs|reflexivity].
        -- destruct b1 as [|x b1].
           ++ injection E as <- <-. inversion Ht; subst. cbn [forallb] in H. rewrite andb_true_r in H. destruct H as [H|H]; [left; exact H|right; left; exact H].
           ++ injection E as <- ->. inversion Ht as [|? ? l1 ? ? H1 H2]; subst. apply Ha in H1. subst l1. right. right. right. exists b1, s', b2, l'. split; [reflexivity|]. split; [exact H2|]. rewrite <- app_assoc. split; [exact Hn|].
              cbn [forallb] in H. rewrite andb_assoc in H. exact H.
Qed.
Lemma block_left sp b : forall top b0 l l', (forall c1 c2, b0 = c1 ++ c2 -> c2 <> [] -> ~ stops c1) ->
  (fst (fst (run_block (visit_stmt sp) top (flow_of b0) l b)) = l' <->
   exists b1 b2, b = b1 ++ b2 /\ through l b1 l' /\ (b2 = [] \/ stops (b0 ++ b1)) /\ forall c1 c2, b1 = c1 ++ c2 -> c2 <> [] -> ~ stops (b0 ++ c1)).
Proof using Type.
  induction b as [|s b IH]; intros top b0 l l' H0.
  - cbn [run_block fst]. split.
    + intros <-. exists [], []. split; [reflexivity|]. split; [constructor|]. split; [left; reflexivity|]. intros c1 c2 E. symmetry in E. apply app_eq_nil in E as [_ ->]. contradiction.
    + intros (b1 & b2 & E & Ht & _). symmetry in E. apply app_eq_nil in E as [-> ->]. inversion Ht. reflexivity.
  - destruct (stops_dec b0) as [S|S].
    + rewrite block_stop by exact S. cbn [fst]. split.
      * intros <-. exists [], (s :: b). split; [reflexivity|]. split; [constructor|]. split; [right; rewrite app_nil_r; exact S|]. intros c1 c2 E. symmetry in E. apply app_eq_nil in E as [_ ->]. contradiction.
      * intros (b1 & b2 & E & Ht & _ & Hn). destruct b1 as [|x b1]; [inversion Ht; reflexivity|]. exfalso. apply (Hn [] (x :: b1) eq_refl); [discriminate|]. rewrite app_nil_r. exact S.
    + rewrite block_cons by exact S. cbv zeta. cbn [fst]. pose proof (after_iff sp l s) as Ha. rewrite IH; clear IH.
      * split.
        -- intros (b1 & b2 & -> & Ht & Hs & Hn). exists (s :: b1), b2. split; [reflexivity|]. split; [apply tr_cons with (l1 := fst (fst (visit_stmt sp l s))); [apply Ha; reflexivity|exact Ht]|].
           rewrite <- app_assoc in Hs. split; [exact Hs|]. intros c1 c2 E Hc. destruct c1 as [|x c1]; [rewrite app_nil_r; exact S|]. injection E as <- ->. specialize (Hn c1 c2 eq_refl Hc). rewrite <- app_assoc in Hn. exact Hn.
        -- intros (b1 & b2 & E & Ht & Hs & Hn). destruct b1 as [|x b1].
           ++ destruct Hs as [->|Hs]; [discriminate E|]. rewrite app_nil_r in Hs. contradiction.
           ++ injection E as <- ->. inversion Ht as [|? ? l1 ? ? H1 H2]; subst. apply Ha in H1. subst l1. exists b1, b2. split; [reflexivity|]. split; [exact H2|]. rewrite <- app_assoc. split; [exact Hs|].
              intros c1 c2 -> Hc. rewrite <- app_assoc. apply (Hn (s :: c1) c2); [reflexivity|exact Hc].
      * intros c1 c2 E Hc. destruct c2 as [|y c2] using rev_ind; [contradiction|]. rewrite app_assoc in E. apply app_inj_tail in E as [-> ->]. intros Hs. apply S. apply stops_more. exact Hs.
Qed.
Lemma left_iff sp l b l' : left_with l b l' <-> fst (fst (inner (visit_stmt sp) l b)) = l'.
Proof using Type.
  unfold inner. change Flow.Model.allfalse with (flow_of []). rewrite (block_left sp b false [] l l'); [|intros c1 c2 E; symmetry in E; apply app_eq_nil in E as [_ ->]; contradiction]. reflexivity.
Qed.

(** ** What is said *)
Definition seen (i : item) : list sevent :=
  match i with IB p top l b => snd (visit_block p top l b) | IS p l s => snd (visit_stmt p l s) | IE p l h e => map Said (snd (visit_expr p l h e)) end.
Lemma static_iff (x : term F) : is_static x = true <-> constant_term x.
Proof using Type.
  unfold constant_term. split.
  - destruct x; try discriminate; intros _; [left; reflexivity|right; left; eexists; reflexivity|right; right; left; eexists; reflexivity|right; right; right; left; eexists; reflexivity|right; right; right; right; do 2 eexists; reflexivity].
  - intros [->|[(z & ->)|[(f & ->)|[(s & ->)|(p & v & ->)]]]]; reflexivity.
Qed.
Lemma as_term_iff e (x : term F) : Flow.Model.as_term e = Some x <-> e = Base x [].
Proof using Type. split; [|intros ->; reflexivity]. destruct e as [y [|f fs]| | |]; cbn [Flow.Model.as_term]; intros H; try discriminate. injection H as ->. reflexivity. Qed.
Lemma compares_iff op : match op with BEq | BNotEq | BLess | BGreater | BLessEq | BGreaterEq | BAnd | BOr => true | _ => false end = true <-> compares op.
Proof using Type. unfold compares. split; [destruct op; try discriminate; intros _; cbn [In]; clear; tauto|]. intros H. cbn [In] in H. repeat (destruct H as [<-|H]; [reflexivity|]). contradiction. Qed.
Lemma const_iff e : is_const_eval e = true <-> exists op (a b : term F), e = Bin op (Base a []) (Base b []) /\ constant_term a /\ constant_term b /\ compares op.
Proof using Type.
  split.
  - destruct e as [|op x y| |]; try discriminate. cbn [is_const_eval]. destruct (Flow.Model.as_term x) as [a|] eqn:Ea; [|discriminate]. destruct (Flow.Model.as_term y) as [b|] eqn:Eb; [|discriminate].
    apply as_term_iff in Ea, Eb. subst x y. rewrite !andb_true_iff, !static_iff, compares_iff. intros [[Ha Hb] Ho]. exists op, a, b. split; [reflexivity|]. split; [exact Ha|]. split; [exact Hb|exact Ho].
  - intros (op & a & b & -> & Ha & Hb & Ho). cbn [is_const_eval Flow.Model.as_term]. apply static_iff in Ha, Hb. apply compares_iff in Ho. rewrite Ha, Hb, Ho. reflexivity.
Qed.
Lemma cond_says e ev : In ev (condition e) <-> dull e ev.
Proof using Type.
  unfold condition. destruct (is_const_eval e) eqn:Ec.
  - apply const_iff in Ec as (op & a & b & -> & Ha & Hb & Ho). cbn [In]. split; [intros [<-|[]]; apply du_const; assumption|]. intros H. inversion H; subst. left. reflexivity.
  - split.
    + destruct (Flow.Model.as_term e) as [x|] eqn:Ex; [|intros []]. apply as_term_iff in Ex. subst e. destruct (is_static x) eqn:Es; [|intros []]. intros [<-|[]]. apply du_static. apply static_iff. exact Es.
    + intros H. destruct H as [op a b Ha Hb Ho|x Hx].
      * assert (is_const_eval (Bin op (Base a []) (Base b [])) = true) by (apply const_iff; exists op, a, b; split; [reflexivity|split; [exact Ha|split; [exact Hb|exact Ho]]]). congruence.
      * cbn [Flow.Model.as_term]. apply static_iff in Hx. rewrite Hx. left. reflexivity.
Qed.
Lemma problem_says path im ev : In ev (map Said (snd (var_typed (F := F) (L := L) t path im))) <-> bad_type t path ev.
Proof using Type.
  rewrite in_map_iff. unfold bad_type. split.
  - intros (x & <- & H). apply var_typed_says in H as (y & Hy & ->). exists y. split; [exact Hy|reflexivity].
  - intros (x & Hx & ->). exists (TypeProblem x). split; [reflexivity|]. apply var_typed_says. exists x. split; [exact Hx|reflexivity].
Qed.
Definition var_said sp l path (o : option expr) ev : Prop := bad_type t path ev \/ exists e (s : sty), o = Some e /\ var_type t path s /\ In ev (seen (IE sp l (basic_type s) e)).
Lemma var_says sp l path x o ev : In ev (snd (visit_var sp l path x o)) <-> var_said sp l path o ev.
Proof using Type.
  rewrite var_eq. cbv zeta. cbn [snd]. rewrite in_app_iff, problem_says. unfold var_said. cbn [seen]. split.
  - intros [H|H]; [left; exact H|right]. destruct o as [e|]; [|destruct H]. eexists e, _. split; [reflexivity|]. split; [apply (typed_iff path false); reflexivity|exact H].
  - intros [H|(e & s & -> & Hs & H)]; [left; exact H|right]. apply (typed_iff path false) in Hs. rewrite Hs. exact H.
Qed.
Lemma decls_say sp ds l ev : In ev (snd (visit_decls sp l ds)) <-> exists ds1 d ds2 l1, ds = ds1 ++ d :: ds2 /\ all_declared l ds1 l1 /\ var_said sp l1 (v_path (v_type d)) (v_value d) ev.
Proof using Type.
  revert l. induction ds as [|d ds IH]; intros l; cbn [Stmts.visit_decls].
  - cbn [snd In]. split; [intros []|]. intros (ds1 & d & ds2 & l1 & E & _). destruct ds1; discriminate E.
  - unfold Stmts.visit_decl. pose proof (declared_iff sp l (v_path (v_type d)) (v_name d) (v_value d)) as Hd. pose proof (var_says sp l (v_path (v_type d)) (v_name d) (v_value d) ev) as Hv.
    destruct (visit_var sp l (v_path (v_type d)) (v_name d) (v_value d)) as [l1 ev1]. cbn [fst snd] in Hd, Hv. specialize (IH l1). destruct (visit_decls sp l1 ds) as [l2 ev2]. cbn [snd] in IH |- *. rewrite in_app_iff, IH, Hv. split.
    + intros [H|(ds1 & d' & ds2 & l1' & -> & Ha & H)].
      * exists [], d, ds, l. split; [reflexivity|]. split; [constructor|exact H].
      * exists (d :: ds1), d', ds2, l1'. split; [reflexivity|]. split; [|exact H]. apply ad_cons with (l1 := l1); [apply Hd; reflexivity|exact Ha].
    + intros (ds1 & d' & ds2 & l1' & E & Ha & H). destruct ds1 as [|y ds1].
      * injection E as <- <-. inversion Ha; subst. left. exact H.
      * injection E as <- ->. inversion Ha as [|? ? l1'' ? ? H1 H2]; subst. apply Hd in H1. subst l1''. right. exists ds1, d', ds2, l1'. split; [reflexivity|]. split; [exact H2|exact H].
Qed.
Lemma caught_says sp ps l ev : In ev (snd (visit_caught sp l ps)) <-> exists p path x, In p ps /\ catches p path x /\ bad_type t path ev.
Proof.
  revert l. induction ps as [|p ps IH]; intros l; cbn [Stmts.visit_caught].
  - cbn [snd In]. split; [intros []|intros (p & path & x & [] & _)].
  - destruct (caught p) as [[x path]|] eqn:Ec.
    + pose proof (var_says sp l path x None ev) as Hv. destruct (visit_var sp l path x None) as [l1 ev1]. cbn [snd] in Hv. specialize (IH l1). destruct (visit_caught sp l1 ps) as [l2 ev2]. cbn [snd] in IH |- *. rewrite in_app_iff, Hv, IH. split.
      * intros [[H|(e & s & H & _)]|(p' & path' & x' & Hi & Hc & Hb)]; [|discriminate H|exists p', path', x'; split; [right; exact Hi|split; assumption]]. exists p, path, x. split; [left; reflexivity|]. split; [apply caught_iff; exact Ec|exact H].
      * intros (p' & path' & x' & [<-|Hi] & Hc & Hb); [|right; exists p', path', x'; split; [exact Hi|split; assumption]]. apply caught_iff in Hc. rewrite Ec in Hc. injection Hc as <- <-. left. left. exact Hb.
    + rewrite IH. split; intros (p' & path' & x' & Hi & Hc & Hb); exists p', path', x'; [split; [right; exact Hi|split; assumption]|]. destruct Hi as [<-|Hi]; [apply caught_iff in Hc; congruence|]. split; [exact Hi|split; assumption].
Qed.
Lemma typed_says sp l ty x o ev : In ev (snd (visit_typed sp l ty x o)) <-> exists ty', ty = Some ty' /\ var_said sp l (v_path ty') o ev.
Proof using Type.
  unfold Stmts.visit_typed. destruct ty as [ty|].
  - rewrite var_says. split; [intros H; exists ty; split; [reflexivity|exact H]|intros (ty' & E & H); injection E as <-; exact H].
  - cbn [snd In]. split; [intros []|intros (ty' & E & _); discriminate E].
Qed.
Lemma iterated_says (s : sty) ev : In ev (iterated t s) <-> not_a_list t s ev.
Proof using Type.
  unfold iterated. destruct s as [|i|i keys|].
  - split; [intros []|]. intros H. inversion H.
  - assert (M : (i =? expect t "/world") || (i =? list_type) || (i =? expect t "/alist") = true <-> In i [expect t "/world"; list_type; expect t "/alist"]).
    { rewrite !orb_true_iff, !Nat.eqb_eq. cbn [In]. split; [intros [[H|H]|H]; auto|intros [H|[H|[H|[]]]]; auto]. }
    destruct ((i =? expect t "/world") || (i =? list_type) || (i =? expect t "/alist")) eqn:E.
    + split; [intros []|]. intros H. assert (N : In i [expect t "/world"; list_type; expect t "/alist"]) by (apply M; reflexivity). inversion H; subst; contradiction.
    + assert (N : ~ In i [expect t "/world"; list_type; expect t "/alist"]) by (intros H; apply M in H; discriminate H).
      destruct (tree_sub t i (expect t "/atom")) eqn:E1; [split; [intros []|intros H; inversion H; congruence]|].
      destruct (tree_sub t (expect t "/atom") i) eqn:E2.
      * split; [intros [<-|[]]; apply nl_maybe; assumption|]. intros H. inversion H; subst; [left; reflexivity|congruence].
      * split; [intros [<-|[]]; apply nl_not; assumption|]. intros H. inversion H; subst; [congruence|left; reflexivity].
  - split; [intros []|]. intros H. inversion H.
  - split; [intros [<-|[]]; apply nl_proc|]. intros H. inversion H. left. reflexivity.
Qed.
Lemma in_list_says sp l o ev : In ev (visit_in t rules rets vars builtin kind self sp l o) <-> exists e, o = Some e /\ (In ev (seen (IE sp l None e)) \/ exists a, value_of_expr l None e a /\ not_a_list t (x_type a) ev).
Proof using Type.
  unfold visit_in. destruct o as [e|]; [|split; [intros []|intros (e & E & _); discriminate E]]. pose proof (value_iff sp l None e) as Hv. cbn [seen]. split.
  - destruct (visit_expr sp l None e) as [a evs] eqn:Ex. cbn [fst] in Hv. rewrite in_app_iff, iterated_says. intros H. exists e. split; [reflexivity|]. rewrite Ex. destruct H as [H|H]; [left; exact H|right]. exists a. split; [apply Hv; reflexivity|exact H].
  - intros (e' & E & H). injection E as <-. destruct (visit_expr sp l None e) as [a evs] eqn:Ex. cbn [fst] in Hv. rewrite in_app_iff, iterated_says. destruct H as [H|(a' & Ha & H)]; [left; exact H|right]. apply Hv in Ha. subst a'. exact H.
Qed.
Lemma arms_always sp look l (arms : list (expr * list stmt)) : forall bf al, snd (fst (run_arms f_zero (visit_stmt sp) look bf al l arms)) = true <-> al = true \/ exists c b, In (c, b) arms /\ sure c true.
Proof using Type.
  induction arms as [|[c b] arms IH]; intros bf al; cbn [run_arms].
  - cbn [fst snd]. split; [left; assumption|intros [H|(c & b & [] & _)]; exact H].
  - destruct (inner (visit_stmt sp) l b) as [[l1 st] ev1]. unfold truthy.
    assert (R : (exists c0 b0, In (c0, b0) ((c, b) :: arms) /\ sure c0 true) <-> sure c true \/ exists c0 b0, In (c0, b0) arms /\ sure c0 true).
    { split; [intros (c0 & b0 & [E|Hi] & Hs); [injection E as <- <-; left; exact Hs|right; exists c0, b0; split; assumption]|]. intros [H|(c0 & b0 & Hi & Hs)]; [exists c, b; split; [left; reflexivity|exact H]|exists c0, b0; split; [right; exact Hi|exact Hs]]. }
    rewrite R. clear R. unfold StmtsSpec.sure at 1.
    destruct (Flow.Model.is_truthy f_zero c) as [[|]|]; cbn zeta;
      match goal with |- context [run_arms _ _ _ ?x ?y l arms] => specialize (IH x y); destruct (run_arms f_zero (visit_stmt sp) look x y l arms) as [[? ?] ?] end; cbn [fst snd] in IH |- *; rewrite IH.
    + split; [intros _; right; left; reflexivity|intros _; left; reflexivity].
    + split; [intros [H|H]; [left; exact H|right; right; exact H]|intros [H|[H|H]]; [left; exact H|discriminate H|right; exact H]].
    + split; [intros [H|H]; [left; exact H|right; right; exact H]|intros [H|[H|H]]; [left; exact H|discriminate H|right; exact H]].
Qed.
Definition arm_said (look : expr -> list sevent) sp l (c : expr) b ev : Prop :=
  dull c ev \/ In ev (look c) \/ In ev (seen (IB sp false l b)) \/ (sure c true /\ ev = Flows (Flow.Model.AlwaysTrue tt)) \/ (sure c false /\ ev = Flows (Flow.Model.AlwaysFalse tt)).
Lemma arms_say sp look l ev (arms : list (expr * list stmt)) : forall bf al, In ev (snd (run_arms f_zero (visit_stmt sp) look bf al l arms)) <->
  (exists c b, In (c, b) arms /\ arm_said look sp l c b ev) \/
  (ev = Flows (Flow.Model.UnreachableIf tt) /\ ((al = true /\ arms <> []) \/ exists a1 c b a2 c' b', arms = a1 ++ (c, b) :: a2 /\ sure c true /\ In (c', b') a2)).
Proof using Type.
  induction arms as [|[c b] arms IH]; intros bf al; cbn [run_arms].
  - cbn [snd In]. split; [intros []|]. intros [(c & b & [] & _)|(_ & [[_ H]|(a1 & c & b & a2 & c' & b' & E & _)])]; [contradiction|destruct a1; discriminate E].
  - assert (Hin : In ev (snd (inner (visit_stmt sp) l b)) <-> In ev (seen (IB sp false l b))) by reflexivity.
    destruct (inner (visit_stmt sp) l b) as [[l1 st] ev1]. cbn [snd] in Hin. unfold truthy.
    assert (R : (exists c0 b0, In (c0, b0) ((c, b) :: arms) /\ arm_said look sp l c0 b0 ev) <-> arm_said look sp l c b ev \/ exists c0 b0, In (c0, b0) arms /\ arm_said look sp l c0 b0 ev).
    { split; [intros (c0 & b0 & [E|Hi] & Hs); [injection E as <- <-; left; exact Hs|right; exists c0, b0; split; assumption]|]. intros [H|(c0 & b0 & Hi & Hs)]; [exists c, b; split; [left; reflexivity|exact H]|exists c0, b0; split; [right; exact Hi|exact Hs]]. }
    assert (U : (al = true /\ (c, b) :: arms <> []) \/ (exists a1 c0 b0 a2 c' b', (c, b) :: arms = a1 ++ (c0, b0) :: a2 /\ sure c0 true /\ In (c', b') a2) <->
                al = true \/ (sure c true /\ arms <> []) \/ exists a1 c0 b0 a2 c' b', arms = a1 ++ (c0, b0) :: a2 /\ sure c0 true /\ In (c', b') a2).
    { split.
      - intros [[H _]|(a1 & c0 & b0 & a2 & c' & b' & E & Hs & Hi)]; [left; exact H|right]. destruct a1 as [|x a1].
        + injection E as <- <- <-. left. split; [exact Hs|]. intros ->. destruct Hi.
        + injection E as <- ->. right. exists a1, c0, b0, a2, c', b'. split; [reflexivity|split; assumption].
      - intros [H|[[Hs Hn]|(a1 & c0 & b0 & a2 & c' & b' & -> & Hs & Hi)]].
        + left. split; [exact H|discriminate].
        + right. destruct arms as [|[c' b'] arms']; [contradiction|]. exists [], c, b, ((c', b') :: arms'), c', b'. split; [reflexivity|]. split; [exact Hs|left; reflexivity].
        + right. exists ((c, b) :: a1), c0, b0, a2, c', b'. split; [reflexivity|split; assumption]. }
    rewrite R, U. clear R U. unfold arm_said at 1.
    assert (Q : forall r now al', In ev (condition c ++ (if al then map Flows [Flow.Model.UnreachableIf tt] else []) ++ look c ++ ev1 ++ map Flows r ++ snd (run_arms f_zero (visit_stmt sp) look now al' l arms)) <->
              dull c ev \/ (al = true /\ ev = Flows (Flow.Model.UnreachableIf tt)) \/ In ev (look c) \/ In ev (seen (IB sp false l b)) \/ In ev (map Flows r) \/ In ev (snd (run_arms f_zero (visit_stmt sp) look now al' l arms))).
    { intros r now al'. rewrite !in_app_iff, cond_says, Hin. assert (A : In ev (if al then map Flows [Flow.Model.UnreachableIf tt] else []) <-> al = true /\ ev = Flows (Flow.Model.UnreachableIf tt)).
      { destruct al; cbn [map In]; split; [intros [<-|[]]; split; reflexivity|intros [_ ->]; left; reflexivity|intros []|intros [H _]; discriminate H]. } rewrite A. reflexivity. }
    destruct (Flow.Model.is_truthy f_zero c) as [[|]|] eqn:Et; cbn zeta;
      match goal with |- context [run_arms _ _ _ ?x ?y l arms] => specialize (IH x y);
        match goal with |- context [map Flows ?r] => lazymatch r with [Flow.Model.UnreachableIf _] => fail | _ => specialize (Q r x y) end end;
        destruct (run_arms f_zero (visit_stmt sp) look x y l arms) as [[? ?] ?] end; cbn [snd] in IH, Q |- *; rewrite Q, IH; clear Q IH; cbn [map In].
    + split.
      * intros [H|[[Ha ->]|[H|[H|[[<-|[]]|[H|[-> [[_ Hn]|H]]]]]]]].
        -- left. left. left. exact H.
        -- right. split; [reflexivity|left; exact Ha].
        -- left. left. right. left. exact H.
        -- left. left. right. right. left. exact H.
        -- left. left. right. right. right. left. split; [exact Et|reflexivity].
        -- left. right. exact H.
        -- right. split; [reflexivity|]. right. left. split; [exact Et|exact Hn].
        -- right. split; [reflexivity|]. right. right. exact H.
      * intros [[[H|[H|[H|[[_ ->]|[H _]]]]]|H]|[-> [H|[[_ Hn]|H]]]].
        -- left. exact H.
        -- right. right. left. exact H.
        -- right. right. right. left. exact H.
        -- right. right. right. right. left. left. reflexivity.
        -- unfold StmtsSpec.sure in H; congruence.
        -- right. right. right. right. right. left. exact H.
        -- right. left. split; [exact H|reflexivity].
        -- right. right. right. right. right. right. split; [reflexivity|]. left. split; [reflexivity|exact Hn].
        -- right. right. right. right. right. right. split; [reflexivity|]. right. exact H.
    + split.
      * intros [H|[[Ha ->]|[H|[H|[[<-|[]]|[H|[-> [[Ha Hn]|H]]]]]]]].
        -- left. left. left. exact H.
        -- right. split; [reflexivity|left; exact Ha].
        -- left. left. right. left. exact H.
        -- left. left. right. right. left. exact H.
        -- left. left. right. right. right. right. split; [exact Et|reflexivity].
        -- left. right. exact H.
        -- right. split; [reflexivity|]. left. exact Ha.
        -- right. split; [reflexivity|]. right. right. exact H.
      * intros [[[H|[H|[H|[[H _]|[_ ->]]]]]|H]|[-> [H|[[H _]|H]]]].
        -- left. exact H.
        -- right. right. left. exact H.
        -- right. right. right. left. exact H.
        -- unfold StmtsSpec.sure in H; congruence.
        -- right. right. right. right. left. left. reflexivity.
        -- right. right. right. right. right. left. exact H.
        -- right. left. split; [exact H|reflexivity].
        -- unfold StmtsSpec.sure in H; congruence.
        -- right. right. right. right. right. right. split; [reflexivity|]. right. exact H.
    + split.
      * intros [H|[[Ha ->]|[H|[H|[[]|[H|[-> [[Ha Hn]|H]]]]]]]].
        -- left. left. left. exact H.
        -- right. split; [reflexivity|left; exact Ha].
        -- left. left. right. left. exact H.
        -- left. left. right. right. left. exact H.
        -- left. right. exact H.
        -- right. split; [reflexivity|]. left. exact Ha.
        -- right. split; [reflexivity|]. right. right. exact H.
      * intros [[[H|[H|[H|[[H _]|[H _]]]]]|H]|[-> [H|[[H _]|H]]]].
        -- left. exact H.
        -- right. right. left. exact H.
        -- right. right. right. left. exact H.
        -- unfold StmtsSpec.sure in H; congruence.
        -- unfold StmtsSpec.sure in H; congruence.
        -- right. right. right. right. right. left. exact H.
        -- right. left. split; [exact H|reflexivity].
        -- unfold StmtsSpec.sure in H; congruence.
        -- right. right. right. right. right. right. split; [reflexivity|]. right. exact H.
Qed.
Lemma case_or cs ev : In ev (case_fault cs) <-> (exists a b : expr, cs = [Exactly (Bin BOr a b)]) /\ ev = CaseOr.
Proof using Type.
  split.
  - unfold case_fault. destruct cs as [|[[|[] a b| |]|] [|]]; intros H; try destruct H as [<-|[]]; try contradiction. split; [exists a, b; reflexivity|reflexivity].
  - intros [(a & b & ->) ->]. left. reflexivity.
Qed.
Lemma case_value (c : case) e : In e (case_values c) <-> value_in c e.
Proof using Type.
  unfold value_in. destruct c as [x|x y]; cbn [case_values In]; split.
  - intros [<-|[]]. left. reflexivity.
  - intros [H|[(b & H)|(a & H)]]; try discriminate H. injection H as <-. left. reflexivity.
  - intros [<-|[<-|[]]]; [right; left; exists y; reflexivity|right; right; exists x; reflexivity].
  - intros [H|[(b & H)|(a & H)]]; try discriminate H; injection H as <- <-; [left|right; left]; reflexivity.
Qed.
Lemma cases_say sp look l ev (cases : list (list case * list stmt)) : forall bf, In ev (snd (run_cases (visit_stmt sp) look bf l cases)) <->
  exists cs b, In (cs, b) cases /\ (((exists x y, cs = [Exactly (Bin BOr x y)]) /\ ev = CaseOr) \/ (exists c e, In c cs /\ value_in c e /\ In ev (look e)) \/ In ev (seen (IB sp false l b))).
Proof using Type.
  induction cases as [|[cs b] cases IH]; intros bf; cbn [run_cases].
  - cbn [snd In]. split; [intros []|intros (cs & b & [] & _)].
  - assert (Hin : In ev (snd (inner (visit_stmt sp) l b)) <-> In ev (seen (IB sp false l b))) by reflexivity.
    destruct (inner (visit_stmt sp) l b) as [[l1 st] ev1]. cbn [snd] in Hin. specialize (IH (Flow.Model.merge_false bf st)). destruct (run_cases (visit_stmt sp) look (Flow.Model.merge_false bf st) l cases) as [? ?]. cbn [snd] in IH |- *.
    rewrite !in_app_iff, case_or, Hin, IH, in_flat_map. split.
    + intros [H|[(e & He & H)|[H|(cs' & b' & Hi & H)]]].
      * exists cs, b. split; [left; reflexivity|left; exact H].
      * apply in_flat_map in He as (c & Hc & He). apply case_value in He. exists cs, b. split; [left; reflexivity|]. right. left. exists c, e. split; [exact Hc|split; assumption].
      * exists cs, b. split; [left; reflexivity|]. right. right. exact H.
      * exists cs', b'. split; [right; exact Hi|exact H].
    + intros (cs' & b' & [E|Hi] & H); [|right; right; right; exists cs', b'; split; [exact Hi|exact H]]. injection E as <- <-. destruct H as [H|[(c & e & Hc & He & H)|H]]; [left; exact H| |right; right; left; exact H].
      right. left. exists e. split; [|exact H]. apply in_flat_map. exists c. split; [exact Hc|]. apply case_value. exact He.
Qed.

Lemma shift_left sp l x y ev : In ev (seen (IE sp l None x)) -> In ev (seen (IE sp l None (Bin BLShift x y))).
Proof using Type.
  cbn [seen]. unfold Stmts.visit_expr. cbn [visit]. destruct (visit t rules rets vars builtin kind self sp (fun x => get x l) None x) as [a ev1]. destruct (visit t rules rets vars builtin kind self sp (fun x => get x l) None y) as [b ev2].
  cbn [snd]. rewrite map_app, in_app_iff. intros H. left. exact H.
Qed.
Definition faults_said sp l e ev : Prop :=
  (exists x args (fs : list (follow F)) q r (c : bool) at_, e = Base (MCall x args) fs /\ (forall k y a, ~ In (FCall k y a) fs) /\ proc_at t self_type x = Some q /\ get_self_or_parent t pure_rules q = Some (r, c, at_) /\ ev = Discards x at_) \/
  (exists x y, e = Bin BLShift x y /\ (In ev (seen (IE sp l None x)) \/ exists a, value_of_expr l None x a /\ x_impure a = true /\ ev = Said (Impure (lit "purity breaking << on expression")))).
Lemma no_call (fs : list (follow F)) : existsb (fun f => match f with FCall _ _ _ => true | _ => false end) fs = false <-> forall k y a, ~ In (FCall k y a) fs.
Proof using Type.
  split.
  - intros H k y a Hi. assert (existsb (fun f => match f with FCall _ _ _ => true | _ => false end) fs = true) by (apply existsb_exists; exists (FCall k y a); split; [exact Hi|reflexivity]). congruence.
  - intros H. apply not_true_iff_false. intros E. apply existsb_exists in E as (f & Hi & Hf). destruct f as [| |k y a| | |]; try discriminate Hf. exact (H k y a Hi).
Qed.
Lemma faults_say sp l e ev : In ev (expr_faults t rules pure_rules rets vars builtin kind self sp l e) <-> faults_said sp l e ev.
Proof using Type.
  unfold faults_said. split.
  - destruct e as [x fs|op x y| |]; try (intros []; fail).
    + destruct x as [| | | | | | | | | | | | |name args| | | | | | | | | | | | |]; try (intros []; fail). cbn [expr_faults]. destruct (existsb _ fs) eqn:Ef; [intros []|]. pose proof (proj1 (no_call fs) Ef) as Ef2. clear Ef. rename Ef2 into Ef. destruct (proc_at t self_type name) as [q|] eqn:Eq; [|intros []]. destruct (get_self_or_parent t pure_rules q) as [[[r c] at_]|] eqn:Er; [|intros []].
      intros [<-|[]]. left. exists name, args, fs, q, r, c, at_. split; [reflexivity|]. split; [exact Ef|]. split; [exact Eq|]. split; [exact Er|reflexivity].
    + destruct op; try (intros []; fail). cbn [expr_faults]. pose proof (value_iff sp l None x) as Hv. destruct (visit_expr sp l None x) as [a evs] eqn:Ex. cbn [fst] in Hv. rewrite in_app_iff. intros H. right. exists x, y. split; [reflexivity|]. cbn [seen]. rewrite Ex. cbn [snd].
      destruct H as [H|H]; [left; exact H|right]. destruct (x_impure a) eqn:Ei; [|destruct H]. destruct H as [<-|[]]. exists a. split; [apply Hv; reflexivity|]. split; [exact Ei|reflexivity].
  - intros [(x & args & fs & q & r & c & at_ & -> & Hf & Hq & Hr & ->)|(x & y & -> & H)]; cbn [expr_faults].
    + rewrite (proj2 (no_call fs) Hf), Hq, Hr. left. reflexivity.
    + cbn [seen] in H. pose proof (value_iff sp l None x) as Hv. destruct (visit_expr sp l None x) as [a evs] eqn:Ex. cbn [fst snd] in *. rewrite in_app_iff. destruct H as [H|(a' & Ha & Hi & ->)]; [left; exact H|right]. apply Hv in Ha. subst a'. rewrite Hi. left. reflexivity.
Qed.
Lemma setting_says top s ev : In ev (setting_fault top s) <-> exists x m v, s = Setting x m v /\ top = false /\ (exists r, x = lit "SpacemanDMM_" ++ r) /\ ev = SetNotTop.
Proof using Type.
  split.
  - destruct s as [| | | | | | | | | | | | |name mode value| | | | | | | | |]; try (intros []; fail). cbn [setting_fault]. destruct (negb top && starts_with (lit "SpacemanDMM_") name) eqn:E; [|intros []]. intros [<-|[]]. apply andb_true_iff in E as [E1 E2]. apply negb_true_iff in E1. apply starts_with_spec in E2.
    exists name, mode, value. split; [reflexivity|]. split; [exact E1|]. split; [exact E2|reflexivity].
  - intros (x & m & v & -> & -> & Hr & ->). cbn [setting_fault negb andb]. apply starts_with_spec in Hr. rewrite Hr. left. reflexivity.
Qed.
Lemma waitfor_says x m v ev : In ev (visit_setting x m v) <-> x = lit "waitfor" /\ m = SetAssign /\ false_value v /\ ev = NoWaitfor.
Proof using Type.
  unfold false_value. split.
  - destruct m; [|intros []]. unfold visit_setting. destruct (text_eqb_spec x (lit "waitfor")) as [->|_]; [|intros []]. destruct (Flow.Model.as_term v) as [y|] eqn:Ev; [|intros []]. apply as_term_iff in Ev. subst v.
    destruct y as [|z| |y| | | | | | | | | | | | | | | | | | | | | | |]; try (intros []; fail).
    + destruct z; try (intros []; fail). intros [<-|[]]. split; [reflexivity|]. split; [reflexivity|]. split; [left; reflexivity|reflexivity].
    + destruct (text_eqb_spec y (lit "FALSE")) as [->|_]; [|intros []]. intros [<-|[]]. split; [reflexivity|]. split; [reflexivity|]. split; [right; reflexivity|reflexivity].
  - intros (-> & -> & [->| ->] & ->); vm_compute; left; reflexivity.
Qed.
Lemma all_settings b1 : forallb is_setting b1 = false <-> exists s, In s b1 /\ forall x m v, s <> Setting x m v.
Proof using Type.
  split.
  - induction b1 as [|s b1 IH]; [discriminate|]. cbn [forallb]. destruct (is_setting s) eqn:E; cbn [andb]; intros H.
    + destruct (IH H) as (s' & Hi & Hn). exists s'. split; [right; exact Hi|exact Hn].
    + exists s. split; [left; reflexivity|]. intros x m v ->. discriminate E.
  - intros (s & Hi & Hn). apply not_true_iff_false. intros H. rewrite forallb_forall in H. specialize (H s Hi). destruct s; try discriminate H. exact (Hn _ _ _ eq_refl).
Qed.
Definition opt_said sp l (o : option expr) ev : Prop := exists e, o = Some e /\ In ev (seen (IE sp l None e)).
Definition in_said l sp (o : option expr) ev : Prop := exists e, o = Some e /\ (In ev (seen (IE sp l None e)) \/ exists a, value_of_expr l None e a /\ not_a_list t (x_type a) ev).
Definition stmt_said sp l s ev : Prop :=
  match s with
  | Expr e => faults_said sp l e ev \/ In ev (seen (IE sp l None e))
  | Return (Some e) => (sp = true /\ ev = ReturnsInSpawn) \/ In ev (seen (IE sp l None e))
  | Return None | Continue _ | Break _ | Goto _ => False
  | Crash o => opt_said sp l o ev
  | Throw e | Del e => In ev (seen (IE sp l None e))
  | While c b => In ev (seen (IE sp l None c)) \/ In ev (seen (IB sp false l b))
  | DoWhile b c => In ev (seen (IB sp false l b)) \/ (once b /\ ev = Flows (Flow.Model.NeverTested tt)) \/ (~ once b /\ exists l', left_with l b l' /\ In ev (seen (IE sp l' None c)))
  | If arms els =>
      (exists c b, In (c, b) arms /\ arm_said (fun e => seen (IE sp l None e)) sp l c b ev) \/
      (ev = Flows (Flow.Model.UnreachableIf tt) /\ exists a1 c b a2 c' b', arms = a1 ++ (c, b) :: a2 /\ sure c true /\ In (c', b') a2) \/
      (exists b, els = Some b /\ (In ev (seen (IB sp false l b)) \/ (b <> [] /\ (exists c b', In (c, b') arms /\ sure c true) /\ ev = Flows (Flow.Model.UnreachableElse tt))))
  | ForInfinite b | Label _ b => In ev (seen (IB sp false l b))
  | ForLoop init test inc b =>
      exists l1 l2, maybe_after l init l1 /\ maybe_after l1 inc l2 /\
      ((exists s', init = Some s' /\ In ev (seen (IS sp l s'))) \/
       (exists e, test = Some e /\ ((sure e true /\ ev = Flows (Flow.Model.LoopTrue tt)) \/ (sure e false /\ ev = Flows (Flow.Model.LoopFalse tt)) \/ dull e ev \/ In ev (seen (IE sp l1 None e)))) \/
       (exists s', inc = Some s' /\ In ev (seen (IS sp l1 s'))) \/ In ev (seen (IB sp false l2 b)))
  | ForList ty x _ o b => in_said l sp o ev \/ (exists ty', ty = Some ty' /\ var_said sp l (v_path ty') None ev) \/ exists l1, loop_var l x None ty l1 /\ In ev (seen (IB sp false l1 b))
  | ForKeyValue ty k _ v o b =>
      in_said l sp o ev \/ (exists ty', ty = Some ty' /\ var_said sp l (v_path ty') None ev) \/ exists l1, loop_var l k None ty l1 /\ (var_said sp l1 [] None ev \/ exists l2, declared l1 [] v None l2 /\ In ev (seen (IB sp false l2 b)))
  | ForRange ty x a e step b =>
      In ev (seen (IE sp l None e)) \/ opt_said sp l step ev \/ (exists ty', ty = Some ty' /\ var_said sp l (v_path ty') (Some a) ev) \/ (exists l1, loop_var l x (Some a) ty l1 /\ In ev (seen (IB sp false l1 b))) \/
      (exists a' e' : term F, a = Base a' [] /\ e = Base e' [] /\ Flow.Model.valid_for_range a' e' step = Some false /\ ev = Flows (Flow.Model.NeverEntered tt))
  | Var d => var_said sp l (v_path (v_type d)) (v_value d) ev
  | Vars ds => exists ds1 d ds2 l1, ds = ds1 ++ d :: ds2 /\ all_declared l ds1 l1 /\ var_said sp l1 (v_path (v_type d)) (v_value d) ev
  | Setting x m v => x = lit "waitfor" /\ m = SetAssign /\ false_value v /\ ev = NoWaitfor
  | Spawn d b => opt_said true l d ev \/ In ev (seen (IB true false l b))
  | Switch e cases d =>
      dull e ev \/ In ev (seen (IE sp l None e)) \/
      (exists cs b, In (cs, b) cases /\ (((exists x y, cs = [Exactly (Bin BOr x y)]) /\ ev = CaseOr) \/ (exists c v, In c cs /\ value_in c v /\ In ev (seen (IE sp l None v))) \/ In ev (seen (IB sp false l b)))) \/
      (exists b, d = Some b /\ In ev (seen (IB sp false l b)))
  | TryCatch b ps h =>
      In ev (seen (IB sp false l b)) \/ (1 < List.length ps /\ ev = CatchParams (List.length ps)) \/ (exists p path x, In p ps /\ catches p path x /\ bad_type t path ev) \/ exists l1, all_caught l ps l1 /\ In ev (seen (IB sp false l1 h))
  end.
Lemma opt_says sp l (o : option expr) ev : In ev (some_events o (fun e => map Said (snd (visit_expr sp l None e)))) <-> opt_said sp l o ev.
Proof using Type. unfold opt_said. destruct o as [e|]; cbn [some_events]; split; [intros H; exists e; split; [reflexivity|exact H]|intros (e' & E & H); injection E as <-; exact H|intros []|intros (e & E & _); discriminate E]. Qed.
Lemma inner_seen sp l b : snd (inner (visit_stmt sp) l b) = seen (IB sp false l b). Proof using Type. reflexivity. Qed.
Ltac take_inner := match goal with |- context [inner (Stmts.visit_stmt _ _ _ _ _ _ _ _ _ ?p) ?l ?b] =>
      let H := fresh "Hi" in pose proof (inner_seen p l b) as H; destruct (inner (visit_stmt p) l b) as [[? ?] ?] eqn:?; cbn [snd] in H; subst end.
Lemma loop_says e ev : In ev (map Flows (Flow.Model.loop_check f_zero tt (Some e))) <-> (sure e true /\ ev = Flows (Flow.Model.LoopTrue tt)) \/ (sure e false /\ ev = Flows (Flow.Model.LoopFalse tt)).
Proof using Type.
  cbn [Flow.Model.loop_check]. unfold StmtsSpec.sure. destruct (Flow.Model.is_truthy f_zero e) as [[|]|]; cbn [map In]; split.
  - intros [<-|[]]. left. split; reflexivity.
  - intros [[_ ->]|[H _]]; [left; reflexivity|discriminate H].
  - intros [<-|[]]. right. split; reflexivity.
  - intros [[H _]|[_ ->]]; [discriminate H|left; reflexivity].
  - intros [].
  - intros [[H _]|[H _]]; discriminate H.
Qed.
Lemma stmt_says sp l s ev : In ev (snd (visit_stmt sp l s)) <-> stmt_said sp l s ev.
Proof using Type.
  destruct s as [e|[e|]|e|c b|b c|arms els|b|init test inc b|ty x it o b|ty k it v o b|ty x a e step b|d|ds|x m v|d b|e cs d|b ps h|x|x|x|x b|e|e]; cbn [Stmts.visit_stmt stmt_said].
  - cbn [snd]. rewrite in_app_iff, faults_say. reflexivity.
  - cbn [seen]. destruct (visit_expr sp l None e) as [a evs]. cbn [snd]. rewrite in_app_iff. split.
    + intros [H|H]; [|right; exact H]. left. destruct sp; [destruct H as [<-|[]]; split; reflexivity|destruct H].
    + intros [[-> ->]|H]; [left; left; reflexivity|right; exact H].
  - reflexivity.
  - reflexivity.
  - take_inner. cbn [snd]. rewrite in_app_iff. reflexivity.
  - pose proof (inner_flow sp b l (fun s _ => stmt_flow sp s)) as Hf. pose proof (left_iff sp l b) as Hl. take_inner. cbn [fst snd] in Hf, Hl. subst f. unfold StmtsSpec.once. destruct (Flow.Model.terminates_loop (flow_of b)).
    + cbn [snd map]. rewrite in_app_iff. cbn [In]. split; [intros [H|[<-|[]]]; [left; exact H|right; left; split; reflexivity]|intros [H|[[_ ->]|[H _]]]; [left; exact H|right; left; reflexivity|contradiction H; reflexivity]].
    + cbn [snd]. rewrite in_app_iff. split.
      * intros [H|H]; [left; exact H|right; right]. split; [discriminate|]. exists s. split; [apply Hl; reflexivity|exact H].
      * intros [H|[[H _]|(_ & l' & Hl' & H)]]; [left; exact H|discriminate H|right]. apply Hl in Hl'. subst l'. exact H.
  - pose proof (arms_say sp (fun e => map Said (snd (visit_expr sp l None e))) l ev arms Flow.Model.alltrue false) as Ha. pose proof (arms_always sp (fun e => map Said (snd (visit_expr sp l None e))) l arms Flow.Model.alltrue false) as Hal.
    destruct (run_arms f_zero (visit_stmt sp) (fun e => map Said (snd (visit_expr sp l None e))) Flow.Model.alltrue false l arms) as [[st al] evs]. cbn [fst snd] in Ha, Hal.
    assert (Ha' : In ev evs <-> (exists c b, In (c, b) arms /\ arm_said (fun e => seen (IE sp l None e)) sp l c b ev) \/ (ev = Flows (Flow.Model.UnreachableIf tt) /\ exists a1 c b a2 c' b', arms = a1 ++ (c, b) :: a2 /\ sure c true /\ In (c', b') a2)).
    { rewrite Ha. split; (intros [H|[He H]]; [left; exact H|right; split; [exact He|]]); [destruct H as [[H _]|H]; [discriminate H|exact H]|right; exact H]. }
    clear Ha. destruct els as [b|].
    + take_inner. cbn [snd]. rewrite !in_app_iff, Ha'. clear Ha'.
      assert (Hr : In ev (match b with [] => [] | _ :: _ => if al then map Flows [Flow.Model.UnreachableElse tt] else [] end) <-> b <> [] /\ (exists c b', In (c, b') arms /\ sure c true) /\ ev = Flows (Flow.Model.UnreachableElse tt)).
      { destruct b as [|s0 b]; [split; [intros []|intros [H _]; contradiction H; reflexivity]|]. destruct al; cbn [map In].
        - split; [intros [<-|[]]; split; [discriminate|]; split; [|reflexivity]|intros (_ & _ & ->); left; reflexivity]. destruct (proj1 Hal eq_refl) as [H|H]; [discriminate H|exact H].
        - split; [intros []|]. intros (_ & H & _). assert (false = true) by (apply Hal; right; exact H). discriminate. }
      split.
      * intros [[H|H]|[H|H]]; [left; exact H|right; left; exact H|right; right; exists b; split; [reflexivity|right; apply Hr; exact H]|right; right; exists b; split; [reflexivity|left; exact H]].
      * intros [H|[H|(b' & E & H)]]; [left; left; exact H|left; right; exact H|]. injection E as <-. right. destruct H as [H|H]; [right; exact H|left; apply Hr; exact H].
    + cbn [snd]. rewrite Ha'. split; [intros [H|H]; [left; exact H|right; left; exact H]|intros [H|[H|(b & E & _)]]; [left; exact H|right; exact H|discriminate E]].
  - take_inner. reflexivity.
  - pose proof (maybe_after_iff sp l init) as Hi0.
    assert (E1 : (match init with Some s' => let '(l1, _, evs) := visit_stmt sp l s' in (l1, evs) | None => (l, []) end) = (match init with Some s' => fst (fst (visit_stmt sp l s')) | None => l end, match init with Some s' => seen (IS sp l s') | None => [] end)).
    { destruct init as [s'|]; [|reflexivity]. cbn [seen]. destruct (visit_stmt sp l s') as [[? ?] ?]. reflexivity. }
    rewrite E1. clear E1. set (l1 := match init with Some s' => fst (fst (visit_stmt sp l s')) | None => l end) in *. pose proof (maybe_after_iff sp l1 inc) as Hi1.
    assert (E2 : (match inc with Some s' => let '(l2, _, evs) := visit_stmt sp l1 s' in (l2, evs) | None => (l1, []) end) = (match inc with Some s' => fst (fst (visit_stmt sp l1 s')) | None => l1 end, match inc with Some s' => seen (IS sp l1 s') | None => [] end)).
    { destruct inc as [s'|]; [|reflexivity]. cbn [seen]. destruct (visit_stmt sp l1 s') as [[? ?] ?]. reflexivity. }
    rewrite E2. clear E2. set (l2 := match inc with Some s' => fst (fst (visit_stmt sp l1 s')) | None => l1 end) in *. take_inner. cbn [snd]. rewrite !in_app_iff.
    assert (T : In ev (some_events test (fun e => map Flows (Flow.Model.loop_check f_zero tt (Some e)) ++ condition e ++ map Said (snd (visit_expr sp l1 None e)))) <->
      exists e, test = Some e /\ ((sure e true /\ ev = Flows (Flow.Model.LoopTrue tt)) \/ (sure e false /\ ev = Flows (Flow.Model.LoopFalse tt)) \/ dull e ev \/ In ev (seen (IE sp l1 None e)))).
    { destruct test as [e|]; cbn [some_events]; [|split; [intros []|intros (e & E & _); discriminate E]]. rewrite !in_app_iff, cond_says, loop_says. split.
      - intros H. exists e. split; [reflexivity|]. destruct H as [[H|H]|[H|H]]; [left; exact H|right; left; exact H|right; right; left; exact H|right; right; right; exact H].
      - intros (e' & E & H). injection E as <-. destruct H as [H|[H|[H|H]]]; [left; left; exact H|left; right; exact H|right; left; exact H|right; right; exact H]. }
    assert (O : forall (o : option stmt) l', In ev (match o with Some s' => seen (IS sp l' s') | None => [] end) <-> exists s', o = Some s' /\ In ev (seen (IS sp l' s'))).
    { intros [s'|] l'; split; [intros H; exists s'; split; [reflexivity|exact H]|intros (s'' & E & H); injection E as <-; exact H|intros []|intros (s'' & E & _); discriminate E]. }
    rewrite T, !O. clear T O. split.
    + intros H. exists l1, l2. split; [apply Hi0; reflexivity|]. split; [apply Hi1; reflexivity|]. destruct H as [[H|[H|H]]|H]; [left; exact H|right; left; exact H|right; right; left; exact H|right; right; right; exact H].
    + intros (l1' & l2' & H1 & H2 & H). apply Hi0 in H1. rewrite <- H1 in H2, H. apply Hi1 in H2. rewrite <- H2 in H. destruct H as [H|[H|[H|H]]]; [left; left; exact H|left; right; left; exact H|left; right; right; exact H|right; exact H].
  - pose proof (loop_var_iff sp l x None ty) as Hl. pose proof (typed_says sp l ty x None ev) as Ht. destruct (visit_typed sp l ty x None) as [l1 ev1]. cbn [fst snd] in Hl, Ht. take_inner. cbn [snd]. rewrite !in_app_iff, in_list_says, Ht. split.
    + intros [[H|H]|H]; [left; exact H|right; left; exact H|right; right; exists l1; split; [apply Hl; reflexivity|exact H]].
    + intros [H|[H|(l1' & H1 & H)]]; [left; left; exact H|left; right; exact H|right]. apply Hl in H1. rewrite H1. exact H.
  - pose proof (loop_var_iff sp l k None ty) as Hl. pose proof (typed_says sp l ty k None ev) as Ht. destruct (visit_typed sp l ty k None) as [l1 ev1]. cbn [fst snd] in Hl, Ht.
    pose proof (declared_iff sp l1 [] v None) as Hd. pose proof (var_says sp l1 [] v None ev) as Hv. destruct (visit_var sp l1 [] v None) as [l2 ev2]. cbn [fst snd] in Hd, Hv. take_inner. cbn [snd]. rewrite !in_app_iff, in_list_says, Ht, Hv. split.
    + intros [[H|[H|H]]|H]; [left; exact H|right; left; exact H|right; right; exists l1; split; [apply Hl; reflexivity|left; exact H]|right; right; exists l1; split; [apply Hl; reflexivity|right; exists l2; split; [apply Hd; reflexivity|exact H]]].
    + intros [H|[H|(l1' & H1 & H)]]; [left; left; exact H|left; right; left; exact H|]. apply Hl in H1. subst l1'. destruct H as [H|(l2' & H2 & H)]; [left; right; right; exact H|right]. apply Hd in H2. subst l2'. exact H.
  - pose proof (loop_var_iff sp l x (Some a) ty) as Hl. pose proof (typed_says sp l ty x (Some a) ev) as Ht. destruct (visit_typed sp l ty x (Some a)) as [l1 ev1]. cbn [fst snd] in Hl, Ht. take_inner.
    assert (R : forall st', exists fl r, match Flow.Model.as_term a, Flow.Model.as_term e with
                       | Some x, Some y =>
                           match Flow.Model.valid_for_range x y step with
                           | Some false => (Flow.Model.end_loop st', [Flow.Model.NeverEntered tt])
                           | Some true => (st', [])
                           | None => (Flow.Model.end_loop st', [])
                           end
                       | _, _ => (Flow.Model.end_loop st', [])
                       end = (fl, r) /\ (In ev (map Flows r) <-> exists a' e' : term F, a = Base a' [] /\ e = Base e' [] /\ Flow.Model.valid_for_range a' e' step = Some false /\ ev = Flows (Flow.Model.NeverEntered tt))).
    { intros st'. assert (N : forall r : Prop, ~ r -> (In ev (map (Flows (F := F) (L := L)) []) <-> r)) by (intros r H; split; [intros []|intros H'; contradiction]).
      destruct (Flow.Model.as_term a) as [a'|] eqn:Ea.
      2:{ eexists _, _. split; [reflexivity|]. apply N. intros (a' & e' & -> & _). discriminate Ea. }
      apply as_term_iff in Ea. subst a. destruct (Flow.Model.as_term e) as [e'|] eqn:Ee.
      2:{ eexists _, _. split; [reflexivity|]. apply N. intros (a'' & e' & _ & -> & _). discriminate Ee. }
      apply as_term_iff in Ee. subst e. destruct (Flow.Model.valid_for_range a' e' step) as [[|]|] eqn:Ev; eexists _, _; (split; [reflexivity|]).
      - apply N. intros (a'' & e'' & E1 & E2 & E3 & _). injection E1 as <-. injection E2 as <-. congruence.
      - cbn [map In]. split; [intros [<-|[]]; exists a', e'; repeat split; exact Ev|intros (_ & _ & _ & _ & _ & ->); left; reflexivity].
      - apply N. intros (a'' & e'' & E1 & E2 & E3 & _). injection E1 as <-. injection E2 as <-. congruence. }
    match goal with |- context [Flow.Model.end_loop ?st'] => destruct (R st') as (fl & r & Er & Hr) end. rewrite Er. clear Er R. cbn [snd]. rewrite !in_app_iff, opt_says, Ht, Hr. clear Hr. split.
    + intros [[H|H]|[H|[H|H]]]; [left; exact H|right; left; exact H|right; right; left; exact H|right; right; right; left; exists l1; split; [apply Hl; reflexivity|exact H]|right; right; right; right; exact H].
    + intros [H|[H|[H|[(l1' & H1 & H)|H]]]]; [left; left; exact H|left; right; exact H|right; left; exact H|right; right; left; apply Hl in H1; subst l1'; exact H|right; right; right; exact H].
  - unfold Stmts.visit_decl. pose proof (var_says sp l (v_path (v_type d)) (v_name d) (v_value d) ev) as Hv. destruct (visit_var sp l (v_path (v_type d)) (v_name d) (v_value d)) as [l1 ev1]. exact Hv.
  - pose proof (decls_say sp ds l ev) as Hv. destruct (visit_decls sp l ds) as [l1 ev1]. exact Hv.
  - cbn [snd]. apply waitfor_says.
  - take_inner. cbn [snd]. rewrite in_app_iff, opt_says. reflexivity.
  - pose proof (cases_say sp (fun e => map Said (snd (visit_expr sp l None e))) l ev cs Flow.Model.alltrue) as Hc. destruct (run_cases (visit_stmt sp) (fun e => map Said (snd (visit_expr sp l None e))) Flow.Model.alltrue l cs) as [st ev2]. cbn [snd] in Hc.
    destruct d as [b|].
    + take_inner. cbn [snd]. rewrite !in_app_iff, cond_says, Hc. clear Hc. split.
      * intros [[H|H]|[H|H]]; [left; exact H|right; left; exact H|right; right; left; exact H|right; right; right; exists b; split; [reflexivity|exact H]].
      * intros [H|[H|[H|(b' & E & H)]]]; [left; left; exact H|left; right; exact H|right; left; exact H|right; right; injection E as <-; exact H].
    + cbn [snd]. rewrite !in_app_iff, cond_says, Hc. clear Hc. split.
      * intros [[H|H]|H]; [left; exact H|right; left; exact H|right; right; left; exact H].
      * intros [H|[H|[H|(b' & E & H)]]]; [left; left; exact H|left; right; exact H|right; exact H|discriminate E].
  - pose proof (all_caught_iff sp ps l) as Hl. pose proof (caught_says sp ps l ev) as Hc. take_inner. destruct (visit_caught sp l ps) as [lc evc]. cbn [fst snd] in Hl, Hc. take_inner. cbn [snd]. rewrite !in_app_iff, Hc. clear Hc.
    assert (N : In ev (if 1 <? List.length ps then [CatchParams (List.length ps)] else []) <-> 1 < List.length ps /\ ev = CatchParams (List.length ps)).
    { destruct (Nat.ltb_spec 1 (List.length ps)) as [H|H]; cbn [In]; split; [intros [<-|[]]; split; [exact H|reflexivity]|intros [_ ->]; left; reflexivity|intros []|intros [H' _]; lia]. }
    rewrite N. clear N. split.
    + intros [H|[H|[H|H]]]; [left; exact H|right; left; exact H|right; right; left; exact H|right; right; right; exists lc; split; [apply Hl; reflexivity|exact H]].
    + intros [H|[H|[H|(l1 & H1 & H)]]]; [left; exact H|right; left; exact H|right; right; left; exact H|right; right; right; apply Hl in H1; subst l1; exact H].
  - reflexivity.
  - reflexivity.
  - reflexivity.
  - take_inner. reflexivity.
  - reflexivity.
  - cbn [snd]. apply opt_says.
Qed.

Lemma expr_seen sp l h e ev : In ev (seen (IE sp l h e)) <-> tells (IE sp l h e) ev.
Proof using Type.
  cbn [seen]. unfold Stmts.visit_expr. rewrite in_map_iff. split.
  - intros (x & <- & H). apply C69_events in H as (m & H1 & H2). apply (tl_expr _ _ _ _ _ _ _ _ _ _ _ _ _ sp l h e m x); assumption.
  - intros H. inversion H as [| | | | | | | | | | | | | | | | | | | | |p' l' h' e' m x H1 H2]; subst. exists x. split; [reflexivity|]. apply C69_events. exists m. split; assumption.
Qed.
Lemma block_tells sp top l b ev : In ev (seen (IB sp top l b)) <-> tells (IB sp top l b) ev \/ exists j, inside (IB sp top l b) j /\ In ev (seen j).
Proof using Type.
  cbn [seen]. unfold Stmts.visit_block. change Flow.Model.allfalse with (flow_of []). rewrite block_says. cbn [app]. split.
  - intros [(b1 & s & b2 & -> & Hs & ->)|(b1 & s & b2 & l' & -> & Ht & Hn & [H|H])].
    + left. apply tl_unreachable. exact Hs.
    + apply setting_says in H as (x & m & v & -> & Et & Hr & ->). left. apply tl_set; [exact Hn| |exact Hr]. apply andb_false_iff in Et as [Et|Et]; [left; exact Et|right]. apply all_settings. exact Et.
    + right. exists (IS sp l' s). split; [apply in_block; assumption|exact H].
  - intros [H|(j & Hj & H)].
    + inversion H as [p' top' l' b1 s b2 Hs|p' top' l' b1 x m v b2 Hn Ht Hr| | | | | | | | | | | | | | | | | | | |]; subst.
      * left. exists b1, s, b2. split; [reflexivity|]. split; [exact Hs|reflexivity].
      * destruct (run_scope b1 l) as (l' & Hl). right. exists b1, (Setting x m v), b2, l'. split; [reflexivity|]. split; [exact Hl|]. split; [exact Hn|]. left. apply setting_says. exists x, m, v. split; [reflexivity|]. split; [|split; [exact Hr|reflexivity]].
        apply andb_false_iff. destruct Ht as [Ht|Ht]; [left; exact Ht|right; apply all_settings; exact Ht].
    + remember (IB sp top l b) as i eqn:Ei. destruct Hj; try discriminate Ei. injection Ei as -> -> -> <-. right. exists b1, s, b2, l'. split; [reflexivity|]. split; [assumption|]. split; [assumption|]. right. exact H.
Qed.
Lemma tells_stmt sp l s ev : tells (IS sp l s) ev -> stmt_said sp l s ev.
Proof using Type.
  intros H. remember (IS sp l s) as i eqn:Ei. destruct H; try discriminate Ei; injection Ei; intros; subst; cbn [stmt_said].
  - left. left. do 7 eexists. split; [reflexivity|]. split; [eassumption|]. split; [eassumption|]. split; [eassumption|reflexivity].
  - left. right. do 2 eexists. split; [reflexivity|]. right. eexists. split; [eassumption|]. split; [assumption|reflexivity].
  - left. split; reflexivity.
  - right. left. split; [assumption|reflexivity].
  - left. do 2 eexists. split; [eassumption|]. left. assumption.
  - left. do 2 eexists. split; [eassumption|]. right. right. right. left. split; [assumption|reflexivity].
  - left. do 2 eexists. split; [eassumption|]. right. right. right. right. split; [assumption|reflexivity].
  - right. left. split; [reflexivity|]. do 6 eexists. split; [reflexivity|]. split; eassumption.
  - right. right. eexists. split; [reflexivity|]. right. split; [discriminate|]. split; [do 2 eexists; split; eassumption|reflexivity].
  - destruct (init_scope l init) as (l1 & H1). destruct (init_scope l1 inc) as (l2 & H2). exists l1, l2. split; [exact H1|]. split; [exact H2|]. right. left. eexists. split; [reflexivity|]. right. right. left. assumption.
  - destruct (init_scope l init) as (l1 & H1). destruct (init_scope l1 inc) as (l2 & H2). exists l1, l2. split; [exact H1|]. split; [exact H2|]. right. left. eexists. split; [reflexivity|]. left. split; [assumption|reflexivity].
  - destruct (init_scope l init) as (l1 & H1). destruct (init_scope l1 inc) as (l2 & H2). exists l1, l2. split; [exact H1|]. split; [exact H2|]. right. left. eexists. split; [reflexivity|]. right. left. split; [assumption|reflexivity].
  - match goal with H : iterates _ _ |- _ => destruct H as [(ty & x & it & b & ->)|(ty & k & it & v & b & ->)] end; cbn [stmt_said]; left; eexists; (split; [reflexivity|]); right; eexists; (split; eassumption).
  - right. right. right. right. do 2 eexists. split; [reflexivity|]. split; [reflexivity|]. split; [assumption|reflexivity].
  - match goal with H : declares_type _ _ |- _ => destruct H end; cbn [stmt_said].
    + left. assumption.
    + match goal with H : In _ ds |- _ => apply in_split in H as (ds1 & ds2 & ->) end. destruct (decl_scope l ds1) as (l1 & H1). exists ds1, d, ds2, l1. split; [reflexivity|]. split; [exact H1|left; assumption].
    + right. left. eexists. split; [reflexivity|left; assumption].
    + right. left. eexists. split; [reflexivity|left; assumption].
    + right. right. left. eexists. split; [reflexivity|left; assumption].
    + right. right. left. do 3 eexists. split; [eassumption|]. split; eassumption.
  - split; [reflexivity|]. split; [reflexivity|]. split; [assumption|reflexivity].
  - left. assumption.
  - right. right. left. do 2 eexists. split; [eassumption|]. left. split; [do 2 eexists; reflexivity|reflexivity].
  - right. left. split; [assumption|reflexivity].
Qed.
Lemma inside_stmt sp l s j ev : inside (IS sp l s) j -> In ev (seen j) -> stmt_said sp l s ev.
Proof using Type.
  intros H He. remember (IS sp l s) as i eqn:Ei. destruct H; try discriminate Ei; injection Ei; intros; subst; cbn [stmt_said].
  - right. exact He.
  - right. exact He.
  - exact He.
  - exact He.
  - eexists. split; [reflexivity|exact He].
  - left. exact He.
  - right. exact He.
  - left. exact He.
  - right. right. split; [assumption|]. eexists. split; eassumption.
  - left. do 2 eexists. split; [eassumption|]. right. left. exact He.
  - left. do 2 eexists. split; [eassumption|]. right. right. left. exact He.
  - right. right. eexists. split; [reflexivity|]. left. exact He.
  - exact He.
  - destruct (init_scope l (Some s0)) as (l1 & H1). destruct (init_scope l1 inc) as (l2 & H2). exists l1, l2. split; [exact H1|]. split; [exact H2|]. left. eexists. split; [reflexivity|exact He].
  - destruct (init_scope l1 inc) as (l2 & H2). exists l1, l2. split; [assumption|]. split; [exact H2|]. right. left. eexists. split; [reflexivity|]. right. right. right. exact He.
  - destruct (init_scope l1 (Some s0)) as (l2 & H2). exists l1, l2. split; [assumption|]. split; [exact H2|]. right. right. left. eexists. split; [reflexivity|exact He].
  - exists l1, l2. split; [assumption|]. split; [assumption|]. right. right. right. exact He.
  - left. eexists. split; [reflexivity|]. left. exact He.
  - right. right. eexists. split; eassumption.
  - left. eexists. split; [reflexivity|]. left. exact He.
  - right. right. eexists. split; [eassumption|]. right. eexists. split; eassumption.
  - left. exact He.
  - right. left. eexists. split; [reflexivity|exact He].
  - right. right. left. eexists. split; [reflexivity|]. right. do 2 eexists. split; [reflexivity|]. split; eassumption.
  - right. right. right. left. eexists. split; eassumption.
  - right. do 2 eexists. split; [eassumption|]. split; eassumption.
  - do 4 eexists. split; [reflexivity|]. split; [eassumption|]. right. do 2 eexists. split; [eassumption|]. split; eassumption.
  - left. eexists. split; [reflexivity|exact He].
  - right. exact He.
  - right. left. exact He.
  - right. right. left. do 2 eexists. split; [eassumption|]. right. left. do 2 eexists. split; [eassumption|]. split; eassumption.
  - right. right. left. do 2 eexists. split; [eassumption|]. right. right. exact He.
  - right. right. right. eexists. split; [reflexivity|exact He].
  - left. exact He.
  - right. right. right. eexists. split; eassumption.
  - exact He.
Qed.
Lemma var_out sp l path (o : option expr) ev (i : item) : var_said sp l path o ev -> (bad_type t path ev -> tells i ev) -> (forall e (s : sty), o = Some e -> var_type t path s -> inside i (IE sp l (basic_type s) e)) -> tells i ev \/ exists j, inside i j /\ In ev (seen j).
Proof using Type. intros [H|(e & s & Ho & Hs & H)] H1 H2; [left; apply H1; exact H|right]. eexists. split; [apply (H2 e s Ho Hs)|exact H]. Qed.
Lemma stmt_out sp l s ev : stmt_said sp l s ev -> tells (IS sp l s) ev \/ exists j, inside (IS sp l s) j /\ In ev (seen j).
Proof using Type.
  destruct s as [e|[e|]|e|c b|b c|arms els|b|init test inc b|ty x it o b|ty k it v o b|ty x a e step b|d|ds|x m v|d b|e cs d|b ps h|x|x|x|x b|e|o]; cbn [stmt_said].
  - intros [[(x & args & fs & q & r & c & at_ & -> & Hf & Hq & Hr & ->)|(x & y & -> & [H|(a & Ha & Hi & ->)])]|H].
    + left. eapply tl_discards; eassumption.
    + right. eexists. split; [apply in_expr|]. apply shift_left. exact H.
    + left. eapply tl_output; eassumption.
    + right. eexists. split; [apply in_expr|exact H].
  - intros [[-> ->]|H]; [left; apply tl_return|right; eexists; split; [apply in_return|exact H]].
  - intros [].
  - intros H. right. eexists. split; [apply in_throw|exact H].
  - intros [H|H]; right; eexists; (split; [|exact H]); [apply in_while|apply in_while_body].
  - intros [H|[[Ho ->]|(Ho & l' & Hl & H)]]; [right; eexists; split; [apply in_do|exact H]|left; apply tl_once; exact Ho|right; eexists; split; [apply in_do_cond; eassumption|exact H]].
  - intros [(c & b & Hi & [H|[H|[H|[[H ->]|[H ->]]]]])|[(-> & a1 & c & b & a2 & c' & b' & -> & Hs & Hi)|(b & -> & [H|(Hb & (c & b' & Hi & Hs) & ->)])]].
    + left. eapply tl_if; eassumption.
    + right. eexists. split; [eapply in_if; exact Hi|exact H].
    + right. eexists. split; [eapply in_then; exact Hi|exact H].
    + left. eapply tl_always; eassumption.
    + left. eapply tl_never; eassumption.
    + left. eapply tl_after_always; eassumption.
    + right. eexists. split; [apply in_else|exact H].
    + left. destruct b as [|s b]; [contradiction Hb; reflexivity|]. eapply tl_else; eassumption.
  - intros H. right. eexists. split; [apply in_forever|exact H].
  - intros (l1 & l2 & H1 & H2 & [(s' & -> & H)|[(e & -> & [[H ->]|[[H ->]|[H|H]]])|[(s' & -> & H)|H]]]).
    + right. eexists. split; [apply in_for_init|exact H].
    + left. apply tl_for_true. exact H.
    + left. apply tl_for_false. exact H.
    + left. apply tl_for. exact H.
    + right. eexists. split; [apply in_for_test; exact H1|exact H].
    + right. eexists. split; [apply in_for_inc; exact H1|exact H].
    + right. eexists. split; [eapply in_for_body; eassumption|exact H].
  - intros [(e & -> & [H|(a & Ha & H)])|[(ty' & -> & H)|(l1 & Hl & H)]].
    + right. eexists. split; [apply in_list|exact H].
    + left. eapply tl_iterates; [left; do 4 eexists; reflexivity|exact Ha|exact H].
    + apply (var_out _ _ _ _ _ _ H); [|discriminate]. intros Hb. eapply tl_type; [apply dt_list|exact Hb].
    + right. eexists. split; [eapply in_list_body; exact Hl|exact H].
  - intros [(e & -> & [H|(a & Ha & H)])|[(ty' & -> & H)|(l1 & Hl & [H|(l2 & Hd & H)])]].
    + right. eexists. split; [apply in_pairs|exact H].
    + left. eapply tl_iterates; [right; do 5 eexists; reflexivity|exact Ha|exact H].
    + apply (var_out _ _ _ _ _ _ H); [|discriminate]. intros Hb. eapply tl_type; [apply dt_pairs|exact Hb].
    + exfalso. destruct H as [(x & E & _)|(e & s & E & _)]; [discriminate E|discriminate E].
    + right. eexists. split; [eapply in_pairs_body; eassumption|exact H].
  - intros [H|[(s & -> & H)|[(ty' & -> & H)|[(l1 & Hl & H)|(a' & e' & -> & -> & Hv & ->)]]]].
    + right. eexists. split; [apply in_range_end|exact H].
    + right. eexists. split; [apply in_range_step|exact H].
    + apply (var_out _ _ _ _ _ _ H); [intros Hb; eapply tl_type; [apply dt_range|exact Hb]|]. intros e0 s Eo Hs. injection Eo as <-. apply in_range_start. exact Hs.
    + right. eexists. split; [eapply in_range_body; exact Hl|exact H].
    + left. apply tl_range. exact Hv.
  - intros H. apply (var_out _ _ _ _ _ _ H); [intros Hb; eapply tl_type; [apply dt_var|exact Hb]|]. intros e s Eo Hs. apply in_var; assumption.
  - intros (ds1 & d & ds2 & l1 & -> & Ha & [H|(e & s & Ho & Hs & H)]).
    + left. eapply tl_type; [apply dt_vars; apply in_elt|exact H].
    + right. eexists. split; [eapply in_vars; eassumption|exact H].
  - intros (-> & -> & Hf & ->). left. apply tl_waitfor. exact Hf.
  - intros [(e & -> & H)|H]; right; eexists; (split; [|exact H]); [apply in_spawn_delay|apply in_spawn].
  - intros [H|[H|[(cs' & b & Hi & [[(x & y & ->) ->]|[(c & v & Hc & Hv & H)|H]])|(b & -> & H)]]].
    + left. apply tl_switch. exact H.
    + right. eexists. split; [apply in_switch|exact H].
    + left. eapply tl_case_or. exact Hi.
    + right. eexists. split; [eapply in_case; eassumption|exact H].
    + right. eexists. split; [eapply in_case_body; exact Hi|exact H].
    + right. eexists. split; [apply in_default|exact H].
  - intros [H|[[Hn ->]|[(p & path & x & Hi & Hc & H)|(l1 & Ha & H)]]].
    + right. eexists. split; [apply in_try|exact H].
    + left. apply tl_catch. exact Hn.
    + left. eapply tl_type; [eapply dt_catch; eassumption|exact H].
    + right. eexists. split; [eapply in_catch; exact Ha|exact H].
  - intros [].
  - intros [].
  - intros [].
  - intros H. right. eexists. split; [apply in_label|exact H].
  - intros H. right. eexists. split; [apply in_del|exact H].
  - intros (e & -> & H). right. eexists. split; [apply in_crash|exact H].
Qed.
Lemma item_step (i : item) ev : In ev (seen i) <-> tells i ev \/ exists j, inside i j /\ In ev (seen j).
Proof using Type.
  destruct i as [sp top l b|sp l s|sp l h e].
  - apply block_tells.
  - cbn [seen]. rewrite stmt_says. split; [apply stmt_out|]. intros [H|(j & Hj & H)]; [apply tells_stmt; exact H|eapply inside_stmt; eassumption].
  - rewrite expr_seen. split; [intros H; left; exact H|]. intros [H|(j & Hj & _)]; [exact H|inversion Hj].
Qed.
Lemma item_says (i : item) ev : In ev (seen i) <-> exists j, within i j /\ tells j ev.
Proof using Type.
  split.
  - induction i as [i IH] using (well_founded_induction (well_founded_ltof _ isize)). unfold ltof in IH. intro H. apply item_step in H. destruct H as [H|(j & Hj & H)]; [exists i; split; [constructor|exact H]|].
    destruct (IH j (inside_size _ _ Hj) H) as (k & Hk & Ht). exists k. split; [econstructor; [exact Hj|exact Hk]|exact Ht].
  - intros (j & Hj & Ht). induction Hj as [i|i j k Hij _ IH]; [apply item_step; left; exact Ht|]. apply item_step. right. exists j. split; [exact Hij|apply IH; exact Ht].
Qed.

(** ** Everything is looked at *)
Notation part := (part (F := F)). Notation skipped := (skipped f_zero).
Lemma can_after l s : exists l', after l s l'. Proof. eexists. apply (after_iff false). reflexivity. Qed.
Lemma can_through b : forall l, exists l', through l b l'.
Proof. induction b as [|s b IH]; intros l; [exists l; constructor|]. destruct (can_after l s) as (l1 & H1). destruct (IH l1) as (l2 & H2). exists l2. econstructor; eassumption. Qed.
Lemma can_maybe l o : exists l', maybe_after l o l'. Proof. eexists. apply (maybe_after_iff false). reflexivity. Qed.
Lemma can_loop l x o ty : exists l', loop_var l x o ty l'. Proof. eexists. apply (loop_var_iff false). reflexivity. Qed.
Lemma can_declare l path x o : exists l', declared l path x o l'. Proof. eexists. apply (declared_iff false). reflexivity. Qed.
Lemma can_all l ds : exists l', all_declared l ds l'. Proof. eexists. apply (all_declared_iff false). reflexivity. Qed.
Lemma can_catch l ps : exists l', all_caught l ps l'. Proof. eexists. apply (all_caught_iff false). reflexivity. Qed.
Lemma can_leave l b : exists l', left_with l b l'. Proof. eexists. apply (left_iff false). reflexivity. Qed.
Lemma can_type path : exists s : sty, var_type t path s. Proof. destruct (typed_is path false) as (s & H & _). exists s. exact H. Qed.
Theorem C71_everything : forall (i : item) (c : code F), part (code_of i) c -> skipped (code_of i) c \/ exists j, inside i j /\ code_of j = c.
Proof.
  intros i c H. destruct i as [sp top l b|sp l s|sp l h e]; cbn [code_of] in *.
  - inversion H as [b0 s Hi E1 E2| | | | | | | | | | | | | | | | | | | | | | | ]; subst. apply in_split in Hi as (b1 & b2 & ->).
    destruct (Flow.Model.terminates (flow_of b1)) eqn:T; [left; apply sk_unreachable; exact T|]. destruct (can_through b1 l) as (l' & Ht). right. exists (IS sp l' s). split; [|reflexivity].
    apply in_block; [exact Ht|]. unfold StmtsSpec.stops. rewrite T. discriminate.
  - remember (CS s) as k eqn:Ek. destruct H; try discriminate Ek; injection Ek as <-; try (right; eexists; split; [constructor|reflexivity]; fail).
    + destruct H as [-> | ->]; [right; exists (IE sp l None c); split; [apply in_while|reflexivity]|right; exists (IB sp false l b); split; [apply in_while_body|reflexivity]].
    + destruct H as [-> | ->]; [|right; exists (IB sp false l b); split; [apply in_do|reflexivity]].
      destruct (Flow.Model.terminates_loop (flow_of b)) eqn:T; [left; apply sk_untested; exact T|]. destruct (can_leave l b) as (l' & Hl). right. exists (IE sp l' None c). split; [|reflexivity].
      apply in_do_cond; [|exact Hl]. unfold StmtsSpec.once. rewrite T. discriminate.
    + destruct H0 as [-> | ->]; [right; exists (IE sp l None c); split; [eapply in_if; exact H|reflexivity]|right; exists (IB sp false l b); split; [eapply in_then; exact H|reflexivity]].
    + right. destruct (can_maybe l init) as (l1 & H1). destruct (can_maybe l1 inc) as (l2 & H2). destruct H as [(s & -> & ->)|[(e & -> & ->)|[(s & -> & ->)| ->]]].
      * exists (IS sp l s). split; [apply in_for_init|reflexivity].
      * exists (IE sp l1 None e). split; [apply in_for_test; exact H1|reflexivity].
      * exists (IS sp l1 s). split; [apply in_for_inc; exact H1|reflexivity].
      * exists (IB sp false l2 b). split; [eapply in_for_body; eassumption|reflexivity].
    + right. destruct H as [(e & -> & ->)| ->]; [exists (IE sp l None e); split; [apply in_list|reflexivity]|].
      destruct (can_loop l n None ty) as (l1 & H1). exists (IB sp false l1 b). split; [eapply in_list_body; exact H1|reflexivity].
    + right. destruct H as [(e & -> & ->)| ->]; [exists (IE sp l None e); split; [apply in_pairs|reflexivity]|].
      destruct (can_loop l k None ty) as (l1 & H1). destruct (can_declare l1 [] v None) as (l2 & H2). exists (IB sp false l2 b). split; [eapply in_pairs_body; eassumption|reflexivity].
    + destruct H as [-> |[-> |[(s & -> & ->)| ->]]].
      * destruct ty as [ty|]; [|left; apply sk_start]. destruct (can_type (v_path ty)) as (s & Hs). right. exists (IE sp l (basic_type s) a). split; [apply in_range_start; exact Hs|reflexivity].
      * right. exists (IE sp l None e). split; [apply in_range_end|reflexivity].
      * right. exists (IE sp l None s). split; [apply in_range_step|reflexivity].
      * destruct (can_loop l n (Some a) ty) as (l1 & H1). right. exists (IB sp false l1 b). split; [eapply in_range_body; exact H1|reflexivity].
    + destruct (can_type (v_path (v_type d))) as (s & Hs). right. exists (IE sp l (basic_type s) e). split; [apply in_var; assumption|reflexivity].
    + apply in_split in H as (ds1 & ds2 & ->). destruct (can_all l ds1) as (l1 & H1). destruct (can_type (v_path (v_type d))) as (s & Hs). right. exists (IE sp l1 (basic_type s) e). split; [apply in_vars; assumption|reflexivity].
    + left. apply sk_setting.
    + right. destruct H as [(e & -> & ->)| ->]; [exists (IE true l None e); split; [apply in_spawn_delay|reflexivity]|exists (IB true false l b); split; [apply in_spawn|reflexivity]].
    + right. destruct H0 as [(c & v & Hc & Hv & ->)| ->]; [exists (IE sp l None v); split; [eapply in_case; eassumption|reflexivity]|exists (IB sp false l b); split; [eapply in_case_body; exact H|reflexivity]].
    + right. destruct H as [-> | ->]; [exists (IB sp false l b); split; [apply in_try|reflexivity]|]. destruct (can_catch l ps) as (l1 & H1). exists (IB sp false l1 h). split; [eapply in_catch; exact H1|reflexivity].
  - inversion H.
Qed.

(** ** The theorems *)
(** C71: what is reported of a block is what is said of it, of the statements in it and of the expressions in them, and nothing else. *)
Theorem C71_events : forall sp top l b ev, In ev (snd (visit_block sp top l b)) <-> exists i, within (IB sp top l b) i /\ tells i ev.
Proof. intros sp top l b ev. exact (item_says (IB sp top l b) ev). Qed.
(** C71: the variables after a statement; those at the end of a block; the control flow. *)
Theorem C71_scope : forall sp l s l', after l s l' <-> fst (fst (visit_stmt sp l s)) = l'.
Proof. exact after_iff. Qed.
Theorem C71_block : forall sp l b l', left_with l b l' <-> fst (fst (visit_block sp false l b)) = l'.
Proof. exact left_iff. Qed.
Theorem C71_flow : forall sp top l b, snd (fst (visit_block sp top l b)) = flow_of b.
Proof. intros sp top l b. apply (block_flow sp b (fun s _ => stmt_flow sp s)). Qed.
Lemma get_cons {A : Type} (x y : text) (a : A) (l : list (text * A)) : get x ((y, a) :: l) = if text_eqb y x then Some a else get x l.
Proof. unfold get. cbn [List.find fst]. destruct (text_eqb y x); reflexivity. Qed.
Lemma param_scope ps : forall l x a, get x (fst (with_params (F := F) (L := L) t l ps)) = Some a <->
  (exists ps1 path ps2 (s : sty), ps = ps1 ++ (x, path) :: ps2 /\ ~ In x (map fst ps2) /\ var_type t path s /\ a = {| x_type := s; x_val := None; x_impure := true |}) \/ (~ In x (map fst ps) /\ get x l = Some a).
Proof.
  induction ps as [|[y path] ps IH]; intros l x a; cbn [with_params].
  - cbn [fst map In]. split; [intros H; right; split; [intros []|exact H]|]. intros [(ps1 & p & ps2 & s & E & _)|[_ H]]; [destruct ps1; discriminate E|exact H].
  - destruct (var_typed_is F V D L t path true) as (s & Hs & E). destruct (var_typed (F := F) (L := L) t path true) as [a0 ev1] eqn:Ev. cbn [fst] in E. subst a0.
    specialize (IH (bind l y {| x_type := s; x_val := None; x_impure := true |}) x a). destruct (with_params t (bind l y _) ps) as [l' ev2]. cbn [fst] in IH |- *. unfold bind in IH. rewrite get_cons in IH. split.
    + intros H. apply IH in H. destruct H as [(ps1 & p & ps2 & s' & -> & N & Hv & ->)|[N H]]; [left; exists ((y, path) :: ps1), p, ps2, s'; repeat split; assumption|].
      destruct (text_eqb_spec y x) as [-> |Ne]; [left; injection H as <-; exists [], path, ps, s; repeat split; assumption|]. right. split; [|exact H]. cbn [map In fst]. intros [Q|Q]; [contradiction Ne|contradiction N].
    + intros [(ps1 & p & ps2 & s' & Eq & N & Hv & ->)|[N H]]; apply IH.
      * destruct ps1 as [|z ps1]; cbn [app] in Eq; injection Eq as Ez Ep.
        -- subst y p ps2. right. split; [exact N|]. destruct (text_eqb_spec x x) as [_|Ne]; [|contradiction Ne; reflexivity]. pose proof (var_typed_eq F V D L t path true s' Hv) as Q. rewrite Ev in Q. injection Q as ->. reflexivity.
        -- left. exists ps1, p, ps2, s'. repeat split; assumption.
      * right. cbn [map In fst] in N. split; [intros Q; apply N; right; exact Q|]. destruct (text_eqb_spec y x) as [-> |Ne]; [exfalso; apply N; left; reflexivity|exact H].
Qed.
Lemma param_says ps : forall l ev, In ev (snd (with_params (F := F) (L := L) t l ps)) <-> exists x path, In (x, path) ps /\ bad_type t path ev.
Proof.
  induction ps as [|[y path] ps IH]; intros l ev; cbn [with_params].
  - split; [intros []|intros (x & p & [] & _)].
  - pose proof (problem_says path true ev) as P. destruct (var_typed (F := F) (L := L) t path true) as [a0 ev1]. cbn [snd] in P. specialize (IH (bind l y a0) ev). destruct (with_params t (bind l y a0) ps) as [l' ev2]. cbn [snd] in IH |- *. rewrite in_app_iff, P, IH. split.
    + intros [H|(x & p & Hi & H)]; [exists y, path; split; [left; reflexivity|exact H]|exists x, p; split; [right; exact Hi|exact H]].
    + intros (x & p & [Q|Hi] & H); [injection Q as <- <-; left; exact H|right; exists x, p; split; assumption].
Qed.
Lemma first_is params x a : starts t self params x a <->
  (exists ps1 path ps2 (s : sty), params = ps1 ++ (x, path) :: ps2 /\ ~ In x (map fst ps2) /\ var_type t path s /\ a = {| x_type := s; x_val := None; x_impure := true |}) \/ (~ In x (map fst params) /\ get x (first_scope t self) = Some a).
Proof.
  unfold first_scope. assert (R : is_root t self_type = true <-> path_of t self_type = []) by (unfold is_root; destruct (path_of t self_type); split; congruence).
  split.
  - intros H. destruct H as [ps1 x path ps2 s E N Hv|N|N|N|x [-> | ->] N|N Hp|N]; try (right; split; [exact N|]).
    + left. exists ps1, path, ps2, s. repeat split; assumption.
    + destruct (is_root t self_type); vm_compute; reflexivity.
    + destruct (is_root t self_type); vm_compute; reflexivity.
    + destruct (is_root t self_type); vm_compute; reflexivity.
    + destruct (is_root t self_type); vm_compute; reflexivity.
    + destruct (is_root t self_type); vm_compute; reflexivity.
    + destruct (is_root t self_type); [contradiction Hp; apply R; reflexivity|]. vm_compute. reflexivity.
    + destruct (is_root t self_type); vm_compute; reflexivity.
  - intros [(ps1 & path & ps2 & s & -> & N & Hv & ->)|[N H]]; [econstructor; [reflexivity|exact N|exact Hv]|].
    unfold bind in H. rewrite get_cons in H. destruct (text_eqb_spec (lit "global") x) as [<-|_]; [injection H as <-; apply st_global; exact N|].
    assert (K : get x [(lit "caller", typed_as (SType (expect t "/callee")) false); (lit "callee", typed_as (SType (expect t "/callee")) false); (lit "usr", typed_as (SType (expect t "/mob")) false); (lit "args", typed_as (SType list_type) true); (lit ".", empty)] = Some a -> starts t self params x a).
    { clear H. intros H. rewrite !get_cons in H.
      destruct (text_eqb_spec (lit "caller") x) as [<-|_]; [injection H as <-; apply st_callee; [right; reflexivity|exact N]|].
      destruct (text_eqb_spec (lit "callee") x) as [<-|_]; [injection H as <-; apply st_callee; [left; reflexivity|exact N]|].
      destruct (text_eqb_spec (lit "usr") x) as [<-|_]; [injection H as <-; apply st_usr; exact N|].
      destruct (text_eqb_spec (lit "args") x) as [<-|_]; [injection H as <-; apply st_args; exact N|].
      destruct (text_eqb_spec (lit ".") x) as [<-|_]; [injection H as <-; apply st_result; exact N|discriminate H]. }
    destruct (is_root t self_type) eqn:Er; [apply K; exact H|]. rewrite get_cons in H. destruct (text_eqb_spec (lit "src") x) as [<-|_]; [|apply K; exact H].
    injection H as <-. apply st_src; [exact N|]. intros Q. apply R in Q. discriminate Q.
Qed.
(** C71: the whole of a procedure: it begins with the variables that there are at its start; what is reported is what is wrong with the types
    of its parameters, what is said in its body, and what C53 says of an override, where it counts whether a [..()] is looked at. *)
Theorem C71_run : forall params b, exists l0, (forall x a, get x l0 = Some a <-> starts t self params x a) /\
  (forall ev, In ev (fst (run f_zero t rules pure_rules rets vars builtin kind self params b)) <->
     (exists x path, In (x, path) params /\ bad_type t path ev) \/ exists i, within (IB false true l0 b) i /\ tells i ev) /\
  (exists calls, snd (run f_zero t rules pure_rules rets vars builtin kind self params b) = check_override t rules builtin self calls /\
     (calls = true <-> exists i, within (IB false true l0 b) i /\ tells i (Said CallsParentProc))).
Proof.
  intros params b. exists (fst (with_params (F := F) (L := L) t (first_scope t self) params)). split; [intros x a; rewrite param_scope, first_is; reflexivity|].
  unfold run. pose proof (param_says params (first_scope t self)) as P. destruct (with_params (F := F) (L := L) t (first_scope t self) params) as [l0 ev1]. cbn [fst snd] in P |- *.
  pose proof (C71_events false true l0 b) as Q. destruct (visit_block false true l0 b) as [[l1 st] ev2]. cbn [fst snd] in Q |- *. split.
  - intros ev. rewrite in_app_iff, P, Q. reflexivity.
  - eexists. split; [reflexivity|]. rewrite existsb_exists, <- Q. split.
    + intros (ev & Hi & He). destruct ev as [ev| | | | | | | | | | | | ]; try discriminate He. destruct ev; try discriminate He. exact Hi.
    + intros Hi. exists (Said CallsParentProc). split; [exact Hi|reflexivity].
Qed.
End PROOFS.
