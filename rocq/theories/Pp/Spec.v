(** What preprocessing means (C39, C40): macro expansion as rewriting of a flat list of tokens, conditional compilation as
    evaluation of a tree of lines. *)
From Coq Require Import List ZArith NArith Bool Arith String.
From Verif Require Import Common.Text Loc.Model Lexer.Punct.
From Verif Require Lexer.Model.
From Verif Require Import Pp.Model.
Import ListNotations.
Open Scope nat_scope.

Section SPEC.
Context {F P : Type}.
Notation token := (Lexer.Model.token F).
Notation ltok := (loc * token)%type.
Notation TPunct := (Lexer.Model.TPunct F).
Notation TIdent := (Lexer.Model.TIdent F).
Notation TString := (Lexer.Model.TString F).
Notation TInt := (Lexer.Model.TInt F).
Notation define := (@define F).
Notation define_map := (@define_map F).
(** from outside come: how a token is printed, when a condition holds, which files there are *)
Variable W : @world F P.

(** *** The arguments of a macro call *)
Definition is_p (p : punct) (t : token) : Prop := t = TPunct p.
(** tokens in which all parentheses are closed *)
Inductive balanced : list token -> Prop :=
  | bal_nil : balanced []
  | bal_tok : forall t r, t <> TPunct PLParen -> t <> TPunct PRParen -> balanced r -> balanced (t :: r)
  | bal_par : forall a r, balanced a -> balanced r -> balanced (TPunct PLParen :: a ++ TPunct PRParen :: r).
(** one argument: parentheses closed, commas only inside parentheses *)
Inductive argument : list token -> Prop :=
  | arg_nil : argument []
  | arg_tok : forall t r, t <> TPunct PLParen -> t <> TPunct PRParen -> t <> TPunct PComma -> argument r -> argument (t :: r)
  | arg_par : forall a r, balanced a -> argument r -> argument (TPunct PLParen :: a ++ TPunct PRParen :: r).
(** arguments with commas between them *)
Fixpoint commas (args : list (list token)) : list token :=
  match args with [] => [] | [a] => a | a :: rest => a ++ TPunct PComma :: commas rest end.
(** the values of [n] parameters; the last one of a variadic macro takes all that is left *)
Inductive bound (n : nat) : bool -> list (list token) -> list (list token) -> Prop :=
  | bound_fixed : forall args, List.length args = n -> bound n false args args
  | bound_variadic : forall fixed rest, S (List.length fixed) = n -> bound n true (fixed ++ rest) (fixed ++ [commas rest]).

(** *** The body of a macro with its arguments filled in *)
Fixpoint lookup (params : list text) (values : list (list token)) (i : text) : option (list token) :=
  match params, values with
  | p :: ps, v :: vs => if text_eqb p i then Some v else lookup ps vs i
  | _, _ => None
  end.
(** what [#x] makes of an argument: its tokens printed with spaces between them *)
Definition spaced (arg : list token) : text :=
  fold_left (fun acc t => match acc with [] => w_display W t | _ => acc ++ [32%N] ++ w_display W t end) arg [].
(** what [##] makes of an identifier and the value of what follows it *)
Definition glued (name : text) (ws ws_right : bool) (value : list token) : list token :=
  match value with
  | Lexer.Model.TIdent _ c ws' :: rest => TIdent (name ++ c) ws' :: rest
  | Lexer.Model.TInt _ n :: rest => TIdent (name ++ show_int n) ws_right :: rest
  | _ => TIdent name ws :: value
  end.
(** [filled params values body before result]: [before] is what the part of the body to the left has become *)
Inductive filled (params : list text) (values : list (list token)) : list token -> list token -> list token -> Prop :=
  | f_nil : forall b, filled params values [] b b
  | f_param : forall i ws r b v out, lookup params values i = Some v ->
      filled params values r (b ++ v) out -> filled params values (TIdent i ws :: r) b out
  | f_name : forall i ws r b out, lookup params values i = None ->
      filled params values r (b ++ [TIdent i ws]) out -> filled params values (TIdent i ws :: r) b out
  | f_string : forall i ws r b v out, lookup params values i = Some v ->
      filled params values r (b ++ [TString (spaced v)]) out -> filled params values (TPunct PHash :: TIdent i ws :: r) b out
  | f_plain : forall t r b out, (forall i ws, t <> TIdent i ws) -> t <> TPunct PHash -> t <> TPunct PTokenPaste ->
      filled params values r (b ++ [t]) out -> filled params values (t :: r) b out
  | f_paste_param : forall a ws i ws' r b v out, lookup params values i = Some v ->
      filled params values r (b ++ glued a ws ws' v) out ->
      filled params values (TPunct PTokenPaste :: TIdent i ws' :: r) (b ++ [TIdent a ws]) out
  | f_paste_name : forall a ws i ws' r b out, lookup params values i = None ->
      filled params values r (b ++ [TIdent (a ++ i) ws']) out ->
      filled params values (TPunct PTokenPaste :: TIdent i ws' :: r) (b ++ [TIdent a ws]) out
  | f_paste_other : forall t r b out, (forall i ws, t <> TIdent i ws) ->
      filled params values r (b ++ [t]) out -> filled params values (TPunct PTokenPaste :: t :: r) b out
  | f_paste_left : forall i ws r b out, (forall b' a ws', b <> b' ++ [TIdent a ws']) ->
      filled params values r (b ++ match lookup params values i with Some v => v | None => [TIdent i ws] end) out ->
      filled params values (TPunct PTokenPaste :: TIdent i ws :: r) b out
  | f_paste_end : forall b, filled params values [TPunct PTokenPaste] b b.

(** *** Expansion.  Tokens carry the number of files and expansions they stand in. *)
Notation dtok := (nat * ltok)%type.
Definition deeper (d : nat) (l : loc) (ts : list token) : list dtok := map (fun t => (S d, (l, t))) ts.
(** does the output end in [defined (] *)
Definition ends_defined (out : list ltok) : Prop := exists o l1 l2 ws, out = o ++ [(l1, TIdent (lit "defined") ws); (l2, TPunct PLParen)].
Definition special (i : text) : Prop := i = lit "__FILE__" \/ i = lit "__LINE__".

(** [expands cond file macros before input output]: the tokens of [input] become [output]; [cond] says whether this is the
    condition of an #if or #elif, [before] is the part of the output of the condition that stands to the left *)
Inductive expands (cond : bool) (file : text) (m : define_map) : list ltok -> list dtok -> list ltok -> Prop :=
  | e_nil : forall b, expands cond file m b [] []
  | e_plain : forall b d l t r out,
      (forall i ws, t <> TIdent i ws) -> t <> TPunct PHash -> (forall k x y, t <> Lexer.Model.TDoc F k x y) -> (cond = true -> t <> TPunct PNewline) ->
      expands cond file m (b ++ [(l, t)]) r out -> expands cond file m b ((d, (l, t)) :: r) ((l, t) :: out)
  | e_file : forall b d l ws r out,
      expands cond file m (b ++ [(l, TString file)]) r out ->
      expands cond file m b ((d, (l, TIdent (lit "__FILE__") ws)) :: r) ((l, TString file) :: out)
  | e_line : forall b d l ws r out,
      expands cond file m (b ++ [(l, TInt (as_i32 (lline l)))]) r out ->
      expands cond file m b ((d, (l, TIdent (lit "__LINE__") ws)) :: r) ((l, TInt (as_i32 (lline l))) :: out)
  | e_defined : forall b d l i ws r out, ~ special i -> cond = true -> ends_defined b ->
      expands cond file m (b ++ [(l, TIdent i ws)]) r out ->
      expands cond file m b ((d, (l, TIdent i ws)) :: r) ((l, TIdent i ws) :: out)
  | e_name : forall b d l i ws r out, ~ special i -> dm_get m i = None ->
      expands cond file m (b ++ [(l, TIdent i ws)]) r out ->
      expands cond file m b ((d, (l, TIdent i ws)) :: r) ((l, TIdent i ws) :: out)
  | e_deep : forall b d l i ws r x out, ~ special i -> ~ (cond = true /\ ends_defined b) -> dm_get m i = Some x -> MAX_RECURSION_DEPTH < d ->
      expands cond file m (b ++ [(l, TIdent i ws)]) r out ->
      expands cond file m b ((d, (l, TIdent i ws)) :: r) ((l, TIdent i ws) :: out)
  | e_constant : forall b d l i ws r l0 body docs out, ~ special i -> ~ (cond = true /\ ends_defined b) ->
      dm_get m i = Some (l0, Constant body docs) -> d <= MAX_RECURSION_DEPTH ->
      expands cond file m b (deeper d l body ++ r) out ->
      expands cond file m b ((d, (l, TIdent i ws)) :: r) out
  | e_call : forall b d l i ws r l0 params body variadic docs d1 l1 written args values d2 l2 r2 expansion out,
      ~ special i -> ~ (cond = true /\ ends_defined b) ->
      dm_get m i = Some (l0, Function params body variadic docs) -> d <= MAX_RECURSION_DEPTH ->
      r = (d1, (l1, TPunct PLParen)) :: written ++ (d2, (l2, TPunct PRParen)) :: r2 ->
      map (fun x => snd (snd x)) written = commas args -> args <> [] -> Forall argument args ->
      bound (List.length params) variadic args values ->
      filled params values body [] expansion ->
      expands cond file m b (deeper d2 l expansion ++ r2) out ->
      expands cond file m b ((d, (l, TIdent i ws)) :: r) out
  | e_no_call : forall b d l i ws l0 params body variadic docs d1 l1 t r2 out,
      ~ special i -> ~ (cond = true /\ ends_defined b) ->
      dm_get m i = Some (l0, Function params body variadic docs) -> d <= MAX_RECURSION_DEPTH ->
      t <> TPunct PLParen ->
      expands cond file m (b ++ [(l, TIdent i false); (l, t)]) r2 out ->
      expands cond file m b ((d, (l, TIdent i ws)) :: (d1, (l1, t)) :: r2) ((l, TIdent i false) :: (l, t) :: out).

(** *** Lines *)
(** the lines of an output that are not empty *)
Fixpoint split_lines (this : list ltok) (ts : list ltok) : list (list ltok) :=
  match ts with
  | [] => match this with [] => [] | _ => [this] end
  | (l, t) :: r =>
      match t with
      | Lexer.Model.TPunct _ PNewline => match this with [] => split_lines [] r | _ => this :: split_lines [] r end
      | _ => split_lines (this ++ [(l, t)]) r
      end
  end.
Definition lines_of (ts : list ltok) : list (list ltok) := split_lines [] ts.

(** a source file as a tree of lines: [ILine] is any line that is not part of a conditional, [ICond] a conditional with its
    opening line, the lines it guards and what follows *)
Inductive items : Type :=
  | INil
  | ILine (line : list ltok) (rest : items)
  | ICond (opening : list ltok) (body : items) (others : alts) (rest : items)
with alts : Type :=
  | AEndif (line : list ltok)
  | AElse (line : list ltok) (body : items) (endif : list ltok)
  | AElif (line : list ltok) (body : items) (others : alts).
Fixpoint spell (i : items) : list ltok :=
  match i with
  | INil => []
  | ILine l r => l ++ spell r
  | ICond o b a r => o ++ spell b ++ spell_alts a ++ spell r
  end
with spell_alts (a : alts) : list ltok :=
  match a with
  | AEndif l => l
  | AElse l b e => l ++ spell b ++ e
  | AElif l b a => l ++ spell b ++ spell_alts a
  end.

(** the form of the directives *)
Definition hash : token := TPunct PHash.
Definition nl : token := TPunct PNewline.
Definition toks (ts : list ltok) : list token := map snd ts.
Definition is_text (ts : list ltok) : Prop := exists body, toks ts = body ++ [nl] /\ ~ In nl body /\ ~ In hash body.
Definition plain_body (body : list token) : Prop := ~ In nl body /\ (forall k x y, ~ In (Lexer.Model.TDoc F k x y) body).
(** a macro's parameters as they are written *)
Definition names (ps : list text) (wss : list bool) : list token := commas (map (fun x => [TIdent (fst x) (snd x)]) (combine ps wss)).
(** [defining n ws l d ts]: the line [ts] is a #define of [n], at [l], as [d] *)
Inductive defining : list ltok -> loc -> text -> define -> Prop :=
  | def_constant : forall ts l0 l1 l w n ws body t, ts = (l0, hash) :: (l1, TIdent (lit "define") w) :: (l, TIdent n ws) :: t ->
      toks t = body ++ [nl] -> plain_body body -> (ws = false -> hd_error body <> Some (TPunct PLParen)) ->
      defining ts l n (Constant body [])
  | def_function : forall ts l0 l1 l w n params wss body t, ts = (l0, hash) :: (l1, TIdent (lit "define") w) :: (l, TIdent n false) :: t ->
      toks t = TPunct PLParen :: names params wss ++ TPunct PRParen :: body ++ [nl] -> List.length wss = List.length params -> params <> [] -> plain_body body ->
      defining ts l n (Function params body false [])
  | def_variadic : forall ts l0 l1 l w n params wss body t, ts = (l0, hash) :: (l1, TIdent (lit "define") w) :: (l, TIdent n false) :: t ->
      toks t = TPunct PLParen :: names params wss ++ TPunct PEllipsis :: TPunct PRParen :: body ++ [nl] -> List.length wss = List.length params -> params <> [] -> plain_body body ->
      defining ts l n (Function params body true []).
Definition undefining (ts : list ltok) (n : text) : Prop := exists w ws, toks ts = [hash; TIdent (lit "undef") w; TIdent n ws; nl].
Definition including (ts : list ltok) (path : text) : Prop := exists w, toks ts = [hash; TIdent (lit "include") w; TString path; nl].
(** the conditions *)
Inductive test : Type := IfDefined (n : text) | IfNotDefined (n : text) | IfTrue (cond : list ltok).
Inductive opens : list ltok -> test -> Prop :=
  | o_ifdef : forall ts w n ws, toks ts = [hash; TIdent (lit "ifdef") w; TIdent n ws; nl] -> opens ts (IfDefined n)
  | o_ifndef : forall ts w n ws, toks ts = [hash; TIdent (lit "ifndef") w; TIdent n ws; nl] -> opens ts (IfNotDefined n)
  | o_if : forall l0 l1 l2 w c, ~ In nl (toks c) -> opens ((l0, hash) :: (l1, TIdent (lit "if") w) :: c ++ [(l2, nl)]) (IfTrue c).
Definition is_else (ts : list ltok) : Prop := exists w, toks ts = [hash; TIdent (lit "else") w; nl].
Definition is_endif (ts : list ltok) : Prop := exists w, toks ts = [hash; TIdent (lit "endif") w; nl].
Definition is_elif (ts : list ltok) (c : list ltok) : Prop := exists l0 l1 l2 w, ts = (l0, hash) :: (l1, TIdent (lit "elif") w) :: c ++ [(l2, nl)] /\ ~ In nl (toks c).
(** a line other than a conditional one in a part that is switched off: text, or a directive without further # *)
Definition dead_line (ts : list ltok) : Prop :=
  is_text ts \/
  exists w n body, toks ts = hash :: TIdent n w :: body ++ [nl] /\ ~ In nl body /\
    (n = lit "define" \/ (In n [lit "include"; lit "undef"; lit "warn"; lit "error"; lit "pragma"] /\ ~ In hash body)).

(** *** Meaning *)
Record world_state : Type := { macros : define_map; included : list Z }.
Record place : Type := { depth : nat; file : P; env : P }.

(** may a name be defined here: DEBUG only in the environment file *)
Definition definable (w : place) (n : text) : Prop := n = lit "DEBUG" -> file w = env w.
Definition defined_at (w : place) (st : world_state) (n : text) : bool :=
  if text_eqb n (lit "__MAIN__") then (if w_path_eq W (file w) (env w) then true else false) else dm_contains (macros st) n.
(** does a test hold; a condition that cannot be evaluated does not *)
Inductive holds (w : place) (st : world_state) : test -> bool -> Prop :=
  | h_defined : forall n, holds w st (IfDefined n) (defined_at w st n)
  | h_not_defined : forall n, holds w st (IfNotDefined n) (negb (defined_at w st n))
  | h_true : forall c o, expands true (w_display_path W (file w)) (macros st) [] (map (pair (depth w)) c) o ->
      holds w st (IfTrue c) (match w_evaluate W o (macros st) with Some b => b | None => false end).
(** the file that an #include names: next to the current file, or next to the environment file *)
Inductive finds (w : place) (path : text) : option P -> Prop :=
  | fi_here : forall q q2, w_join W (file w) (slashes path) = Some q -> w_join W (env w) (slashes path) = Some q2 -> w_exists W q = true -> finds w path (Some q)
  | fi_env : forall q q2, w_join W (file w) (slashes path) = Some q -> w_join W (env w) (slashes path) = Some q2 -> w_exists W q = false -> w_exists W q2 = true -> finds w path (Some q2)
  | fi_none : forall q q2, w_join W (file w) (slashes path) = Some q -> w_join W (env w) (slashes path) = Some q2 -> w_exists W q = false -> w_exists W q2 = false -> finds w path None.

(** [means w on st prog st' lines]: processing [prog] at the place [w] takes the macros and included files from [st] to
    [st'] and yields [lines]; [on] = the part is not switched off.
    [others w on taken st a st' lines]: the rest of a conditional, [taken] = one of its earlier parts was used. *)
Inductive means : place -> bool -> world_state -> items -> world_state -> list (list ltok) -> Prop :=
  | m_nil : forall w on st, means w on st INil st []
  | m_text : forall w st line o rest st' ls, is_text line ->
      expands false (w_display_path W (file w)) (macros st) [] (map (pair (depth w)) line) o ->
      means w true st rest st' ls ->
      means w true st (ILine line rest) st' (lines_of o ++ ls)
  | m_define : forall w st line l n d rest st' ls, defining line l n d -> definable w n ->
      means w true {| macros := dm_insert (macros st) n (l, d); included := included st |} rest st' ls ->
      means w true st (ILine line rest) st' ls
  | m_undef : forall w st line n rest st' ls, undefining line n ->
      means w true {| macros := snd (dm_remove (macros st) n); included := included st |} rest st' ls ->
      means w true st (ILine line rest) st' ls
  | m_include : forall w st line path q content st1 ls1 rest st' ls, including line path -> finds w path (Some q) -> w_type W q = FDm ->
      w_open W q = Some (spell content) -> ~ In (w_file_id W q) (included st) ->
      means {| depth := S (depth w); file := q; env := env w |} true {| macros := macros st; included := w_file_id W q :: included st |} content st1 ls1 ->
      means w true st1 rest st' ls ->
      means w true st (ILine line rest) st' (ls1 ++ ls)
  | m_include_again : forall w st line path q content rest st' ls, including line path -> finds w path (Some q) -> w_type W q = FDm ->
      w_open W q = Some content -> In (w_file_id W q) (included st) ->
      means w true st rest st' ls ->
      means w true st (ILine line rest) st' ls
  | m_include_other : forall w st line path q rest st' ls, including line path -> finds w path (Some q) -> w_type W q <> FDm ->
      means w true st rest st' ls ->
      means w true st (ILine line rest) st' ls
  | m_include_missing : forall w st line path rest st' ls, including line path -> finds w path None ->
      means w true st rest st' ls ->
      means w true st (ILine line rest) st' ls
  | m_dead : forall w st line rest st' ls, dead_line line ->
      means w false st rest st' ls ->
      means w false st (ILine line rest) st' ls
  | m_cond : forall w on st line t v body a rest st1 ls1 st2 ls2 st3 ls3, opens line t -> holds w st t v ->
      means w (on && v) st body st1 ls1 ->
      others w on v st1 a st2 ls2 ->
      means w on st2 rest st3 ls3 ->
      means w on st (ICond line body a rest) st3 (ls1 ++ ls2 ++ ls3)
with others : place -> bool -> bool -> world_state -> alts -> world_state -> list (list ltok) -> Prop :=
  | a_endif : forall w on taken st line, is_endif line -> others w on taken st (AEndif line) st []
  | a_else : forall w on taken st line body e st' ls, is_else line -> is_endif e ->
      means w (on && negb taken) st body st' ls ->
      others w on taken st (AElse line body e) st' ls
  | a_elif : forall w on taken st line c v body a st1 ls1 st2 ls2, is_elif line c -> holds w st (IfTrue c) v ->
      means w (on && negb taken && v) st body st1 ls1 ->
      others w on (taken || v) st1 a st2 ls2 ->
      others w on taken st (AElif line body a) st2 (ls1 ++ ls2).
End SPEC.
