(** Makefiles written out from statements, and what the statements do.  Everything is
    said of plain strings. *)
From Coq Require Import String.
From Verif Require Import Base LocModel EvdModel AstModel EngineModel ParseModel ParseSpec EvdSpec DbSpec EvalSpec AstParseSpec EngineSpec MakeSpec.
Local Open Scope nat_scope.

(** * Syntax *)

(** Text, references `$(x)`, `$$`, and references `$(x:k=r)` that replace the ends of words. *)
Inductive part := Txt (s : str) | Ref (x : str) | Dol | Sub (x k r : str).
Definition wexpr := list part.

Inductive operator := OSet | ONow | OMaybe | OShell | OMore.
(** `ifeq (a,b)`, `ifneq (a,b)`; `ifeq "a" "b"`, `ifeq 'a' "b"` and so on. *)
Inductive test := Parens (negated : bool) | Quotes (negated single single' : bool).
Inductive stmt :=
| SBlank                                                (* an empty line *)
| SAssign (x : str) (o : operator) (e : wexpr)          (* x = e, x := e, x ?= e, x != e, x += e *)
| SAssignTo (x : wexpr) (o : operator) (e : wexpr)      (* $(p)_x = e *)
| SLong (x : str) (o : operator) (down : bool) (e : wexpr) (es : list wexpr) (* x = e \, e' \, ... over several lines *)
| SDefine (x : str) (body : list wexpr)                 (* define x, lines, endef *)
| SRule (targets : list str) (double : bool) (deps : wexpr) (recipe : list wexpr)
| SRuleFor (targets : list wexpr) (double : bool) (deps : wexpr) (cmd : option wexpr) (recipe : list wexpr) (* $(x): deps; cmd *)
| SWords (ws : list str)                                (* words and nothing else, as `ifeq a b` *)
| SInclude (soft : bool) (names : wexpr)                (* include names, -include names *)
| SEval (c : stmt)                                      (* $(eval c) *)
| SIf (k : test) (a b : wexpr) (yes : list stmt) (no : option (list stmt)).

Definition show_part (p : part) : str := 
  match p with
  | Txt s => s
  | Ref x => lit "$(" ++ x ++ lit ")"
  | Dol => lit "$$"
  | Sub x k r => lit "$(" ++ (x ++ lit ":" ++ k ++ lit "=" ++ r) ++ lit ")"
  end.
Definition show (e : wexpr) : str := concat (List.map show_part e).
Definition show_op (o : operator) : str :=
  lit match o with OSet => " = " | ONow => " := " | OMaybe => " ?= " | OShell => " != " | OMore => " += " end.
Definition nl : str := [c_nl].
(** A backslash at the end of a line; the next line is indented. *)
Definition continues : str := lit " \" ++ nl ++ [c_tab].
Definition quote (single : bool) : str := lit (if single then "'" else """").
Definition if_text (k : test) (a b : wexpr) : str :=
  match k with
  | Parens n => lit (if n then "ifneq (" else "ifeq (") ++ show a ++ lit "," ++ show b ++ lit ")" ++ nl
  | Quotes n q q' => lit (if n then "ifneq " else "ifeq ") ++ quote q ++ show a ++ quote q ++ lit " " ++ quote q' ++ show b ++ quote q' ++ nl
  end.
(** A recipe line; a command can go over several lines, each of them after a tab. *)
Definition show_line (e : wexpr) : str := c_tab :: concat (List.map (fun c => if (c =? c_nl)%N then [c_nl; c_tab] else [c]) (show e)) ++ nl.
Definition show_cmd (cmd : option wexpr) : str := match cmd with None => [] | Some e => semicolon :: show e end.
Fixpoint show_stmt (s : stmt) : str :=
  match s with
  | SBlank => nl
  | SAssign x o e => x ++ show_op o ++ show e ++ nl
  | SAssignTo x o e => show x ++ show_op o ++ show e ++ nl
  | SLong x o down e es => x ++ (if down then removelast (show_op o) ++ continues else show_op o) ++ show e ++
      concat (List.map (fun e => continues ++ show e) es) ++ nl
  | SDefine x body => lit "define " ++ x ++ nl ++ concat (List.map (fun e => show e ++ nl) body) ++ lit "endef" ++ nl
  | SRule ts double deps recipe =>
      join c_space ts ++ lit (if double then ":: " else ": ") ++ show deps ++ nl ++
      concat (List.map show_line recipe)
  | SRuleFor ts double deps cmd recipe =>
      join c_space (List.map show ts) ++ lit (if double then ":: " else ": ") ++ show deps ++ show_cmd cmd ++ nl ++
      concat (List.map show_line recipe)
  | SWords ws => join c_space ws ++ nl
  | SInclude soft names => lit (if soft then "-include " else "include ") ++ show names ++ nl
  | SEval c => lit "$(eval " ++ removelast (show_stmt c) ++ lit ")" ++ nl
  | SIf k a b yes no =>
      if_text k a b ++ concat (List.map show_stmt yes) ++
      match no with None => [] | Some no => lit "else" ++ nl ++ concat (List.map show_stmt no) end ++
      lit "endif" ++ nl
  end.
Definition show_all (ss : list stmt) : str := concat (List.map show_stmt ss).

(** Characters of names; printable characters without `$`, `#` and backslash. *)
Definition word_char (c : char) : Prop :=
  (97 <= c <= 122 \/ 65 <= c <= 90 \/ 48 <= c <= 57 \/ c = 95 \/ c = 46 \/ c = 47 \/ c = 45)%N.
Definition ordinary (c : char) : Prop := (32 <= c <= 126)%N /\ ~ In c [35; 36; 92]%N.

(** Names do not begin with a word that means something to the parser (in upper or
    lower case), even if the name goes on after it. *)
Definition reserved : list string := conditional_words ++ modifier_words ++ directive_words ++ function_names.
Definition unreserved (s : str) : Prop := forall k r, In k reserved -> List.map ascii_lower s <> lit k ++ r.
Definition name (x : str) : Prop := x <> [] /\ Forall word_char x /\ unreserved x.

(** Characters of the key and the replacement in `$(x:key=replacement)`. *)
Definition ending (s : str) : Prop := Forall (fun c => word_char c \/ c = 37%N) s.
(** The text of the expression is made of characters with [P], names of variables and `$$`.
    (`$(x:k=r)` only where colons and equality signs may be.) *)
Definition made_of (P : char -> Prop) (e : wexpr) : Prop :=
  Forall (fun p =>
    match p with
    | Txt s => Forall P s
    | Ref x => name x
    | Dol => True
    | Sub x k r => name x /\ ending k /\ ending r /\ Forall P (lit ":" ++ k ++ lit "=" ++ r)
    end) e.
Definition not_blank_first (s : str) : Prop := match s with c :: _ => c <> c_space | [] => True end.
(** A line of a value over several lines: neither empty nor with blanks at its ends. *)
Definition long_line (e : wexpr) : Prop :=
  made_of ordinary e /\ show e <> [] /\ not_blank_first (show e) /\ not_blank_first (rev (show e)).
(** Lines in general: any ASCII characters but the newline, `#` and `$`; no odd number of backslashes
    at the end.  (So there may be tabs, and a carriage return at the end.) *)
Definition line_char (c : char) : Prop := (c < 128)%N /\ ~ In c [10; 35; 36]%N.
Definition whole (s : str) : Prop := continued (fun c => c) s = false.
(** Values: such lines, not beginning with a blank. *)
Definition solid_first (s : str) : Prop := match s with c :: _ => c <> c_space /\ c <> c_tab | [] => True end.
Definition value_expr (e : wexpr) : Prop := made_of line_char e /\ whole (show e) /\ solid_first (show e).
Definition condition_expr (e : wexpr) : Prop :=
  made_of (fun c => ordinary c /\ ~ In c [40; 41; 44]%N) e /\ not_blank_first (show e).
Definition quoted_expr (single : bool) (e : wexpr) : Prop := made_of (fun c => ordinary c /\ ~ In c (quote single)) e.
Definition conditions (k : test) (a b : wexpr) : Prop :=
  match k with
  | Parens _ => condition_expr a /\ condition_expr b
  | Quotes _ q q' => quoted_expr q a /\ quoted_expr q' b
  end.
(** Without the spaces and tabs it begins with. *)
Definition unindented (s : str) : str := lstrip (fun c => c) s.
(** The lines between `define` and its `endef`: [nested n] inside [n] definitions.  (A backslash at the
    end of a line is a character like others.) *)
Inductive nested : nat -> list wexpr -> Prop :=
| NE_end : nested 1 []
| NE_line : forall n e es, made_of line_char e -> (forall r, unindented (show e) <> lit "define" ++ r) ->
    (forall r, unindented (show e) <> lit "endef" ++ r) -> nested n es -> nested n (e :: es)
| NE_define : forall n e es r, made_of line_char e -> unindented (show e) = lit "define" ++ r -> nested (S (S n)) es -> nested (S n) (e :: es)
| NE_endef : forall n e es r, made_of line_char e -> unindented (show e) = lit "endef" ++ r -> Forall (fun c => is_whitespace c = true) r ->
    nested (S n) es -> nested (S (S n)) (e :: es).
Definition dep_char (c : char) : Prop := word_char c \/ c = c_space.
Definition deps_expr (e : wexpr) : Prop := made_of dep_char e /\ unreserved (trim_start (show e)).

(** A line of words: names; the first may be `ifeq` or `ifneq`, which are no conditionals
    without the arguments in parentheses or quotes. *)
Definition word_line (ws : list str) : Prop :=
  match ws with [] => False | w :: ws => (name w \/ w = lit "ifeq" \/ w = lit "ifneq") /\ Forall name ws end.

(** A name or a target in which variables may occur. *)
Definition computed (x : wexpr) : Prop := made_of word_char x /\ show x <> [] /\ unreserved (show x).

(** The commands of recipes: lines joined with a backslash and a newline. *)
Definition plain_command (l : str) : Prop := Forall line_char l /\ whole l.
Definition command_line (e : wexpr) : Prop := made_of line_char e /\ whole (show e).
Inductive recipe_expr : wexpr -> Prop :=
| RX_line : forall e, command_line e -> recipe_expr e
| RX_more : forall e e', command_line e -> recipe_expr e' -> show e' <> [] -> recipe_expr (e ++ Txt [c_bslash; c_nl] :: e').

(** What may be evaluated here: an assignment or a rule without recipe, in plain text without
    parentheses and semicolons.  (Of texts with references see [MakeSpec] and the findings.) *)
Definition evaluable (c : stmt) : Prop :=
  match c with
  | SAssign x _ [Txt v] => name x /\ Forall (fun c => ordinary c /\ ~ In c [40; 41; 59]%N) v /\ not_blank_first v
  | SRule ts _ [Txt d] [] => ts <> [] /\ Forall name ts /\ deps_expr [Txt d]
  | _ => False
  end.

(** The command after a semicolon: it begins with a blank, and what follows the blanks is not an
    operator.  (`t: ;x=1 cmd` is taken for an assignment, see [StopSpec].) *)
Definition command_expr (e : wexpr) : Prop :=
  made_of ordinary e /\ match show e with [] => True | c :: _ => c = c_space end /\
  forall k r, In k ["="; ":="; "::="; "?="; "!="; "+="]%string -> trim_start (show e) <> lit k ++ r.
Definition commands (cmd : option wexpr) : list wexpr := match cmd with None => [] | Some e => [e] end.

Definition every (P : stmt -> Prop) (ss : list stmt) : Prop := fold_right (fun c Q => P c /\ Q) True ss.
Fixpoint well_formed (c : stmt) : Prop :=
  match c with
  | SBlank => True
  | SAssign x _ e => name x /\ value_expr e
  | SAssignTo x _ e => computed x /\ value_expr e
  | SLong x _ down e es => name x /\ Forall long_line (e :: es) /\ (down = true \/ es <> [])
  | SDefine x body => name x /\ nested 1 body
  | SRule ts _ deps recipe => ts <> [] /\ Forall name ts /\ deps_expr deps /\ Forall recipe_expr recipe
  | SRuleFor ts _ deps cmd recipe => ts <> [] /\ Forall computed ts /\ deps_expr deps /\ Forall command_expr (commands cmd) /\ Forall recipe_expr recipe
  | SWords ws => word_line ws
  | SInclude _ e => made_of dep_char e
  | SEval c => evaluable c
  | SIf k a b yes no => conditions k a b /\ every well_formed yes /\
      match no with None => True | Some no => every well_formed no end
  end.

(** The text of a makefile with these statements.  It may begin with a comment; the
    comment is everything up to the end of the line with the last `#`. *)
Inductive written (ss : list stmt) : str -> Prop :=
| WR_plain : written ss (show_all ss)
| WR_comment : forall p l, asciis p -> (p = [] \/ exists q, p = q ++ [c_hash]) -> Forall (fun c => ordinary c \/ c = dollar) l ->
    written ss (c_hash :: p ++ l ++ nl ++ show_all ss).

(** * Semantics *)

(** The value of a variable: text that is expanded when it is used, text that was
    expanded before (the pieces it expanded to), one value after the other (with a space between
    them, or not). *)
Inductive val := Later (e : wexpr) | Now (ps : list str) | Plus (v : val) (space : bool) (v' : val).
Definition wenv := str -> option val.

Definition begins_txt (e : wexpr) : bool := match e with Txt _ :: _ => true | _ => false end.

(** [says E e s]: the expression [e] stands for [s].  Undefined variables stand for nothing.
    `$(x:k=r)` is the value of [x] with [k] replaced by [r] at the ends of its words; where a word goes
    on from one piece of the value to the next something else is replaced: [cut_substituted].
    (GNU make: pieces do not matter.)

    [says_in E e ps]: [ps] are the pieces of what [e] stands for.  Text is one piece, and so is
    whatever a reference stands for; [val_in E v ps]: of what the value [v] stands for. *)
Inductive says (E : wenv) : wexpr -> str -> Prop :=
| SY_nil : says E [] []
| SY_txt : forall s e r, says E e r -> says E (Txt s :: e) (s ++ r)
| SY_dol : forall e r, says E e r -> says E (Dol :: e) (dollar :: r)
| SY_none : forall x e r, E x = None -> says E e r -> says E (Ref x :: e) r
| SY_some : forall x v s e r, E x = Some v -> val_says E v s -> says E e r -> says E (Ref x :: e) (s ++ r)
| SY_sub_none : forall x k r e t, E x = None -> says E e t -> says E (Sub x k r :: e) t
| SY_sub : forall x k r v ps m e t, E x = Some v -> val_in E v ps ->
    cut_substituted (fun c => c) c_space k r ps m -> says E e t -> says E (Sub x k r :: e) (m ++ t)
with val_says (E : wenv) : val -> str -> Prop :=
| VS_later : forall e s, says E e s -> val_says E (Later e) s
| VS_now : forall ps, val_says E (Now ps) (concat ps)
| VS_plus : forall v (sp : bool) v' s s', val_says E v s -> val_says E v' s' ->
    val_says E (Plus v sp v') (s ++ (if sp then [c_space] else []) ++ s')
with says_in (E : wenv) : wexpr -> list str -> Prop :=
| SI_nil : says_in E [] []
| SI_txt : forall s e ps, begins_txt e = false -> says_in E e ps -> says_in E (Txt s :: e) (s :: ps)
| SI_txts : forall s s' e ps, says_in E (Txt (s ++ s') :: e) ps -> says_in E (Txt s :: Txt s' :: e) ps
| SI_part : forall p s e ps, begins_txt [p] = false -> says E [p] s -> says_in E e ps -> says_in E (p :: e) (s :: ps)
with val_in (E : wenv) : val -> list str -> Prop :=
| WI_later : forall e ps, says_in E e ps -> val_in E (Later e) ps
| WI_now : forall ps, val_in E (Now ps) ps
| WI_plus : forall v (sp : bool) v' ps ps', val_in E v ps -> val_in E v' ps' ->
    val_in E (Plus v sp v') (ps ++ (if sp then [[c_space]] else []) ++ ps').
Scheme says_mut := Induction for says Sort Prop with val_says_mut := Induction for val_says Sort Prop
  with says_in_mut := Induction for says_in Sort Prop with val_in_mut := Induction for val_in Sort Prop.
Combined Scheme says_all from says_mut, val_says_mut, says_in_mut, val_in_mut.

(** [uses E e x]: the variable [x] occurs in the expression, or in the value of such a variable, and
    so on.  Text that was expanded before uses nothing. *)
Inductive uses (E : wenv) : wexpr -> str -> Prop :=
| US_ref : forall e x, In (Ref x) e -> uses E e x
| US_sub : forall e x k r, In (Sub x k r) e -> uses E e x
| US_value : forall e y v x, In (Ref y) e -> E y = Some v -> val_uses E v x -> uses E e x
| US_sub_value : forall e y k r v x, In (Sub y k r) e -> E y = Some v -> val_uses E v x -> uses E e x
with val_uses (E : wenv) : val -> str -> Prop :=
| VU_later : forall e x, uses E e x -> val_uses E (Later e) x
| VU_left : forall v sp v' x, val_uses E v x -> val_uses E (Plus v sp v') x
| VU_right : forall v sp v' x, val_uses E v' x -> val_uses E (Plus v sp v') x.
Scheme uses_mut := Induction for uses Sort Prop with val_uses_mut := Induction for val_uses Sort Prop.
Combined Scheme uses_both from uses_mut, val_uses_mut.

(** A rule: dependencies, for each of them the variables used for it, recipe, whether it has a
    double colon. *)
Record wrule := WRule { wr_deps : list str; wr_uses : list (str -> Prop); wr_recipe : list wexpr; wr_double : bool }.
(** The variables, the last rule and its targets if it is not recorded yet, the rules,
    and whether lines are being ignored. *)
Record wstate := WState { w_env : wenv; w_open : option (list str * wrule); w_rules : str -> option wrule; w_deaf : bool }.
(** The rule recorded for the target [t]. *)
Definition rule_is (s : wstate) (t : str) (deps : list str) (recipe : list wexpr) (double : bool) : Prop :=
  exists U, w_rules s t = Some (WRule deps U recipe double).
Definition w_start : wstate := WState (fun _ => None) None (fun _ => None) false.

(** A rule without recipe adds its dependencies to those of an earlier one. *)
Definition combined (r : wrule) (old : option wrule) : wrule :=
  match wr_recipe r, old with
  | [], Some o => WRule (wr_deps o ++ wr_deps r) (wr_uses o ++ wr_uses r) (wr_recipe o) (wr_double o)
  | _, _ => r
  end.
Definition finish (s : wstate) : wstate :=
  match w_open s with
  | None => s
  | Some (ts, r) => WState (w_env s) None (fold_left (fun R t => set R t (combined r (R t))) ts (w_rules s)) (w_deaf s)
  end.
Definition assign_to (s : wstate) (x : str) (v : val) : wstate := WState (set (w_env s) x v) (w_open s) (w_rules s) (w_deaf s).

(** The words of a string. *)
Definition words (s : str) : list str := split_at (fun c => c) is_whitespace [] s.

(** The value after an assignment.  (`?=` assigns even if the variable is defined; `!=`
    keeps the command.) *)
Inductive gives (E : wenv) (x : str) : operator -> wexpr -> val -> Prop :=
| G_set : forall e, gives E x OSet e (Later e)
| G_maybe : forall e, gives E x OMaybe e (Later e)
| G_shell : forall e, gives E x OShell e (Later e)
| G_now : forall e ps, show e <> [] -> says_in E e ps -> gives E x ONow e (Now ps)
| G_new : forall e, E x = None -> gives E x OMore e (Later e)
| G_more : forall e old, E x = Some old -> gives E x OMore e (Plus old true (Later e)).

(** A value over several lines: the lines, with a space between them. *)
Definition lines_val (e : wexpr) (es : list wexpr) : val := fold_left (fun v e => Plus v true (Later e)) es (Later e).
Inductive gives_lines (E : wenv) (x : str) : operator -> wexpr -> list wexpr -> val -> Prop :=
| GL_later : forall o e es, In o [OSet; OMaybe; OShell] -> gives_lines E x o e es (lines_val e es)
| GL_now : forall e es ps, val_in E (lines_val e es) ps -> gives_lines E x ONow e es (Now ps)
| GL_new : forall e es, E x = None -> gives_lines E x OMore e es (lines_val e es)
| GL_more : forall e es old, E x = Some old -> gives_lines E x OMore e es (Plus old true (lines_val e es)).

Definition body_val (body : list wexpr) : val :=
  fold_left (fun v e => Plus v false (Later (e ++ [Txt nl]))) body (Later []).

(** The condition of `ifeq`, `ifneq`: the texts are equal up to surrounding blanks. *)
Definition holds (k : test) (m m' : str) : bool :=
  xorb (match k with Parens n | Quotes n _ _ => n end) (if list_eq_dec N.eq_dec (trim m) (trim m') then true else false).

Definition safe_deps (d : str) : Prop := forall c, In c d -> ~ In c [0; 58; 59; 92]%N.
(** Every target but the last must stand for something. *)
Fixpoint some_targets (ms : list str) : Prop :=
  match ms with [] | [_] => True | m :: ms => m <> [] /\ some_targets ms end.
(** A rule whose dependencies are the words of [d], for which [deps] stands. *)
Definition rule_with (E : wenv) (deps : wexpr) (d : str) (recipe : list wexpr) (double : bool) : wrule :=
  WRule (words d) (List.map (fun _ => uses E deps) (words d)) recipe double.
Definition open_rule (s : wstate) (ts : list str) (r : wrule) : wstate :=
  WState (w_env s) (Some (ts, r)) (w_rules s) (w_deaf s).
Definition heard (s : wstate) (taken : bool) : wstate := WState (w_env s) (w_open s) (w_rules s) (negb taken).
(** The state at the beginning of an included file, and the one after it: the last rule
    of an included file is lost. *)
Definition begun (s : wstate) : wstate := WState (w_env s) None (w_rules s) false.

(** No conditional directive. *)
Definition no_directive (s : str) : Prop := forall k r, In k conditional_words -> List.map ascii_lower (unindented s) <> lit k ++ r.
(** A line, and not several, that is no conditional directive, and does not begin with a tab. *)
Definition silent (e : wexpr) : Prop := command_line e /\ no_directive (show e) /\ forall r, show e <> c_tab :: r.
(** A command whose first line is no conditional directive; if there are more lines, it begins with
    something else than a blank or a backslash. *)
Inductive quiet : wexpr -> Prop :=
| QU_line : forall e, command_line e -> no_directive (show e) -> quiet e
| QU_more : forall e e' c r, command_line e -> no_directive (show e) -> show e = c :: r -> ~ In c [9; 32; 92]%N -> recipe_expr e' -> show e' <> [] ->
    quiet (e ++ Txt [c_bslash; c_nl] :: e').

(** Statements that are ignored.  The recipe of an ignored rule (but not a command after a
    semicolon) is added to the rule before it, if that is not recorded yet; otherwise its lines, like those of a definition, are
    ignored one by one. *)
Inductive ignores (s : wstate) : stmt -> wstate -> Prop :=
| I_assign : forall x o e, ignores s (SAssign x o e) s
| I_assign_to : forall x o e, ignores s (SAssignTo x o e) s
| I_long : forall x o down e es, ignores s (SLong x o down e es) s
| I_define : forall x body, Forall silent body -> ignores s (SDefine x body) s
| I_recipe : forall ts d deps recipe ts' r, w_open s = Some (ts', r) ->
    ignores s (SRule ts d deps recipe) (open_rule s ts' (WRule (wr_deps r) (wr_uses r) (wr_recipe r ++ recipe) (wr_double r)))
| I_rule : forall ts d deps recipe, w_open s = None -> Forall quiet recipe -> ignores s (SRule ts d deps recipe) s
| I_recipe_for : forall ts d deps cmd recipe ts' r, w_open s = Some (ts', r) ->
    ignores s (SRuleFor ts d deps cmd recipe) (open_rule s ts' (WRule (wr_deps r) (wr_uses r) (wr_recipe r ++ recipe) (wr_double r)))
| I_rule_for : forall ts d deps cmd recipe, w_open s = None -> Forall quiet recipe -> ignores s (SRuleFor ts d deps cmd recipe) s
| I_words : forall ws, ignores s (SWords ws) s
| I_include : forall soft e, ignores s (SInclude soft e) s
| I_eval : forall c, ignores s (SEval c) s.

(** What the code does with statements; [live] tells whether all enclosing branches are
    taken.  Lines are ignored from the beginning of a branch that is not taken up to the
    next `ifeq`, `ifneq` or `else`: an `endif` does not end it.  Conditions are evaluated
    even then. *)
Inductive acts (fs : str -> file) : bool -> wstate -> stmt -> wstate -> Prop :=
| A_blank : forall live s, acts fs live s SBlank s
| A_ignored : forall live s c s', w_deaf s = true -> ignores s c s' -> acts fs live s c s'
| A_assign : forall live s x o e v, w_deaf s = false -> gives (w_env s) x o e v ->
    acts fs live s (SAssign x o e) (assign_to (finish s) x v)
| A_assign_to : forall live s x o e n v, w_deaf s = false -> says (w_env s) x n -> gives (w_env s) (trim n) o e v ->
    acts fs live s (SAssignTo x o e) (assign_to (finish s) (trim n) v)
| A_long : forall live s x o down e es v, w_deaf s = false -> gives_lines (w_env s) x o e es v ->
    acts fs live s (SLong x o down e es) (assign_to (finish s) x v)
| A_define : forall live s x body, w_deaf s = false -> acts fs live s (SDefine x body) (assign_to (finish s) x (body_val body))
| A_rule : forall live s ts double deps recipe d, w_deaf s = false -> says (w_env s) deps d -> safe_deps d ->
    acts fs live s (SRule ts double deps recipe) (open_rule (finish s) ts (rule_with (w_env s) deps d recipe double))
| A_rule_for : forall live s ts double deps cmd recipe ms d, w_deaf s = false -> Forall2 (says (w_env s)) ts ms ->
    some_targets ms -> Forall safe_deps ms -> says (w_env s) deps d -> safe_deps d ->
    acts fs live s (SRuleFor ts double deps cmd recipe) (open_rule (finish s) (concat (List.map words ms)) (rule_with (w_env s) deps d (commands cmd ++ recipe) double))
| A_words : forall live s ws, w_deaf s = false -> acts fs live s (SWords ws) (finish s)
| A_include : forall live s soft e d s', w_deaf s = false -> says (w_env s) e d -> (forall c, In c d -> ~ In c [0; 92]%N) ->
    includes fs soft (finish s) (words d) s' -> acts fs live s (SInclude soft e) s'
  (* the last rule is recorded after the evaluation; a rule in the evaluated text is lost *)
| A_eval : forall live s c s', w_deaf s = false -> acts fs true (begun s) c s' ->
    acts fs live s (SEval c) (finish (WState (w_env s') (w_open s) (w_rules s') false))
| A_if : forall live s n a b m m' yes s', says (w_env s) a m -> says (w_env s) b m' ->
    acts_all fs (live && holds n m m') (heard s (live && holds n m m')) yes s' ->
    acts fs live s (SIf n a b yes None) s'
| A_else : forall live s n a b m m' yes no s1 s2, says (w_env s) a m -> says (w_env s) b m' ->
    acts_all fs (live && holds n m m') (heard s (live && holds n m m')) yes s1 ->
    acts_all fs (live && negb (holds n m m')) (heard s1 (live && negb (holds n m m'))) no s2 ->
    acts fs live s (SIf n a b yes (Some no)) s2
with acts_all (fs : str -> file) : bool -> wstate -> list stmt -> wstate -> Prop :=
| AA_nil : forall live s, acts_all fs live s [] s
| AA_cons : forall live s c s1 cs s2, acts fs live s c s1 -> acts_all fs live s1 cs s2 -> acts_all fs live s (c :: cs) s2
with includes (fs : str -> file) : bool -> wstate -> list str -> wstate -> Prop :=
| IN_none : forall soft s, includes fs soft s [] s
| IN_file : forall soft s n ns t ss s1 s2, fs n = FText t -> written ss t -> every well_formed ss ->
    acts_all fs true (begun s) ss s1 -> includes fs soft (begun s1) ns s2 -> includes fs soft s (n :: ns) s2
| IN_skip : forall s n k ns s2, fs n = FOpenError k -> includes fs true s ns s2 -> includes fs true s (n :: ns) s2.
Scheme acts_mut := Induction for acts Sort Prop with acts_all_mut := Induction for acts_all Sort Prop with includes_mut := Induction for includes Sort Prop.
Combined Scheme acts_both from acts_mut, acts_all_mut, includes_mut.

(** What a reader expects: the branch that is taken is performed and the other one has no
    effect.  This is what happens if the last branch is the one that is taken, and the other
    one contains no recipes.  (Its conditions must have a meaning all the same.) *)
Inductive skips (E : wenv) : stmt -> Prop :=
| K_blank : skips E SBlank
| K_assign : forall x o e, skips E (SAssign x o e)
| K_assign_to : forall x o e, skips E (SAssignTo x o e)
| K_long : forall x o down e es, skips E (SLong x o down e es)
| K_define : forall x body, Forall silent body -> skips E (SDefine x body)
| K_rule : forall ts double deps, skips E (SRule ts double deps [])
| K_rule_for : forall ts double deps cmd, skips E (SRuleFor ts double deps cmd [])
| K_words : forall ws, skips E (SWords ws)
| K_include : forall soft e, skips E (SInclude soft e)
| K_eval : forall c, skips E (SEval c)
| K_if : forall n a b m m' yes, says E a m -> says E b m' -> skips_all E yes -> skips E (SIf n a b yes None)
| K_else : forall n a b m m' yes no, says E a m -> says E b m' -> skips_all E yes -> skips_all E no ->
    skips E (SIf n a b yes (Some no))
with skips_all (E : wenv) : list stmt -> Prop :=
| KS_nil : skips_all E []
| KS_cons : forall s ss, skips E s -> skips_all E ss -> skips_all E (s :: ss).
Scheme skips_mut := Induction for skips Sort Prop with skips_all_mut := Induction for skips_all Sort Prop.
Combined Scheme skips_both from skips_mut, skips_all_mut.

Inductive does (fs : str -> file) : wstate -> stmt -> wstate -> Prop :=
| D_blank : forall s, does fs s SBlank s
| D_assign : forall s x o e v, gives (w_env s) x o e v -> does fs s (SAssign x o e) (assign_to (finish s) x v)
| D_assign_to : forall s x o e n v, says (w_env s) x n -> gives (w_env s) (trim n) o e v ->
    does fs s (SAssignTo x o e) (assign_to (finish s) (trim n) v)
| D_long : forall s x o down e es v, gives_lines (w_env s) x o e es v -> does fs s (SLong x o down e es) (assign_to (finish s) x v)
| D_define : forall s x body, does fs s (SDefine x body) (assign_to (finish s) x (body_val body))
| D_rule : forall s ts double deps recipe d, says (w_env s) deps d -> safe_deps d ->
    does fs s (SRule ts double deps recipe) (open_rule (finish s) ts (rule_with (w_env s) deps d recipe double))
| D_rule_for : forall s ts double deps cmd recipe ms d, Forall2 (says (w_env s)) ts ms -> some_targets ms -> Forall safe_deps ms ->
    says (w_env s) deps d -> safe_deps d ->
    does fs s (SRuleFor ts double deps cmd recipe) (open_rule (finish s) (concat (List.map words ms)) (rule_with (w_env s) deps d (commands cmd ++ recipe) double))
| D_words : forall s ws, does fs s (SWords ws) (finish s)
| D_include : forall s soft e d s', says (w_env s) e d -> (forall c, In c d -> ~ In c [0; 92]%N) ->
    brings fs soft (finish s) (words d) s' -> does fs s (SInclude soft e) s'
| D_eval : forall s x o e v, gives (w_env s) x o e v -> does fs s (SEval (SAssign x o e)) (assign_to (finish s) x v)
| D_then : forall s n a b m m' yes s', says (w_env s) a m -> says (w_env s) b m' ->
    holds n m m' = true -> does_all fs s yes s' -> does fs s (SIf n a b yes None) s'
| D_else : forall s n a b m m' yes no s', says (w_env s) a m -> says (w_env s) b m' ->
    holds n m m' = false -> skips_all (w_env s) yes -> does_all fs s no s' -> does fs s (SIf n a b yes (Some no)) s'
with does_all (fs : str -> file) : wstate -> list stmt -> wstate -> Prop :=
| DS_nil : forall s, does_all fs s [] s
| DS_cons : forall s c s1 cs s2, does fs s c s1 -> does_all fs s1 cs s2 -> does_all fs s (c :: cs) s2
with brings (fs : str -> file) : bool -> wstate -> list str -> wstate -> Prop :=
| BR_none : forall soft s, brings fs soft s [] s
| BR_file : forall soft s n ns t ss s1 s2, fs n = FText t -> written ss t -> every well_formed ss ->
    does_all fs (begun s) ss s1 -> brings fs soft (begun s1) ns s2 -> brings fs soft s (n :: ns) s2
| BR_skip : forall s n k ns s2, fs n = FOpenError k -> brings fs true s ns s2 -> brings fs true s (n :: ns) s2.
Scheme does_mut := Induction for does Sort Prop with does_all_mut := Induction for does_all Sort Prop with brings_mut := Induction for brings Sort Prop.
Combined Scheme does_both from does_mut, does_all_mut, brings_mut.

(** * Makefiles without surprises *)

(** No variable is defined by itself: what its value refers to has a lower [rank].  No colon,
    semicolon or backslash gets into the dependencies of rules: variables in dependencies are [clean], and
    clean variables get values without these characters, and with clean variables only.  Values
    assigned with `:=` are not empty.  Lines of definitions and recipes do not look like
    conditionals.  Includes give the names of files, and these are such makefiles, or do
    not exist and need not.  Variables with computed names get text without references, or are assigned
    with `:=`; computed targets but the last contain text. *)
Definition unreplaced (e : wexpr) : Prop := Forall (fun p => match p with Sub _ _ _ => False | _ => True end) e.
Definition below (rank : str -> nat) (n : nat) (e : wexpr) : Prop :=
  Forall (fun p => match p with Ref y | Sub y _ _ => rank y < n | _ => True end) e.
Definition pure (clean : str -> Prop) (e : wexpr) : Prop :=
  Forall (fun p => match p with Txt s => safe_deps s | Ref y | Sub y _ _ => clean y | Dol => True end) e.
Inductive calm (fs : str -> file) (rank : str -> nat) (clean : str -> Prop) : stmt -> Prop :=
| CA_blank : calm fs rank clean SBlank
| CA_now : forall x e, show e <> [] -> (clean x -> pure clean e) -> calm fs rank clean (SAssign x ONow e)
| CA_later : forall x o e, o <> ONow -> below rank (rank x) e -> (clean x -> pure clean e) -> calm fs rank clean (SAssign x o e)
| CA_long_now : forall x down e es, (clean x -> Forall (pure clean) (e :: es)) -> calm fs rank clean (SLong x ONow down e es)
| CA_long : forall x o down e es, o <> ONow -> Forall (below rank (rank x)) (e :: es) -> (clean x -> Forall (pure clean) (e :: es)) ->
    calm fs rank clean (SLong x o down e es)
| CA_define : forall x body, Forall silent body -> Forall (below rank (rank x)) body -> (clean x -> Forall (pure clean) body) ->
    calm fs rank clean (SDefine x body)
| CA_rule : forall ts double deps recipe, pure clean deps -> Forall quiet recipe -> calm fs rank clean (SRule ts double deps recipe)
| CA_assign_now : forall x e, show e <> [] -> pure clean e -> calm fs rank clean (SAssignTo x ONow e)
| CA_assign_to : forall x o e, o <> ONow -> below rank 0 e -> pure clean e -> calm fs rank clean (SAssignTo x o e)
| CA_rule_for : forall ts double deps cmd recipe, Forall (pure clean) (deps :: ts) -> Forall (fun t => exists s, In (Txt s) t /\ s <> []) (removelast ts) ->
    Forall quiet recipe -> calm fs rank clean (SRuleFor ts double deps cmd recipe)
| CA_words : forall ws, calm fs rank clean (SWords ws)
| CA_include : forall soft names, calm_files fs rank clean soft (words names) -> calm fs rank clean (SInclude soft [Txt names])
| CA_eval : forall c, calm fs rank clean c -> calm fs rank clean (SEval c)
| CA_if : forall n a b yes, calm_all fs rank clean yes -> calm fs rank clean (SIf n a b yes None)
| CA_else : forall n a b yes no, calm_all fs rank clean yes -> calm_all fs rank clean no -> calm fs rank clean (SIf n a b yes (Some no))
with calm_all (fs : str -> file) (rank : str -> nat) (clean : str -> Prop) : list stmt -> Prop :=
| CS_nil : calm_all fs rank clean []
| CS_cons : forall c cs, calm fs rank clean c -> calm_all fs rank clean cs -> calm_all fs rank clean (c :: cs)
with calm_files (fs : str -> file) (rank : str -> nat) (clean : str -> Prop) : bool -> list str -> Prop :=
| CF_nil : forall soft, calm_files fs rank clean soft []
| CF_file : forall soft n ns t ss, fs n = FText t -> written ss t -> every well_formed ss -> calm_all fs rank clean ss ->
    calm_files fs rank clean soft ns -> calm_files fs rank clean soft (n :: ns)
| CF_skip : forall n k ns, fs n = FOpenError k -> calm_files fs rank clean true ns -> calm_files fs rank clean true (n :: ns).
Scheme calm_mut := Induction for calm Sort Prop with calm_all_mut := Induction for calm_all Sort Prop with calm_files_mut := Induction for calm_files Sort Prop.
Combined Scheme calm_both from calm_mut, calm_all_mut, calm_files_mut.

(** * What the engine shows after reading *)

(** The expression expands to the text. *)
Definition expands_to (fs : str -> file) (w : world) (a : ast) (s : str) : Prop :=
  exists enough, forall fuel, enough <= fuel -> exists w' b, eval_fuel fs fuel w a = Ok (w', b) /\ block_into_string b = Ok s.
Definition shows_wrule (fs : str -> file) (E : wenv) (w : world) (r : option wrule) (rv : option rule_view) : Prop :=
  match r, rv with
  | None, None => True
  | Some r, Some rv =>
      List.map block_text (rv_deps rv) = wr_deps r /\
      Forall2 (fun e a => forall m, says E e m -> expands_to fs w a m) (wr_recipe r) (rv_recipe rv) /\
      rv_type rv = (if wr_double r then RtDoubleColon else RtStandard)
  | _, _ => False
  end.
Definition shows_state (fs : str -> file) (s : wstate) (w : world) : Prop :=
  (forall x, w_env s x = None <-> undefined w x) /\
  (forall x v m, w_env s x = Some v -> val_says (w_env s) v m -> has_value fs w x m) /\
  (forall t, shows_wrule fs (w_env s) w (w_rules s t) (option_map view (rule_of (w_names w) (w_db w) t))).

(** The variables that are named by the sensitivities: of the dependencies of rules, of the
    expanded values of variables, of the expanded lines of recipes. *)
Definition names_used (fs : str -> file) (w : world) (a : ast) (P : str -> Prop) : Prop :=
  exists enough, forall fuel, enough <= fuel -> exists w' b, eval_fuel fs fuel w a = Ok (w', b) /\ depends_on w' P b.
Definition tracks_state (fs : str -> file) (s : wstate) (w : world) : Prop :=
  (forall t r, w_rules s t = Some r -> exists rv, option_map view (rule_of (w_names w) (w_db w) t) = Some rv /\
     List.map block_text (rv_deps rv) = wr_deps r /\ Forall2 (depends_on w) (wr_uses r) (rv_deps rv) /\
     Forall2 (fun e a => forall m, says (w_env s) e m -> names_used fs w a (uses (w_env s) e)) (wr_recipe r) (rv_recipe rv)) /\
  (forall x v m, w_env s x = Some v -> val_says (w_env s) v m ->
     exists a, world_env w x = Some a /\ names_used fs w a (val_uses (w_env s) v)).
