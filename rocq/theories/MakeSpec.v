(** Specification of makefiles as text: what the lines of a makefile do, line
    after line.  Everything is said of texts whose characters carry their source
    location ([placed]); there are no spans, blocks, expression trees or fuel.

    The language described is the one the code implements; where it differs from GNU
    make a comment in parentheses says so.  Lines on which the code panics are not
    described: a makefile with such a line does not [runs]. *)
From Coq Require Import String.
From Verif Require Import Base LocModel EvdModel AstModel EngineModel EvdSpec DbSpec ParseModel ParseSpec EvalSpec AstParseSpec EngineSpec.
Local Open Scope nat_scope.

Notation text := (list placed).

(** * Values of variables *)

(** A text that is expanded when it is used (with the kind of the assignment), a text
    that was expanded when it was assigned (with the pieces it expanded to and the variables that
    were looked up for it), or a value with another appended to it (after a space, or not). *)
Inductive value :=
| Deferred (k : flavor) (t : text)
| Fixed (t : text) (ps : list text) (P : str -> Prop)
| Appended (v : value) (space : bool) (v' : value).

(** The kind of variable that is recorded: appending does not change it. *)
Fixpoint kind_of (v : value) : flavor :=
  match v with Deferred k _ => k | Fixed _ _ _ => FlSimple | Appended v _ _ => kind_of v end.

Definition defs := str -> option value.
Definition no_defs : defs := fun _ => None.
Definition set {A} (D : str -> option A) (x : str) (v : A) : str -> option A :=
  fun y => if list_eq_dec N.eq_dec x y then Some v else D y.

(** The text was written in the pieces [qs], each in one go (where characters that were not written
    by anyone follow each other, the second is a blank). *)
Definition written_in (t : text) (qs : list text) : Prop :=
  t = concat qs /\ Forall (fun q => q <> [] /\ unbroken q) qs /\ parted (fun q => q) qs /\
  forall p x y q, t = p ++ x :: y :: q -> snd x = Synthetic -> snd y = Synthetic -> blank (fst y) = true.

(** One reference: `$` at the end, `$$`, `$c`, or `$` and a group. *)
Inductive reference_before : text -> text -> Prop :=
| RB_last : forall x, fst x = dollar -> reference_before [x] []
| RB_char : forall x y rest, fst x = dollar -> ~ In (fst y) [open_paren; close_brace] -> reference_before [x; y] rest
| RB_group : forall x b t rest inner, fst x = dollar -> fst b = open_paren -> group open_paren close_paren t inner [] ->
    reference_before (x :: b :: t) rest.

(** [stands_for D t m]: with the definitions [D] the text [t] expands to [m];
    [variable_is D x m]: the variable [x] expands to [m], undefined ones to nothing;
    [value_is D v m]: the value [v] does.  `$(name:key=replacement)`, written in one go,
    is the value of the variable with [key] replaced at the ends of the words; where a word goes on from
    one piece of the value to the next, the code replaces something else: [cut_substituted].
    (GNU make: pieces do not matter.)

    [text_in D t ps]: [ps] are the pieces of what [t] expands to; [value_in D v ps]: of what the
    value [v] does.  Text written in one go is one piece, and so is whatever a reference stands for. *)
Inductive stands_for (D : defs) : text -> text -> Prop :=
| SF_nil : stands_for D [] []
| SF_plain : forall c t m, fst c <> dollar -> stands_for D t m -> stands_for D (c :: t) (c :: m)
| SF_last : forall x, fst x = dollar -> stands_for D [x] [x]
| SF_dollar : forall x y t m, fst x = dollar -> fst y = dollar -> stands_for D t m ->
    stands_for D (x :: y :: t) (y :: m)
| SF_char : forall x c t m1 m2, fst x = dollar -> ~ In (fst c) [dollar; open_paren; close_brace] ->
    variable_is D [fst c] m1 -> stands_for D t m2 -> stands_for D (x :: c :: t) (m1 ++ m2)
| SF_var : forall x b t inner rest nm m1 m2, fst x = dollar -> fst b = open_paren ->
    group open_paren close_paren t inner rest ->
    (forall k, In k function_names -> ~ begins_with k inner) ->
    stands_for D inner nm -> plain nm -> variable_is D (chars nm) m1 -> stands_for D rest m2 ->
    stands_for D (x :: b :: t) (m1 ++ m2)
| SF_subst_none : forall x b t inner rest n k r m, fst x = dollar -> fst b = open_paren ->
    group open_paren close_paren t inner rest ->
    (forall k, In k function_names -> ~ begins_with k inner) ->
    ~ has fst dollar inner -> unbroken inner -> is_subst inner n k r ->
    D (chars n) = None -> stands_for D rest m ->
    stands_for D (x :: b :: t) m
| SF_subst : forall x b t inner rest n k r v ps m1 m2, fst x = dollar -> fst b = open_paren ->
    group open_paren close_paren t inner rest ->
    (forall k, In k function_names -> ~ begins_with k inner) ->
    ~ has fst dollar inner -> unbroken inner -> is_subst inner n k r ->
    D (chars n) = Some v -> value_in D v ps ->
    cut_substituted fst (made c_space) k r ps m1 -> stands_for D rest m2 ->
    stands_for D (x :: b :: t) (m1 ++ m2)
with variable_is (D : defs) : str -> text -> Prop :=
| VI_none : forall x, D x = None -> variable_is D x []
| VI_some : forall x v m, D x = Some v -> value_is D v m -> variable_is D x m
with value_is (D : defs) : value -> text -> Prop :=
| VA_deferred : forall k t m, stands_for D t m -> value_is D (Deferred k t) m
| VA_fixed : forall t ps P, value_is D (Fixed t ps P) (concat ps)
| VA_appended : forall v sp v' m m', value_is D v m -> value_is D v' m' ->
    value_is D (Appended v sp v') (m ++ (if sp : bool then [made c_space] else []) ++ m')
with text_in (D : defs) : text -> list text -> Prop :=
| TI_nil : text_in D [] []
| TI_text : forall t rest qs ps, t <> [] -> ~ has fst dollar t -> begins_dollar rest -> written_in t qs ->
    text_in D rest ps -> text_in D (t ++ rest) (qs ++ ps)
| TI_ref : forall t rest m ps, reference_before t rest -> stands_for D t m -> text_in D rest ps ->
    text_in D (t ++ rest) (m :: ps)
with value_in (D : defs) : value -> list text -> Prop :=
| VN_deferred : forall k t ps, text_in D t ps -> value_in D (Deferred k t) ps
| VN_fixed : forall t ps P, value_in D (Fixed t ps P) ps
| VN_appended : forall v sp v' ps ps', value_in D v ps -> value_in D v' ps' ->
    value_in D (Appended v sp v') (ps ++ (if sp : bool then [[made c_space]] else []) ++ ps').
Scheme stands_mut := Induction for stands_for Sort Prop
  with variable_mut := Induction for variable_is Sort Prop
  with value_mut := Induction for value_is Sort Prop
  with text_in_mut := Induction for text_in Sort Prop
  with value_in_mut := Induction for value_in Sort Prop.
Combined Scheme stands_all from stands_mut, variable_mut, value_mut, text_in_mut, value_in_mut.

(** [refers D t x]: the text [t] has a reference to the variable [x], possibly inside the
    name of another. *)
Inductive refers (D : defs) : text -> str -> Prop :=
| RF_plain : forall c t x, fst c <> dollar -> refers D t x -> refers D (c :: t) x
| RF_dollar : forall d d' t x, fst d = dollar -> fst d' = dollar -> refers D t x -> refers D (d :: d' :: t) x
| RF_char : forall d c t, fst d = dollar -> ~ In (fst c) [dollar; open_paren; close_brace] -> refers D (d :: c :: t) [fst c]
| RF_char_rest : forall d c t x, fst d = dollar -> ~ In (fst c) [dollar; open_paren; close_brace] -> refers D t x -> refers D (d :: c :: t) x
| RF_var : forall d b t inner rest nm, fst d = dollar -> fst b = open_paren -> group open_paren close_paren t inner rest ->
    stands_for D inner nm -> plain nm -> refers D (d :: b :: t) (chars nm)
| RF_name : forall d b t inner rest x, fst d = dollar -> fst b = open_paren -> group open_paren close_paren t inner rest ->
    refers D inner x -> refers D (d :: b :: t) x
| RF_subst : forall d b t inner rest n k r, fst d = dollar -> fst b = open_paren -> group open_paren close_paren t inner rest ->
    ~ has fst dollar inner -> is_subst inner n k r -> refers D (d :: b :: t) (chars n)
| RF_rest : forall d b t inner rest x, fst d = dollar -> fst b = open_paren -> group open_paren close_paren t inner rest ->
    refers D rest x -> refers D (d :: b :: t) x.

(** [looks_up D t x]: the variable [x] is looked up when the text [t] is expanded; [value_looks
    D v x]: when a variable with the value [v] is.  Nothing is looked up for text that was
    expanded when it was assigned. *)
Inductive looks_up (D : defs) : text -> str -> Prop :=
| LU_here : forall t x, refers D t x -> looks_up D t x
| LU_value : forall t y v x, refers D t y -> D y = Some v -> value_looks D v x -> looks_up D t x
with value_looks (D : defs) : value -> str -> Prop :=
| VL_deferred : forall k t x, looks_up D t x -> value_looks D (Deferred k t) x
| VL_left : forall v sp v' x, value_looks D v x -> value_looks D (Appended v sp v') x
| VL_right : forall v sp v' x, value_looks D v' x -> value_looks D (Appended v sp v') x.

(** * Rules *)

(** With each dependency, the variables that were looked up for it. *)
Record trule := TRule { tr_targets : list text; tr_deps : list text; tr_reads : list (str -> Prop); tr_recipe : list text; tr_double : bool }.

(** What is recorded for a target. *)
Record tview := TView { tv_deps : list text; tv_reads : list (str -> Prop); tv_recipe : list text; tv_double : bool }.

(** * States *)
Record mstate := MState {
  m_defs : defs;
  (* enclosing conditionals, innermost first: branch taken? `else` seen? *)
  m_conds : list (bool * bool);
  m_ignoring : bool;
  (* the rule to which recipe lines are added *)
  m_rule : option trule;
  m_rules : str -> option tview;
  (* the variable a `define` is for, and the depth of defines *)
  m_define : option (str * nat);
  (* the names of files, targets and dependencies met so far *)
  m_files : list str
}.
Definition m_start : mstate := MState no_defs [] false None (fun _ => None) None [].

(** Names are met once. *)
Definition meet (l : list str) (n : str) : list str := fst (get_or_intern n l).
Definition meet_all (l : list str) (ns : list str) : list str := fold_left meet ns l.

(** A rule is mentioned for a target: without recipe the dependencies are added to
    those there are, otherwise it replaces what there is. *)
Definition mentioned (r : trule) (old : option tview) : tview :=
  match tr_recipe r, old with
  | [], Some v => TView (tv_deps v ++ tr_deps r) (tv_reads v ++ tr_reads r) (tv_recipe v) (tv_double v)
  | _, _ => TView (tr_deps r) (tr_reads r) (tr_recipe r) (tr_double r)
  end.
Definition record_rule (r : trule) (R : str -> option tview) : str -> option tview :=
  fold_left (fun R t => set R (chars t) (mentioned r (R (chars t)))) (tr_targets r) R.

(** The rule under construction, if any, is complete. *)
Definition closed (s : mstate) : mstate :=
  match m_rule s with
  | None => s
  | Some r =>
      MState (m_defs s) (m_conds s) (m_ignoring s) None (record_rule r (m_rules s)) (m_define s)
        (meet_all (m_files s) (List.map chars (tr_deps r) ++ List.map chars (tr_targets r)))
  end.

Definition with_defs (s : mstate) (D : defs) : mstate :=
  MState D (m_conds s) (m_ignoring s) (m_rule s) (m_rules s) (m_define s) (m_files s).
Definition with_conds (s : mstate) (c : list (bool * bool)) (i : bool) : mstate :=
  MState (m_defs s) c i (m_rule s) (m_rules s) (m_define s) (m_files s).

(** * Lines *)

(** The text of a logical line: continued lines are joined by single spaces, and
    leading blanks are dropped.  (If a `#` follows anywhere, the line is everything
    before it, newlines included.) *)
Inductive line_text : text -> text -> text -> Prop :=
| LT_line : forall t ls last rest, ~ has fst c_hash t -> logical_line fst t ls last rest ->
    line_text t (join (made c_space) (pieces fst GNU true ls last)) rest
| LT_hash : forall p h u, ~ has fst c_hash p -> fst h = c_hash ->
    line_text (p ++ h :: u)
      (let l := lstrip fst p in if continued fst l then clean fst GNU l ++ [made c_space] else l) (h :: u).

(** A comment: it ends with the logical line that contains the last `#` of the
    file. *)
Definition comment_text (t rest : text) : Prop :=
  exists h u v ls last, lstrip fst t = h :: u ++ v /\ fst h = c_hash /\
    match rev u with [] => True | c :: _ => fst c = c_hash end /\ ~ has fst c_hash v /\ logical_line fst v ls last rest.
Definition is_comment_text (t : text) : Prop := exists h u, lstrip fst t = h :: u /\ fst h = c_hash.

(** The line is the word [k], in upper or lower case, and [rest]. *)
Definition keyword (k : string) (l rest : text) : Prop :=
  exists w, l = w ++ rest /\ List.map ascii_lower (chars w) = lit k.

Definition conditional_words : list string := ["ifdef"; "ifndef"; "ifeq"; "ifneq"; "else"; "endif"]%string.
Definition modifier_words : list string := ["define"; "export"; "override"; "private"; "undefine"]%string.
Definition directive_words : list string :=
  ["export"; "unexport"; "vpath"; "include"; "sinclude"; "-include"; "load"; "-load"]%string.
Definition begins_none (ks : list string) (t : text) : Prop := forall k rest, In k ks -> ~ keyword k t rest.

(** The line does not begin with a blank. *)
Definition solid (l : text) : Prop := exists c u, l = c :: u /\ blank (fst c) = false.

(** * Assignments *)

Definition operators : list (str * assignment) :=
  [(lit "=", AsRecursive); (lit ":=", AsSimple); (lit "::=", AsSimple);
   (lit "?=", AsConditional); (lit "!=", AsBang); (lit "+=", AsAppend)].

(** The line is a name, optional blanks, an operator, and the value after optional
    blanks. *)
Definition assigns (l name : text) (k : assignment) (v : text) : Prop :=
  exists bl op post, l = name ++ bl ++ op ++ post /\
    (forall a, In a name -> ~ name_end (fst a)) /\ all_blank fst bl /\
    In (chars op, k) operators /\ v = lstrip fst post.

(** The kinds of variables the operators make. *)
Definition kinds : list (assignment * flavor) :=
  [(AsRecursive, FlRecursive); (AsSimple, FlSimple); (AsConditional, FlConditional); (AsBang, FlShell); (AsAppend, FlRecursive)].

(** The text is a well-formed expression. *)
Definition expression (t : text) : Prop := exists a, reads_ast False t a.

(** What the assignment does to the variable [x].  (`?=` assigns even if the
    variable is defined; `!=` keeps the command; `:=` without a value is an error.) *)
Inductive assigned (D : defs) (x : str) : assignment -> text -> value -> Prop :=
| AS_later : forall k f v, In k [AsRecursive; AsConditional; AsBang] -> In (k, f) kinds -> expression v -> assigned D x k v (Deferred f v)
| AS_now : forall v ps, v <> [] -> text_in D v ps -> assigned D x AsSimple v (Fixed v ps (looks_up D v))
| AS_new : forall v, D x = None -> expression v -> assigned D x AsAppend v (Deferred FlRecursive v)
| AS_more : forall v old, D x = Some old -> expression v -> assigned D x AsAppend v (Appended old true (Deferred FlRecursive v)).

(** * Conditionals *)

(** The first argument of `(a,b)`: up to the first comma at which all parentheses have
    been closed. *)
Definition before_comma (t a rest : text) : Prop :=
  exists x, t = a ++ x :: rest /\ fst x = comma /\ count open_paren a <= count close_paren a /\
    (forall p y q, a = p ++ y :: q -> fst y = comma -> count close_paren p < count open_paren p).

(** `(a,b)`, `"a" "b"`, `'a' 'b'`; what follows is not looked at. *)
Inductive two_arguments : text -> text -> text -> Prop :=
| TA_parens : forall o t a u b v, fst o = open_paren -> before_comma t a u ->
    group open_paren close_paren (lstrip fst u) b v -> two_arguments (o :: t) a b
| TA_quotes : forall o a q u o' b q' v, In (fst o) [34; 39]%N -> ~ has fst (fst o) a -> fst q = fst o ->
    In (fst o') [34; 39]%N -> ~ has fst (fst o') b -> fst q' = fst o' ->
    lstrip fst u = o' :: b ++ q' :: v -> two_arguments (o :: a ++ q :: u) a b.

(** The first of them. *)
Inductive first_argument : text -> text -> Prop :=
| FI_parens : forall o t a u, fst o = open_paren -> before_comma t a u -> first_argument (o :: t) a
| FI_quotes : forall o a q u, In (fst o) [34; 39]%N -> ~ has fst (fst o) a -> fst q = fst o -> first_argument (o :: a ++ q :: u) a.

(** The line is not a conditional directive: it does not begin with the word for one, or
    with `ifeq` or `ifneq` but not two arguments after it.  (GNU make: an error.) *)
Definition unconditional (l : text) : Prop :=
  begins_none ["ifdef"; "ifndef"; "else"; "endif"]%string l /\
  forall k rest, In k ["ifeq"; "ifneq"]%string -> keyword k l rest ->
    (forall a b, ~ two_arguments (lstrip fst rest) a b) /\ (forall a, first_argument (lstrip fst rest) a -> expression a).

(** A conditional directive, and what it says. *)
Inductive conditional_line (D : defs) : text -> cond_event -> Prop :=
| CL_ifeq : forall l rest a b m n, keyword "ifeq" l rest -> two_arguments (lstrip fst rest) a b ->
    stands_for D a m -> stands_for D b n ->
    conditional_line D l (EvIf (if list_eq_dec N.eq_dec (trim (chars m)) (trim (chars n)) then true else false))
| CL_ifneq : forall l rest a b m n, keyword "ifneq" l rest -> two_arguments (lstrip fst rest) a b ->
    stands_for D a m -> stands_for D b n ->
    conditional_line D l (EvIf (if list_eq_dec N.eq_dec (trim (chars m)) (trim (chars n)) then false else true))
| CL_else : forall l rest, keyword "else" l rest -> all_blank fst rest -> conditional_line D l EvElse
| CL_endif : forall l rest, keyword "endif" l rest -> all_blank fst rest -> conditional_line D l EvEndif.

(** Whether lines are ignored after the directive.  (At an `endif` nothing
    changes.) *)
Definition ignoring_after (ig : bool) (e : cond_event) (st : list (bool * bool)) : bool :=
  match e with EvEndif => ig | _ => not_taken st end.

(** * Rules *)

(** The characters that end a word of a target list, or begin something else in it. *)
Notation semicolon := 59%N.
Notation colon := 58%N.
Notation equals := 61%N.

(** A line that is not continued.  (If a `#` follows anywhere, "the line" is
    everything before it.) *)
Inductive plain_line : text -> text -> text -> Prop :=
| PL_line : forall t last rest, ~ has fst c_hash t -> logical_line fst t [] last rest ->
    plain_line t (lstrip fst last) rest
| PL_hash : forall p h u, ~ has fst c_hash p -> fst h = c_hash -> continued fst (lstrip fst p) = false ->
    plain_line (p ++ h :: u) (lstrip fst p) (h :: u).

(** The text contains none of the characters. *)
Definition free (cs : list char) (t : text) : Prop := forall a, In a t -> ~ In (fst a) cs.

(** A word: ordinary characters, `$x` and `$(x)`. *)
Inductive word_text : text -> Prop :=
| WT_nil : word_text []
| WT_char : forall c t, ~ In (fst c) [c_space; c_tab; equals; colon; dollar] -> word_text t -> word_text (c :: t)
| WT_char_ref : forall x c t, fst x = dollar -> ~ In (fst c) [open_paren; open_brace] -> word_text t -> word_text (x :: c :: t)
| WT_ref : forall x b t inner rest, fst x = dollar -> fst b = open_paren -> group open_paren close_paren t inner rest ->
    word_text rest -> word_text (x :: b :: t).

(** [targets_before D t ms after]: [t] is words, a colon, and [after]; the words expand
    to [ms].  (A word before the last that expands to nothing is another matter: then
    the line is ignored.) *)
Definition name_text (m : text) : Prop := free [colon; semicolon; c_bslash] m.
Inductive targets_before (D : defs) : text -> list text -> text -> Prop :=
| TB_last : forall w c m after, word_text w -> stands_for D w m -> name_text m -> fst c = colon ->
    targets_before D (w ++ c :: after) [m] after
| TB_word : forall w b t m ms after, word_text w -> w <> [] -> stands_for D w m -> name_text m -> m <> [] -> blank (fst b) = true ->
    targets_before D (lstrip fst t) ms after -> targets_before D (w ++ b :: t) (m :: ms) after.

(** The names in a text, separated by white space (or by the character 0). *)
Definition names_in (m : text) : list text := split_at fst (fun c => is_whitespace c || (c =? 0)%N || false) [] m.

Definition begins_char (c : char) (t : text) : Prop := exists a u, t = a :: u /\ fst a = c.
Definition no_assignment (t : text) : Prop := forall name k v, ~ assigns t name k v.

(** `targets : dependencies ; command` and `targets :: dependencies ; command`; [deps]
    and [cmd] are the parts of the line after the colons. *)
Definition after_colons (t : text) (double : bool) (rest : text) : Prop :=
  if double then exists c, t = c :: rest /\ fst c = colon else t = rest /\ ~ begins_char colon t.
Definition with_command (t : text) (before : text) (cmd : list text) : Prop :=
  match cmd with
  | [] => t = before
  | [k] => exists c, t = before ++ c :: k /\ fst c = semicolon
  | _ => False
  end.
Definition rule_line (D : defs) (l : text) (r : trule) : Prop :=
  exists head ms after rest deps m,
    with_command l head (tr_recipe r) /\ Forall expression (tr_recipe r) /\ free [semicolon; c_bslash] head /\
    ~ begins_char colon l /\ targets_before D head ms after /\ after_colons after (tr_double r) deps /\ ~ begins_char equals deps /\
    with_command rest deps (tr_recipe r) /\ no_assignment (lstrip fst rest) /\ begins_none modifier_words (lstrip fst rest) /\
    stands_for D deps m /\ name_text m /\
    tr_targets r = concat (List.map names_in ms) /\ tr_deps r = names_in m /\
    tr_reads r = List.map (fun _ => looks_up D deps) (names_in m).

Definition with_rule (s : mstate) (r : option trule) : mstate :=
  MState (m_defs s) (m_conds s) (m_ignoring s) r (m_rules s) (m_define s) (m_files s).

(** * Recipes *)

(** [recipe_text t body rest]: [t], which follows the tab, begins with a recipe line.  A
    backslash at the end of a line is kept, and so is the newline after it; the tab of the
    next line is not.  (If a `#` follows anywhere, the recipe line is everything before it.) *)
Inductive recipe_text : text -> text -> text -> Prop :=
| RT_hash : forall p h u, ~ has fst c_hash p -> fst h = c_hash -> recipe_text (p ++ h :: u) p (h :: u)
| RT_last : forall l, ~ has fst c_hash l -> ~ has fst c_nl l -> continued fst l = false -> recipe_text l l []
| RT_line : forall l n rest, ~ has fst c_hash (l ++ n :: rest) -> ~ has fst c_nl l -> fst n = c_nl -> continued fst l = false ->
    recipe_text (l ++ n :: rest) l rest
| RT_cut : forall l, ~ has fst c_hash l -> ~ has fst c_nl l -> continued fst l = true -> recipe_text l (l ++ [made c_nl]) []
| RT_left : forall l n rest, ~ has fst c_hash (l ++ n :: rest) -> ~ has fst c_nl l -> fst n = c_nl -> continued fst l = true ->
    ~ begins_char c_tab rest -> recipe_text (l ++ n :: rest) (l ++ [made c_nl]) rest
| RT_more : forall l n c u more rest, ~ has fst c_hash (l ++ n :: c :: u) -> ~ has fst c_nl l -> fst n = c_nl -> continued fst l = true ->
    fst c = c_tab -> recipe_text u more rest -> more <> [] -> recipe_text (l ++ n :: c :: u) (l ++ made c_nl :: more) rest.

Definition with_line (r : trule) (body : text) : trule := TRule (tr_targets r) (tr_deps r) (tr_reads r) (tr_recipe r ++ [body]) (tr_double r).

(** * Lines without effect *)

(** Words, none of which ends in a colon or contains one when expanded; a word that
    expands to nothing hides what follows it. *)
Inductive idle_words (D : defs) : text -> Prop :=
| IW_end : idle_words D []
| IW_void : forall w t, word_text w -> w <> [] -> stands_for D w [] ->
    match t with [] => True | b :: _ => blank (fst b) = true end -> idle_words D (w ++ t)
| IW_word : forall w t m, word_text w -> w <> [] -> stands_for D w m -> name_text m -> m <> [] ->
    match t with [] => True | b :: _ => blank (fst b) = true end -> idle_words D (lstrip fst t) -> idle_words D (w ++ t).

(** Only such words before the first semicolon, or a colon at the start.  (GNU make:
    "missing separator".) *)
Definition idle_line (D : defs) (l : text) : Prop :=
  exists head cmd, with_command l head cmd /\ free [semicolon; c_bslash] head /\
    (begins_char colon head \/ idle_words D head).

(** * Definitions of several lines *)

(** After the word `define`: a name with an assignment operator and nothing else, or a
    name, which is not expanded. *)
Inductive define_header (D : defs) (h : text) : str -> value -> Prop :=
| DH_set : forall name k f nm, assigns h name k [] -> stands_for D name nm -> In (k, f) kinds ->
    k <> AsAppend \/ D (trim (chars nm)) = None -> define_header D h (trim (chars nm)) (Deferred f [])
| DH_more : forall name nm old, assigns h name AsAppend [] -> stands_for D name nm ->
    D (trim (chars nm)) = Some old -> define_header D h (trim (chars nm)) (Appended old true (Deferred FlRecursive []))
| DH_name : (forall name k, ~ assigns h name k []) -> define_header D h (trim (chars h)) (Deferred FlRecursive []).

(** A line of the body, with its newline.  (If a `#` follows anywhere, the line is
    everything before it.) *)
Inductive body_line : text -> text -> text -> Prop :=
| BL_hash : forall p h u, p <> [] -> ~ has fst c_hash p -> fst h = c_hash -> body_line (p ++ h :: u) p (h :: u)
| BL_line : forall l n rest, ~ has fst c_hash (l ++ n :: rest) -> ~ has fst c_nl l -> fst n = c_nl -> body_line (l ++ n :: rest) (l ++ [n]) rest
| BL_last : forall l, l <> [] -> ~ has fst c_hash l -> ~ has fst c_nl l -> body_line l l [].

(** The depth of defines after a line of the body.  (The words need not end after
    `define`; after `endef` only white space may follow.) *)
Inductive deeper : nat -> text -> nat -> Prop :=
| DE_define : forall n l u, chars (lstrip fst l) = lit "define" ++ u -> deeper n l (S n)
| DE_endef : forall n l u, chars (lstrip fst l) = lit "endef" ++ u -> (forall c, In c u -> is_whitespace c = true) -> deeper (S n) l n
| DE_other : forall n l, (forall u, chars (lstrip fst l) <> lit "define" ++ u) -> (forall u, chars (lstrip fst l) <> lit "endef" ++ u) -> deeper n l n.

Definition with_define (s : mstate) (d : option (str * nat)) : mstate :=
  MState (m_defs s) (m_conds s) (m_ignoring s) (m_rule s) (m_rules s) d (m_files s).

(** * Includes *)
Definition include_words : list (string * bool) := [("include", false); ("sinclude", true); ("-include", true)]%string.

(** `include names`, `sinclude names`, `-include names`: the names after expansion. *)
Definition include_line (D : defs) (l : text) (soft : bool) (names : list str) : Prop :=
  exists k rest m, In (k, soft) include_words /\ keyword k l rest /\ stands_for D rest m /\ ~ has fst c_bslash m /\
    names = List.map chars (names_in m).

(** * Evaluated text *)

(** The text expands to text in one piece: it was written in one go and has no
    references, or it is a single reference to a variable whose value is such a text (a
    definition of one line counts).  Only such texts are described below: of others the
    code may be unable to tell the location of a part, and then it panics. *)
Inductive entire (D : defs) : text -> Prop :=
| EN_text : forall t, ~ has fst dollar t -> unbroken t -> entire D t
| EN_char : forall x c, fst x = dollar -> ~ In (fst c) [dollar; open_paren; close_brace] ->
    (forall v, D [fst c] = Some v -> entire_value D v) -> entire D [x; c]
| EN_ref : forall x b u inner nm, fst x = dollar -> fst b = open_paren -> group open_paren close_paren u inner [] ->
    (forall k, In k function_names -> ~ begins_with k inner) -> stands_for D inner nm -> plain nm ->
    (forall v, D (chars nm) = Some v -> entire_value D v) -> entire D (x :: b :: u)
with entire_value (D : defs) : value -> Prop :=
| EV_deferred : forall k t, entire D t -> entire_value D (Deferred k t)
| EV_fixed : forall t ps P, ~ has fst dollar t -> unbroken t -> entire_value D (Fixed t ps P)
| EV_define : forall k k' t, entire D t -> entire_value D (Appended (Deferred k []) false (Deferred k' t)).
Scheme entire_mut := Induction for entire Sort Prop with entire_value_mut := Induction for entire_value Sort Prop.
Combined Scheme entire_both from entire_mut, entire_value_mut.

(** `$(eval text)`: the text after expansion.  (What follows on the line has no effect,
    a semicolon in the text would end the line, and `$(evaluate text)` is taken for
    `$(eval uate text)`.) *)
Definition eval_line (D : defs) (l m : text) : Prop :=
  exists x b t inner tail after arg, l = (x :: b :: t) ++ after /\ fst x = dollar /\ fst b = open_paren /\
    group open_paren close_paren t inner tail /\ word_text tail /\ match after with [] => True | c :: _ => blank (fst c) = true end /\
    free [semicolon; c_bslash] l /\ begins "eval" inner arg /\ stands_for D (lstrip fst arg) m /\ entire D (lstrip fst arg).

(** * Makefiles *)

(** The line is neither a recipe line nor in the body of a define. *)
Definition directly (st : mstate) (t : text) : Prop :=
  (m_rule st <> None -> ~ exists c u, t = c :: u /\ fst c = c_tab) /\ m_define st = None.

(** [step st t st' rest]: in the state [st] the first line of [t] leads to [st'];
    [rest] is the text after it. *)
Inductive step (st : mstate) (t : text) : mstate -> text -> Prop :=
| ST_comment : forall rest, comment_text t rest -> step st t st rest
| ST_blank : forall rest, ~ is_comment_text t -> directly st t -> line_text t [] rest -> step st t st rest
| ST_conditional : forall l rest e c, ~ is_comment_text t -> directly st t -> line_text t l rest -> solid l ->
    conditional_line (m_defs st) l e -> enter (m_conds st) e = Some c ->
    step st t (with_conds st c (ignoring_after (m_ignoring st) e c)) rest
| ST_ignored : forall l rest, ~ is_comment_text t -> directly st t -> line_text t l rest -> solid l ->
    m_ignoring st = true -> unconditional l -> step st t st rest
| ST_assignment : forall l rest name nm k v value, ~ is_comment_text t -> directly st t -> line_text t l rest -> solid l ->
    m_ignoring st = false -> unconditional l -> assigns l name k v -> stands_for (m_defs st) name nm ->
    assigned (m_defs st) (trim (chars nm)) k v value ->
    step st t (with_defs (closed st) (set (m_defs st) (trim (chars nm)) value)) rest
  (* of a line that goes on (because a `#` follows somewhere) only the first part counts *)
| ST_rule : forall l rest u u' r, ~ is_comment_text t -> directly st t -> plain_line t l rest -> solid l ->
    m_ignoring st = false -> unconditional l -> begins_none (modifier_words ++ directive_words) l -> no_assignment l ->
    logical_line fst l [] u u' -> rule_line (m_defs st) u r ->
    step st t (with_rule (closed st) (Some r)) rest
  (* even if lines are ignored *)
| ST_recipe : forall c u body rest r, ~ is_comment_text t -> m_rule st = Some r -> t = c :: u -> fst c = c_tab ->
    recipe_text u body rest -> expression body -> step st t (with_rule st (Some (with_line r body))) rest
| ST_idle : forall l rest u u', ~ is_comment_text t -> directly st t -> plain_line t l rest -> solid l ->
    m_ignoring st = false -> unconditional l -> begins_none (modifier_words ++ directive_words) l -> no_assignment l ->
    logical_line fst l [] u u' -> idle_line (m_defs st) u -> step st t (closed st) rest
| ST_define : forall l rest u x v, ~ is_comment_text t -> directly st t -> line_text t l rest -> solid l ->
    m_ignoring st = false -> unconditional l -> no_assignment l ->
    keyword "define" l u -> define_header (m_defs st) (lstrip fst u) x v ->
    step st t (with_define (with_defs (closed st) (set (m_defs st) x v)) (Some (x, 1))) rest
| ST_body : forall x n n' l rest old, ~ is_comment_text t -> m_rule st = None -> m_define st = Some (x, n) ->
    body_line t l rest -> expression l -> deeper n l n' -> n' <> 0 -> m_defs st x = Some old ->
    step st t (with_define (with_defs st (set (m_defs st) x (Appended old false (Deferred FlRecursive l)))) (Some (x, n'))) rest
| ST_endef : forall x l rest, ~ is_comment_text t -> m_rule st = None -> m_define st = Some (x, 1) ->
    body_line t l rest -> expression l -> deeper 1 l 0 -> step st t (with_define st None) rest.

(** The state in which an included file starts, and the one after it.  (The rule that
    is open at its end is lost.) *)
Definition fresh (st : mstate) (n : str) : mstate :=
  MState (m_defs st) [] false None (m_rules st) None (meet (m_files st) n).
Definition resume (st st' : mstate) : mstate :=
  MState (m_defs st') (m_conds st) (m_ignoring st) (m_rule st) (m_rules st') (m_define st) (m_files st').

(** The state in which evaluated text starts. *)
Definition nested (st : mstate) : mstate := MState (m_defs st) [] false None (m_rules st) None (m_files st).

(** The text of a file, the [id]th that was met. *)
Definition file_text (id : N) (t : str) : text := located_marks (Located (SourceLocation 1 1 id) t).
Definition number (st : mstate) (n : str) : N := snd (get_or_intern n (m_files st)).

(** All lines, one after the other; the files of an include, one after the other; the
    lines of evaluated text (the rule that is open before it is recorded only after it; the
    one that is open at its end is lost). *)
Inductive runs (fs : str -> file) : mstate -> text -> mstate -> Prop :=
| RU_end : forall st, runs fs st [] st
| RU_line : forall st t st1 rest st2, t <> [] -> step st t st1 rest -> runs fs st1 rest st2 -> runs fs st t st2
| RU_include : forall st t l rest soft names st1 st2, ~ is_comment_text t -> directly st t -> line_text t l rest -> solid l ->
    m_ignoring st = false -> unconditional l -> begins_none modifier_words l -> no_assignment l ->
    include_line (m_defs st) l soft names -> takes_in fs soft (closed st) names st1 -> runs fs st1 rest st2 -> runs fs st t st2
| RU_eval : forall st t l rest u u' m st1 st2, ~ is_comment_text t -> directly st t -> plain_line t l rest -> solid l ->
    m_ignoring st = false -> unconditional l -> begins_none (modifier_words ++ directive_words) l -> no_assignment l ->
    logical_line fst l [] u u' -> eval_line (m_defs st) u m -> runs fs (nested st) m st1 ->
    runs fs (closed (resume st st1)) rest st2 -> runs fs st t st2
with takes_in (fs : str -> file) : bool -> mstate -> list str -> mstate -> Prop :=
| TI_none : forall soft st, takes_in fs soft st [] st
| TI_file : forall soft st n ns t st1 st2, fs n = FText t -> runs fs (fresh st n) (file_text (number st n) t) st1 ->
    takes_in fs soft (resume st st1) ns st2 -> takes_in fs soft st (n :: ns) st2
| TI_skip : forall st n k ns st2, fs n = FOpenError k -> takes_in fs true st ns st2 -> takes_in fs true st (n :: ns) st2.
Scheme runs_mut := Induction for runs Sort Prop with takes_mut := Induction for takes_in Sort Prop.
Combined Scheme runs_takes from runs_mut, takes_mut.

(** The state before the first line of the makefile called "Makefile". *)
Definition m_begin : mstate := MState no_defs [] false None (fun _ => None) None [lit "Makefile"].

(** * What the engine shows after reading *)

(** The sensitivity of [b] names the variables of [P], and no others. *)
Definition depends_on (w : world) (P : str -> Prop) (b : block) : Prop :=
  (forall x, P x -> exists id, variable_name (w_names w) x = Some id /\ In id (b_sens b)) /\
  (forall id, In id (b_sens b) -> exists x, P x /\ variable_name (w_names w) x = Some id).

(** Evaluation leads to the text [m], and its sensitivity to the variables of [P]. *)
Definition evaluates_to (fs : str -> file) (w : world) (a : ast) (m : text) (P : str -> Prop) : Prop :=
  exists enough, forall fuel, enough <= fuel -> exists w' b, eval_fuel fs fuel w a = Ok (w', b) /\
    block_marks b = m /\ block_into_string b = Ok (chars m) /\ depends_on w' P b.

(** The rule recorded for a target: texts and sensitivities of the dependencies, recipe lines that
    expand like the recipe texts, kind. *)
Definition shows_rule (fs : str -> file) (D : defs) (w : world) (v : option tview) (rv : option rule_view) : Prop :=
  match v, rv with
  | None, None => True
  | Some v, Some rv =>
      List.map block_marks (rv_deps rv) = tv_deps v /\
      Forall2 (depends_on w) (tv_reads v) (rv_deps rv) /\
      Forall2 (fun t a => forall m, stands_for D t m -> evaluates_to fs w a m (looks_up D t)) (tv_recipe v) (rv_recipe rv) /\
      rv_type rv = (if tv_double v then RtDoubleColon else RtStandard)
  | _, _ => False
  end.

(** The kind recorded for a variable, and where it says that the variable comes from. *)
Definition recorded (w : world) (x : str) : option (flavor * origin) :=
  match variable_name (w_names w) x with
  | None => None
  | Some id => option_map (fun p => (v_flavor p, v_origin p)) (get_variable (w_db w) id)
  end.

(** The world [w] shows the state [st]: variables (all from files) and rules are those of
    [st], and the numbers of files are those in the order in which they were met. *)
Definition shows (fs : str -> file) (st : mstate) (w : world) : Prop :=
  (forall x, m_defs st x = None <-> undefined w x) /\
  (forall x v m, m_defs st x = Some v -> value_is (m_defs st) v m ->
     exists a, world_env w x = Some a /\ evaluates_to fs w a m (value_looks (m_defs st) v)) /\
  (forall x t ps P, m_defs st x = Some (Fixed t ps P) ->
     exists l b, world_env w x = Some (APre l b) /\ block_marks b = concat ps /\ depends_on w P b) /\
  (forall x v, m_defs st x = Some v -> recorded w x = Some (kind_of v, OrFile)) /\
  (forall t, shows_rule fs (m_defs st) w (m_rules st t) (option_map view (rule_of (w_names w) (w_db w) t))) /\
  n_files (w_names w) = m_files st.
