(** Specification of makefiles that end the program: lines on which the code panics, and
    makefiles in which such a line is reached.  Texts as in [MakeSpec]. *)
From Coq Require Import String.
From Verif Require Import Base LocModel EvdModel AstModel EngineModel EvdSpec DbSpec ParseModel ParseSpec EvalSpec AstParseSpec EngineSpec MakeSpec.
Local Open Scope nat_scope.

(** The first line of [t] is [l], and neither a comment, a recipe line, nor in a define. *)
Definition line_is (st : mstate) (t l : text) : Prop :=
  ~ is_comment_text t /\ directly st t /\ (exists rest, line_text t l rest) /\ solid l.
(** It is also neither ignored nor a conditional. *)
Definition acting_line (st : mstate) (t l : text) : Prop :=
  line_is st t l /\ m_ignoring st = false /\ unconditional l.

(** The value can be stored: for `:=` it has an expansion. *)
Definition storable (D : defs) (k : assignment) (v : text) : Prop :=
  match k with AsSimple => exists m, stands_for D v m | _ => expression v end.

(** The targets of a rule line, with what follows the colons. *)
Definition after_targets (D : defs) (u deps : text) (cmd : list text) : Prop :=
  exists head ms after double, with_command u head cmd /\ free [semicolon; c_bslash] head /\
    ~ begins_char colon u /\ targets_before D head ms after /\ after_colons after double deps /\ ~ begins_char equals deps.

(** What follows the colons is looked at again with the command, the semicolon
    between them being put back. *)
Definition rejoined (deps : text) (cmd : list text) : text := deps ++ match cmd with [k] => made semicolon :: k | _ => [] end.

(** A line that could be a rule. *)
Definition rule_like (st : mstate) (t u : text) : Prop :=
  exists l rest u', ~ is_comment_text t /\ directly st t /\ plain_line t l rest /\ solid l /\ m_ignoring st = false /\
    unconditional l /\ begins_none (modifier_words ++ directive_words) l /\ no_assignment l /\ logical_line fst l [] u u'.

(** [unclosed t]: reading [t] one comes to a reference, outside function calls, that is
    not closed. *)
Inductive unclosed : text -> Prop :=
| UN_here : forall d b o c t, fst d = dollar -> opens (fst b) o c -> (forall inner rest, ~ group o c t inner rest) -> unclosed (d :: b :: t)
| UN_inside : forall d b o c t inner rest, fst d = dollar -> opens (fst b) o c -> group o c t inner rest ->
    (forall k, In k function_names -> ~ begins_with k inner) -> unclosed inner -> unclosed (d :: b :: t)
| UN_later : forall d b o c t inner rest, fst d = dollar -> opens (fst b) o c -> group o c t inner rest ->
    (forall k, In k function_names -> ~ begins_with k inner) -> expression inner -> unclosed rest -> unclosed (d :: b :: t)
| UN_char : forall d c t, fst d = dollar -> ~ In (fst c) [open_paren; close_brace] -> unclosed t -> unclosed (d :: c :: t)
| UN_plain : forall c t, fst c <> dollar -> unclosed t -> unclosed (c :: t).

(** [fatal st t]: in the state [st] the first line of [t] ends the program. *)
Inductive fatal (st : mstate) (t : text) : Prop :=
  (* `ifdef` and `ifndef`, even if lines are ignored *)
| FA_ifdef : forall l k u, line_is st t l -> In k ["ifdef"; "ifndef"]%string -> keyword k l u -> fatal st t
  (* `else` and `endif` without a conditional, a second `else` *)
| FA_unmatched : forall l e, line_is st t l -> conditional_line (m_defs st) l e -> enter (m_conds st) e = None -> fatal st t
  (* anything after `else` and `endif`: `else ifeq (a,b)`, but also `elsewhere = 1` *)
| FA_extra : forall l k u, line_is st t l -> In k ["else"; "endif"]%string -> keyword k l u -> ~ all_blank fst u -> fatal st t
  (* `ifeq "$(x" "a"`, `ifneq 'a' '$(x'`: an argument that is not a well-formed expression *)
| FA_condition : forall l k u, line_is st t l -> In k ["ifeq"; "ifneq"]%string -> keyword k l u ->
    (exists a, first_argument (lstrip fst u) a /\ ~ expression a) \/ (exists a b, two_arguments (lstrip fst u) a b /\ expression a /\ ~ expression b) -> fatal st t
  (* `x :=` without a value *)
| FA_no_value : forall l name nm, acting_line st t l -> assigns l name AsSimple [] -> stands_for (m_defs st) name nm -> fatal st t
  (* `export x = 1`, `override x = 1`, `private x = 1` *)
| FA_modified : forall l k u name nm op v, acting_line st t l -> no_assignment l -> In k ["export"; "override"; "private"]%string -> keyword k l u ->
    assigns (lstrip fst u) name op v -> stands_for (m_defs st) name nm -> storable (m_defs st) op v -> fatal st t
| FA_undefine : forall l u, acting_line st t l -> no_assignment l -> keyword "undefine" l u -> fatal st t
  (* `export x` *)
| FA_export : forall l u, acting_line st t l -> no_assignment l -> keyword "export" l u ->
    no_assignment (lstrip fst u) -> begins_none modifier_words (lstrip fst u) -> expression u -> fatal st t
| FA_directive : forall l k u, acting_line st t l -> no_assignment l -> begins_none modifier_words l ->
    In k ["unexport"; "vpath"; "load"; "-load"]%string -> keyword k l u -> expression u -> fatal st t
  (* `t: x = 1`, but also `t: d;x=1 cmd` *)
| FA_target_variable : forall u deps cmd name nm op v, rule_like st t u -> after_targets (m_defs st) u deps cmd ->
    assigns (lstrip fst (rejoined deps cmd)) name op v -> stands_for (m_defs st) name nm -> storable (m_defs st) op v -> fatal st t
  (* `t: %.o: %.c` *)
| FA_static : forall u deps cmd rest m, rule_like st t u -> after_targets (m_defs st) u deps cmd -> Forall expression cmd ->
    with_command rest deps cmd -> no_assignment (lstrip fst rest) -> begins_none modifier_words (lstrip fst rest) ->
    stands_for (m_defs st) deps m -> free [semicolon; c_bslash] m -> has fst colon m -> fatal st t
  (* `t: $(x`, `t: d; echo $(x`: dependencies or a command that are not well-formed expressions *)
| FA_dependencies : forall u deps cmd rest, rule_like st t u -> after_targets (m_defs st) u deps cmd ->
    with_command rest deps cmd -> no_assignment (lstrip fst rest) -> begins_none modifier_words (lstrip fst rest) ->
    ~ expression deps -> fatal st t
| FA_command : forall u deps k rest m, rule_like st t u -> after_targets (m_defs st) u deps [k] ->
    with_command rest deps [k] -> no_assignment (lstrip fst rest) -> begins_none modifier_words (lstrip fst rest) ->
    stands_for (m_defs st) deps m -> ~ expression k -> fatal st t
  (* anything after the `endef` *)
| FA_endef : forall d l rest u c, ~ is_comment_text t -> m_rule st = None -> m_define st = Some d -> body_line t l rest -> expression l ->
    chars (lstrip fst l) = lit "endef" ++ u -> In c u -> is_whitespace c = false -> fatal st t
  (* `x = $(y` *)
| FA_unclosed : forall l name op v, acting_line st t l -> assigns l name op v -> unclosed name \/ (expression name /\ unclosed v) -> fatal st t
  (* `include $(y`, `vpath $(word 1)` *)
| FA_malformed : forall l k u, acting_line st t l -> no_assignment l -> begins_none modifier_words l ->
    In k directive_words -> keyword k l u -> ~ expression u -> fatal st t
  (* recipe lines that are not well-formed expressions, even if lines are ignored *)
| FA_recipe : forall c u body rest r, ~ is_comment_text t -> m_rule st = Some r -> t = c :: u -> fst c = c_tab ->
    recipe_text u body rest -> ~ expression body -> fatal st t
  (* lines in a define that are not *)
| FA_body : forall d l rest, ~ is_comment_text t -> m_rule st = None -> m_define st = Some d -> body_line t l rest -> l <> [] -> ~ expression l -> fatal st t.

(** [crashes fs st t]: in the state [st] the lines of [t] are read until one of them
    ends the program, or one of evaluated text does; [crashes_in fs soft st ns]: the same for
    the files [ns] of an include (a missing file, or one that cannot be read, does too). *)
Inductive crashes (fs : str -> file) : mstate -> text -> Prop :=
| CR_here : forall st t, t <> [] -> fatal st t -> crashes fs st t
| CR_later : forall st t st1 rest, t <> [] -> step st t st1 rest -> crashes fs st1 rest -> crashes fs st t
| CR_past : forall st t l rest soft names st1, ~ is_comment_text t -> directly st t -> line_text t l rest -> solid l ->
    m_ignoring st = false -> unconditional l -> begins_none modifier_words l -> no_assignment l ->
    include_line (m_defs st) l soft names -> takes_in fs soft (closed st) names st1 -> crashes fs st1 rest -> crashes fs st t
| CR_include : forall st t l rest soft names, ~ is_comment_text t -> directly st t -> line_text t l rest -> solid l ->
    m_ignoring st = false -> unconditional l -> begins_none modifier_words l -> no_assignment l ->
    include_line (m_defs st) l soft names -> crashes_in fs soft (closed st) names -> crashes fs st t
| CR_beyond : forall st t l rest u u' m st1, ~ is_comment_text t -> directly st t -> plain_line t l rest -> solid l ->
    m_ignoring st = false -> unconditional l -> begins_none (modifier_words ++ directive_words) l -> no_assignment l ->
    logical_line fst l [] u u' -> eval_line (m_defs st) u m -> runs fs (nested st) m st1 ->
    crashes fs (closed (resume st st1)) rest -> crashes fs st t
| CR_eval : forall st t l rest u u' m, ~ is_comment_text t -> directly st t -> plain_line t l rest -> solid l ->
    m_ignoring st = false -> unconditional l -> begins_none (modifier_words ++ directive_words) l -> no_assignment l ->
    logical_line fst l [] u u' -> eval_line (m_defs st) u m -> crashes fs (nested st) m -> crashes fs st t
with crashes_in (fs : str -> file) : bool -> mstate -> list str -> Prop :=
| CI_missing : forall st n k ns, fs n = FOpenError k -> crashes_in fs false st (n :: ns)
| CI_unreadable : forall soft st n k ns, fs n = FReadError k -> crashes_in fs soft st (n :: ns)
| CI_inside : forall soft st n t ns, fs n = FText t -> crashes fs (fresh st n) (file_text (number st n) t) -> crashes_in fs soft st (n :: ns)
| CI_later : forall soft st n ns t st1, fs n = FText t -> runs fs (fresh st n) (file_text (number st n) t) st1 ->
    crashes_in fs soft (resume st st1) ns -> crashes_in fs soft st (n :: ns)
| CI_skip : forall st n k ns, fs n = FOpenError k -> crashes_in fs true st ns -> crashes_in fs true st (n :: ns).
Scheme crashes_mut := Induction for crashes Sort Prop with crashes_in_mut := Induction for crashes_in Sort Prop.
Combined Scheme crashes_both from crashes_mut, crashes_in_mut.
