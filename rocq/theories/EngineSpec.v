(** Specification vocabulary for the engine: consistent states, steps of the
    engine, outcomes of reading a makefile, conditional nesting, includes. *)
From Coq Require Import String.
From Verif Require Import Base LocModel EvdModel NomModel AstModel ParseModel AstParseModel EngineModel
  EvdSpec DbSpec ParseSpec EvalSpec.
Local Open Scope nat_scope.

(** * Consistent states *)

(** A position in well-formed ASCII text. *)
Definition gspan (s : span) : Prop := wf_span s /\ wf_block (sp_parent s).

(** Variables have interned names and well-formed values, rules have interned
    targets and dependencies (see [DbSpec.rule_ok]), the recipe prefix is ASCII. *)
Definition world_good (w : world) : Prop :=
  world_ok w /\ rules_ok (w_names w) (db_rules (w_db w)) /\ ascii (w_cmd w).

(** Names are only ever added; the command character does not change. *)
Definition grown (w w' : world) : Prop :=
  (exists v, n_vars (w_names w') = n_vars (w_names w) ++ v) /\
  grows (w_names w) (w_names w') /\ w_cmd w' = w_cmd w.

(** A rule under construction. *)
Definition proto_ok (r : protorule) : Prop :=
  Forall wf_block (pr_targets r) /\ Forall wf_block (pr_deps r) /\ Forall ast_ok (pr_recipe r).

Definition state_ok (s : pstate) (w : world) : Prop :=
  (forall r, ps_rule s = Some r -> proto_ok r) /\
  (forall d, ps_define s = Some d -> N.to_nat (ds_var d) < List.length (n_vars (w_names w))).

(** All files are ASCII text. *)
Definition ascii_files (fs : str -> file) : Prop := forall n t, fs n = FText t -> asciis t.

(** * Steps of the engine *)

(** One call of [parse_line] by an engine that may nest references, evals and
    includes [fuel] deep. *)
Definition engine_line (fs : str -> file) (fuel : nat) : pstate -> world -> span -> res (pstate * world * presult unit) :=
  parse_line (eval_fuel fs fuel) (read_makefile_with (process_fuel fs fuel)) fs.

(** [n] successful calls of [parse_line], one after the other. *)
Inductive engine_lines (fs : str -> file) (fuel : nat) : nat -> pstate -> world -> span -> pstate -> world -> span -> Prop :=
| EL_done : forall s w i, engine_lines fs fuel 0 s w i s w i
| EL_step : forall n s w i s1 w1 i1 s2 w2 i2, 0 < sp_len i ->
    engine_line fs fuel s w i = Ok (s1, w1, POk i1 tt) -> engine_lines fs fuel n s1 w1 i1 s2 w2 i2 ->
    engine_lines fs fuel (S n) s w i s2 w2 i2.

(** An evaluator that always ends (or panics) and keeps the state consistent;
    the same for reading a file. *)
Definition ends_well {A} (r : res A) (P : A -> Prop) : Prop :=
  match r with Ok a => P a | Panic => True | OutOfFuel => False end.
Definition total_evaluator (ev : world -> ast -> res (world * block)) : Prop :=
  (forall w a, world_good w -> ast_ok a ->
     ends_well (ev w a) (fun x => world_good (fst x) /\ grown w (fst x) /\ wf_block (snd x))) /\
  (forall w a w' b l, a = AEmpty l \/ a = AConcat l [] -> ev w a = Ok (w', b) -> block_len b = 0).
Definition total_reader (rm : world -> str -> str -> res (world * mresult)) : Prop :=
  forall w nm text, world_good w -> asciis text ->
    ends_well (rm w nm text) (fun x => world_good (fst x) /\ grown w (fst x)).

(** * Outcomes *)

(** Reading the makefile [text] with a fresh engine ends with [r], for every large
    enough fuel. *)
Definition reads_to (fs : str -> file) (text : str) (r : res (world * mresult)) : Prop :=
  exists enough, forall fuel, enough <= fuel -> read_makefile fs fuel world_new (lit "Makefile") (inr text) = r.

(** The variable called [n] has the expansion [t]; it is not defined. *)
Definition has_value (fs : str -> file) (w : world) (n t : str) : Prop :=
  exists a, world_env w n = Some a /\
    exists enough, forall fuel, enough <= fuel ->
      exists w' b, eval_fuel fs fuel w a = Ok (w', b) /\ block_into_string b = Ok t.
Definition undefined (w : world) (n : str) : Prop := world_env w n = None.

(** * Conditional nesting *)

(** A conditional directive that was met: `ifeq`/`ifneq` with the truth of its
    condition, `else`, `endif`. *)
Inductive cond_event := EvIf (holds : bool) | EvElse | EvEndif.

(** The enclosing conditionals, innermost first: is the current branch taken, and
    has there been an `else`? *)
Definition enter (st : list (bool * bool)) (e : cond_event) : option (list (bool * bool)) :=
  match e, st with
  | EvIf b, _ => Some ((b, false) :: st)
  | EvElse, (b, false) :: st' => Some ((negb b, true) :: st')
  | EvEndif, _ :: st' => Some st'
  | _, _ => None
  end.
Fixpoint enclosing (st : list (bool * bool)) (h : list cond_event) : option (list (bool * bool)) :=
  match h with
  | [] => Some st
  | e :: h' => match enter st e with Some st' => enclosing st' h' | None => None end
  end.
(** Lines are to be ignored: some enclosing branch is not taken. *)
Definition not_taken (st : list (bool * bool)) : bool := existsb (fun b => negb (fst b)) st.

(** The stack and whether lines are ignored, as the code keeps them: at an `endif`
    nothing is recomputed. *)
Fixpoint kept (st : list (bool * bool)) (ignoring : bool) (h : list cond_event) : option (list (bool * bool) * bool) :=
  match h with
  | [] => Some (st, ignoring)
  | e :: h' =>
      match enter st e with
      | Some st' => kept st' (match e with EvEndif => ignoring | _ => not_taken st' end) h'
      | None => None
      end
  end.
(** Every `endif` ends a branch that is taken. *)
Fixpoint ends_taken (st : list (bool * bool)) (h : list cond_event) : Prop :=
  match h with
  | [] => True
  | e :: h' =>
      match e, st with EvEndif, (false, _) :: _ => False | _, _ => True end /\
      match enter st e with Some st' => ends_taken st' h' | None => True end
  end.
Definition stack (s : pstate) : list (bool * bool) :=
  List.map (fun c => (cs_executing c, cs_seen_else c)) (ps_conds s).

(** The conditional directive on a line, with the value of its condition. *)
Definition comparison_holds (ev : world -> ast -> res (world * block)) (w : world) (a b : ast) (r : bool) : Prop :=
  exists w1 x w2 y, ev w a = Ok (w1, x) /\ ev w1 b = Ok (w2, y) /\
    r = if list_eq_dec N.eq_dec (trim (block_text x)) (trim (block_text y)) then true else false.
Definition event_of (ev : world -> ast -> res (world * block)) (w : world) (c : conditional) (e : cond_event) : Prop :=
  match c with
  | CIfEq a b => exists r, comparison_holds ev w a b r /\ e = EvIf r
  | CIfNEq a b => exists r, comparison_holds ev w a b r /\ e = EvIf (negb r)
  | CElse None => e = EvElse
  | CEndIf => e = EvEndif
  | _ => False
  end.

(** The line at [i] reads as the conditional directive [c]. *)
Definition conditional_at (i : span) (c : conditional) : Prop :=
  exists r line j, makefile_line i GNU true = Ok (POk r line) /\ conditional_parse_line (block_span line) = Ok (POk j c).

(** Lines that are not read as directives: comments, recipe lines of an open
    rule, lines of a define. *)
Definition is_comment (i : span) : Prop := exists t, lstrip id (span_text i) = c_hash :: t.
Definition is_recipe (s : pstate) (w : world) (i : span) : Prop :=
  ps_rule s <> None /\ exists t, span_text i = w_cmd w :: t.
Definition in_define (s : pstate) : Prop := ps_rule s = None /\ ps_define s <> None.
Definition directive_line (s : pstate) (w : world) (i : span) (c : conditional) : Prop :=
  ~ is_comment i /\ ~ is_recipe s w i /\ ~ in_define s /\ conditional_at i c.

(** The engine goes from one state to another; [h] are the conditional directives
    it meets on the way. *)
Inductive meets (fs : str -> file) (fuel : nat) : pstate -> world -> span -> list cond_event -> pstate -> world -> span -> Prop :=
| ME_none : forall s w i, meets fs fuel s w i [] s w i
| ME_other : forall s w i s1 w1 i1 h s2 w2 i2, 0 < sp_len i ->
    engine_line fs fuel s w i = Ok (s1, w1, POk i1 tt) -> (forall c, ~ directive_line s w i c) ->
    meets fs fuel s1 w1 i1 h s2 w2 i2 -> meets fs fuel s w i h s2 w2 i2
| ME_cond : forall s w i c e s1 w1 i1 h s2 w2 i2, 0 < sp_len i ->
    engine_line fs fuel s w i = Ok (s1, w1, POk i1 tt) -> directive_line s w i c ->
    event_of (eval_fuel fs fuel) w c e ->
    meets fs fuel s1 w1 i1 h s2 w2 i2 -> meets fs fuel s w i (e :: h) s2 w2 i2.

(** The line at [i] reads as a directive (`include`, ...). *)
Definition directive_at (i : span) (d : directive) : Prop :=
  exists r line j, makefile_line i GNU true = Ok (POk r line) /\ directive_parse_line (block_span line) = Ok (POk j d).

(** * Rules under construction *)

(** The same rule with [more] recipe lines. *)
Definition with_lines (p : protorule) (more : list ast) : protorule :=
  ProtoRule (pr_targets p) (pr_deps p) (pr_recipe p ++ more) (pr_type p).

(** Between [w] and [w'] the rule [p] was put into the database, and no rule was
    changed after that, unless by an included file. *)
Definition recorded (p : protorule) (w : world) (i : span) (w' : world) : Prop :=
  exists w1 n d, grown w w1 /\ from_protorule (w_db w1) (w_names w1) p = Ok (n, d) /\ grown (World n d (w_cmd w)) w' /\
    (db_rules (w_db w') = db_rules d \/ exists x, directive_at i x).

(** * Includes *)

(** The effect of reading the files [names] in order: a file that cannot be opened
    is skipped if [soft], otherwise it is an error; errors end the reading. *)
Inductive reads_files (rm : world -> str -> str -> res (world * mresult)) (fs : str -> file) (soft : bool)
  : world -> list str -> world -> hresult -> Prop :=
| RF_done : forall w, reads_files rm fs soft w [] w HOk
| RF_read : forall w n t ns w1 w2 r, fs n = FText t -> rm w n t = Ok (w1, MOk) -> reads_files rm fs soft w1 ns w2 r ->
    reads_files rm fs soft w (n :: ns) w2 r
| RF_skip : forall w n k ns w2 r, soft = true -> fs n = FOpenError k -> reads_files rm fs soft w ns w2 r ->
    reads_files rm fs soft w (n :: ns) w2 r
| RF_missing : forall w n k ns, soft = false -> fs n = FOpenError k ->
    reads_files rm fs soft w (n :: ns) w (HErr (IncludeFailure k n))
| RF_unreadable : forall w n k ns, fs n = FReadError k ->
    reads_files rm fs soft w (n :: ns) w (HErr (IncludeFailure k n)).
