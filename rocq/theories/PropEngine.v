(** Property theorems about the engine (C30-C33, C35-C39, C42, C44, C48).
    [engine_line] is one call of the line parser, [engine_lines] a sequence of
    them, [reads_to] the outcome of reading a whole makefile with a fresh engine;
    the specifications are in [EngineSpec]. *)
From Coq Require Import String.
From Verif Require Import Base LocModel EvdModel NomModel AstModel ParseModel AstParseModel EngineModel ModelTests EvdSpec ParseSpec DbSpec EvalSpec
  AstParseSpec EngineSpec ParseProofs5 EngineProofs EngineProofs2 EngineExamples.
Open Scope string_scope.
Open Scope list_scope.

(** * C30: progress *)

(** Every successful call of the line parser on non-empty input strictly shortens
    the input (and keeps the state consistent). *)
Theorem C30_line_shortens : forall fs fuel s w i s1 w1 i1, ascii_files fs -> world_good w -> state_ok s w -> gspan i -> 0 < sp_len i ->
  engine_line fs fuel s w i = Ok (s1, w1, POk i1 tt) ->
  sp_len i1 < sp_len i /\ world_good w1 /\ grown w w1 /\ state_ok s1 w1 /\ gspan i1.
Proof. exact engine_line_ok. Qed.
Print Assumptions C30_line_shortens.

(** There are at most as many steps as characters. *)
Theorem C30_number_of_steps : forall fs fuel n s w i s' w' i', ascii_files fs -> world_good w -> state_ok s w -> gspan i ->
  engine_lines fs fuel n s w i s' w' i' ->
  n + sp_len i' <= sp_len i /\ world_good w' /\ grown w w' /\ state_ok s' w' /\ gspan i'.
Proof. exact engine_lines_count. Qed.
Print Assumptions C30_number_of_steps.

(** The loop over the lines, and all loops of the parsers in it, end if evaluating
    expressions and reading included files does. *)
Theorem C30_loop_ends : forall ev rm fs w b, ascii_files fs -> total_evaluator ev -> total_reader rm -> world_good w -> wf_block b ->
  ends_well (process_step ev rm fs w b) (fun x => world_good (fst x) /\ grown w (fst x)).
Proof. exact loop_ends. Qed.
Print Assumptions C30_loop_ends.

(** Processing a text is exactly: calling the line parser until nothing is left. *)
Theorem C30_processing_is_steps : forall fs fuel w b w' r, ascii_files fs -> world_good w -> wf_block b ->
  process_fuel fs (S fuel) w b = Ok (w', r) <->
  r = MOk /\ exists n s' i', engine_lines fs fuel n pstate_new w (block_span b) s' w' i' /\ sp_len i' = 0.
Proof. exact process_run. Qed.
Print Assumptions C30_processing_is_steps.

Example C30_example : exists w, reads_to no_files ex_text (Ok (w, MOk)) /\
  has_value no_files w (lit "x") (lit "a") /\ undefined w (lit "y") /\ has_value no_files w (lit "z") (lit "ab") /\ has_value no_files w (lit "u") (lit "3").
Proof. exact ex_reads. Qed.
Example C30_start : forall t, t <> [] -> asciib t = true ->
  world_good world_new /\ state_ok pstate_new world_new /\ gspan (block_span (text_block t)) /\ define_apart pstate_new.
Proof. exact start_ok. Qed.
Example C30_total_example : forall fs fuel, ascii_files fs ->
  total_evaluator (fun w a => give_up (eval_fuel fs fuel w a)) /\
  total_reader (fun w nm t => give_up (read_makefile_with (process_fuel fs fuel) w nm t)).
Proof. exact ex_total. Qed.

(** * C48: the state stays consistent *)

(** After reading any ASCII makefile (with any includes), all variables and rules
    have interned names, all stored texts are well formed, and no name or number
    that existed before is lost or changed. *)
Theorem C48_reading_keeps_consistent : forall fs fuel w nm text w' r, ascii_files fs -> world_good w -> asciis text ->
  read_makefile fs fuel w nm (inr text) = Ok (w', r) -> world_good w' /\ grown w w'.
Proof. exact read_consistent. Qed.
Print Assumptions C48_reading_keeps_consistent.

Example C48_example : world_good world_new /\ ascii_files ex_files.
Proof. split; [exact (proj1 (start_ok [97%N] ltac:(discriminate) eq_refl))|exact ex_files_ascii]. Qed.

(** * C31: conditional nesting *)

(** On the way from one state to another the engine meets a sequence of
    conditional directives; the nesting after them is that of [enclosing]: `ifeq`
    opens a branch that is taken if the condition holds, an `else` branch is taken
    iff the first one was not, `endif` closes the innermost one. *)
Theorem C31_nesting : forall fs fuel n s w i s' w' i', ascii_files fs -> world_good w -> state_ok s w -> gspan i ->
  engine_lines fs fuel n s w i s' w' i' ->
  exists h, meets fs fuel s w i h s' w' i' /\ enclosing (stack s) h = Some (stack s').
Proof. exact history_nesting. Qed.
Print Assumptions C31_nesting.

(** Lines are ignored iff an enclosing branch is not taken, as long as every
    `endif` ends a branch that is taken.  Missing: `endif` after a branch that is
    not taken (refuted below). *)
Theorem C31_ignoring_partial : forall fs fuel w i h s' w' i', ascii_files fs -> world_good w -> gspan i ->
  meets fs fuel pstate_new w i h s' w' i' -> ends_taken [] h ->
  ps_ignoring s' = not_taken (stack s').
Proof. exact history_ignoring. Qed.
Print Assumptions C31_ignoring_partial.

(** Right after `ifeq`, `ifneq` and `else` lines are ignored iff an enclosing
    branch is not taken, whatever came before. *)
Theorem C31_after_opening_partial : forall fs fuel w i h e s' w' i', ascii_files fs -> world_good w -> gspan i ->
  meets fs fuel pstate_new w i (h ++ [e]) s' w' i' -> e <> EvEndif -> ps_ignoring s' = not_taken (stack s').
Proof. exact history_last. Qed.
Print Assumptions C31_after_opening_partial.

(** What the code does for every history: an `endif` leaves "ignored" as it was. *)
Theorem C31_as_kept : forall fs fuel s w i h s' w' i', ascii_files fs -> world_good w -> state_ok s w -> gspan i ->
  meets fs fuel s w i h s' w' i' -> kept (stack s) (ps_ignoring s) h = Some (stack s', ps_ignoring s').
Proof. exact meets_kept. Qed.
Print Assumptions C31_as_kept.

(** C31 fails: in "ifeq (a,b)", "X = 1", "endif", "Y = 2" the last line is ignored. *)
Theorem C31_endif_refuted : exists w, reads_to no_files (mk "ifeq (a,b)~X = 1~endif~Y = 2~") (Ok (w, MOk)) /\ undefined w (lit "Y").
Proof. exact ex_endif. Qed.
Print Assumptions C31_endif_refuted.

Example C31_example : exists s w i, meets no_files 20 pstate_new world_new (block_span (text_block cond_text))
  [EvIf true; EvIf false; EvElse; EvEndif] s w i /\ stack s = [(true, false)] /\ ps_ignoring s = false /\
  ends_taken [] [EvIf true; EvIf false; EvElse; EvEndif].
Proof. exact ex_meets. Qed.

(** * C32: ignored lines *)

(** A line that is ignored, is not a conditional directive and not a recipe line
    of an open rule changes nothing.  Missing: recipe lines and conditional
    directives with `$(eval)` in their arguments (both refuted below). *)
Theorem C32_ignored_line_partial : forall fs fuel s w i s1 w1 i1, ascii_files fs -> world_good w -> gspan i -> define_apart s -> ps_ignoring s = true ->
  ~ is_recipe s w i -> (forall c, ~ directive_line s w i c) ->
  engine_line fs fuel s w i = Ok (s1, w1, POk i1 tt) -> s1 = s /\ w1 = w.
Proof. exact ignored_line. Qed.
Print Assumptions C32_ignored_line_partial.

(** The hypothesis [define_apart] holds in all states reached from the start. *)
Theorem C32_define_apart : forall fs fuel n s w i s' w' i', ascii_files fs -> world_good w -> state_ok s w -> gspan i -> define_apart s ->
  engine_lines fs fuel n s w i s' w' i' -> define_apart s'.
Proof. exact define_apart_lines. Qed.
Print Assumptions C32_define_apart.

(** A conditional directive changes no variable and no rule, if there is no
    `$(eval)` in its arguments and in the variables. *)
Theorem C32_directive_partial : forall fs fuel s w i c s1 w1 i1, ascii_files fs -> world_good w -> gspan i ->
  directive_line s w i c -> args_eval_free c -> (forall id v, get_variable (w_db w) id = Some v -> eval_free (v_ast v)) ->
  engine_line fs fuel s w i = Ok (s1, w1, POk i1 tt) -> same_but_names w w1.
Proof. exact ignored_directive. Qed.
Print Assumptions C32_directive_partial.

(** C32 fails: the arguments of an ignored `ifeq` are evaluated. *)
Theorem C32_eval_refuted : exists w, reads_to no_files (mk "ifeq (a,b)~ifeq ($(eval X = 1),)~endif~") (Ok (w, MOk)) /\
  has_value no_files w (lit "X") (lit "1").
Proof. exact ex_ignored_eval. Qed.
Print Assumptions C32_eval_refuted.

(** C32 fails: an ignored recipe line is added to the rule. *)
Theorem C32_recipe_refuted : exists w, reads_to no_files (mk "t: d~ifeq (a,b)~@cmd~else~X = 1~") (Ok (w, MOk)) /\
  recipe_texts w = [[Some (lit "cmd")]].
Proof. exact ex_ignored_recipe. Qed.
Print Assumptions C32_recipe_refuted.

Example C32_example : exists i1, engine_line no_files 20 ignoring_state world_new (block_span (text_block (mk "x = 1~"))) = Ok (ignoring_state, world_new, POk i1 tt) /\
  (forall c, ~ directive_line ignoring_state world_new (block_span (text_block (mk "x = 1~"))) c).
Proof. exact ex_ignored. Qed.

(** * C36: crashes *)

Theorem C36_empty_simple_assignment_refuted : reads_to no_files (mk "x :=~") Panic.
Proof. by_run. Qed.
Print Assumptions C36_empty_simple_assignment_refuted.
Theorem C36_ifdef_refuted : reads_to no_files (mk "ifdef x~") Panic.
Proof. by_run. Qed.
Print Assumptions C36_ifdef_refuted.
Theorem C36_target_variable_refuted : reads_to no_files (mk "t: x = 1~") Panic.
Proof. by_run. Qed.
Print Assumptions C36_target_variable_refuted.
Theorem C36_static_pattern_refuted : reads_to no_files (mk "a.o: %.o: %.c~") Panic.
Proof. by_run. Qed.
Print Assumptions C36_static_pattern_refuted.
Theorem C36_export_refuted : reads_to no_files (mk "export X~") Panic.
Proof. by_run. Qed.
Print Assumptions C36_export_refuted.
Theorem C36_override_refuted : reads_to no_files (mk "override x = 1~") Panic.
Proof. by_run. Qed.
Print Assumptions C36_override_refuted.
Theorem C36_strip_refuted : reads_to no_files (mk "x := $(strip a)~") Panic.
Proof. by_run. Qed.
Print Assumptions C36_strip_refuted.
Theorem C36_keyword_name_refuted : reads_to no_files (mk "elsewhere = 1~") Panic.
Proof. by_run. Qed.
Print Assumptions C36_keyword_name_refuted.
Theorem C36_brace_refuted : reads_to no_files (mk "x = $}~") Panic.
Proof. by_run. Qed.
Print Assumptions C36_brace_refuted.
Theorem C36_continued_target_refuted : reads_to no_files (mk "a:\~") Panic.
Proof. by_run. Qed.
Print Assumptions C36_continued_target_refuted.

(** * C37: the last rule *)

(** An open rule stays open (with more recipe lines), or is recorded by the line
    that ends it.  Missing: the end of the file (refuted below). *)
Theorem C37_recorded_partial : forall fs fuel s w i s1 w1 i1 p, ascii_files fs -> world_good w -> state_ok s w -> gspan i -> 0 < sp_len i ->
  ps_rule s = Some p -> engine_line fs fuel s w i = Ok (s1, w1, POk i1 tt) ->
  (exists more, ps_rule s1 = Some (with_lines p more)) \/ recorded p w i w1.
Proof. exact rule_kept_or_recorded. Qed.
Print Assumptions C37_recorded_partial.

Theorem C37_last_rule_refuted : exists w, reads_to no_files (mk "t: d~@cmd~") (Ok (w, MOk)) /\ db_rules (w_db w) = [].
Proof. exact ex_last_rule. Qed.
Print Assumptions C37_last_rule_refuted.

Example C37_example : exists s w i1 p, engine_line no_files 20 pstate_new world_new (block_span (text_block (mk "t: d~x = 1~"))) = Ok (s, w, POk i1 tt) /\
  ps_rule s = Some p /\ List.map block_text (pr_targets p) = [lit "t"] /\ List.map block_text (pr_deps p) = [lit "d"].
Proof. exact ex_rule_line. Qed.

(** * C38: errors *)

(** C38 fails for every makefile: no parse error is ever returned. *)
Theorem C38_never_reported_refuted : forall fs fuel w nm inp w' r, read_makefile fs fuel w nm inp = Ok (w', r) ->
  r = match inp with inl k => MIOError k | inr _ => MOk end.
Proof. exact read_mok. Qed.
Print Assumptions C38_never_reported_refuted.

(** Instead, a line that cannot be parsed is a panic. *)
Theorem C38_errors_panic_refuted : forall fs fuel n w b s1 w1 i1, ascii_files fs -> world_good w -> wf_block b ->
  engine_lines fs fuel n pstate_new w (block_span b) s1 w1 i1 -> 0 < sp_len i1 ->
  (forall s2 w2 i2, engine_line fs fuel s1 w1 i1 <> Ok (s2, w2, POk i2 tt)) -> engine_line fs fuel s1 w1 i1 <> OutOfFuel ->
  process_fuel fs (S fuel) w b = Panic.
Proof. exact process_fail. Qed.
Print Assumptions C38_errors_panic_refuted.

(** Errors of the reader are passed on. *)
Theorem C38_io_errors_partial : forall fs fuel w nm k, read_makefile fs fuel w nm (inl k) = Ok (w, MIOError k).
Proof. reflexivity. Qed.
Print Assumptions C38_io_errors_partial.

Example C38_example : reads_to no_files (mk "endif~") Panic /\
  exists w s, engine_line no_files 20 pstate_new world_new (block_span (text_block (mk "endif~"))) = Ok (s, w, PFailure [KCustom UnattachedEndIf]).
Proof. split; [by_run|]. do 2 eexists. vm_compute. reflexivity. Qed.

(** * C42: includes *)

(** The files are the words of the evaluated text.  They are read in order;
    missing ones are skipped by `-include` and an error for `include`. *)
Theorem C42_files_in_order : forall fs fuel w a soft w1 b w' r, ascii_files fs -> world_good w -> ast_ok a ->
  eval_fuel fs fuel w a = Ok (w1, b) -> ~ In c_bslash (block_text b) ->
  handle_include (eval_fuel fs fuel) (read_makefile_with (process_fuel fs fuel)) fs w a soft = Ok (w', r) <->
  reads_files (read_makefile_with (process_fuel fs fuel)) fs soft w1 (split_at id (file_stop []) [] (block_text b)) w' r.
Proof. exact handle_include_words. Qed.
Print Assumptions C42_files_in_order.

(** C42 fails for a missing file of `include`: the error is a panic. *)
Theorem C42_missing_panics_refuted : reads_to no_files (mk "include a.mk~") Panic.
Proof. by_run. Qed.
Print Assumptions C42_missing_panics_refuted.

Example C42_example : exists w, reads_to ex_files (mk "Y = 3~-include a.mk missing b.mk~Z := $(X)~") (Ok (w, MOk)) /\
  has_value ex_files w (lit "Z") (lit "1 3").
Proof. exact ex_include. Qed.
