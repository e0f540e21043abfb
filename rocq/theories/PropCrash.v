(** Property theorems about makefiles that end the program (findings on C36, C38 and C42).
    The specifications are [CrashSpec], on texts as in [MakeSpec], and [StopSpec], on plain
    strings as in [WriteSpec]. *)
From Coq Require Import String.
From Verif Require Import Base LocModel EvdModel AstModel EngineModel ParseModel ModelTests EvdSpec DbSpec ParseSpec EvalSpec EngineSpec MakeSpec CrashSpec WriteSpec StopSpec
  EngineExamples CrashProofs3 WriteProofs6 WriteExamples StopProofs2 StopProofs3 StopExamples.
Open Scope string_scope.
Open Scope list_scope.

(** * C36: lines that end the program *)

(** Whatever is read before it, and whatever follows it: a line that [fatal] describes ends
    the program with a panic if it is reached, in the makefile or in an included file. *)
Theorem C36_texts_refuted : forall fs text, ascii_files fs -> asciis text -> crashes fs m_begin (file_text 0 text) -> reads_to fs text Panic.
Proof. exact makefile_crashes. Qed.
Print Assumptions C36_texts_refuted.
Example C36_texts_case : ascii_files some_files /\ asciis crashing_make /\ crashes some_files m_begin (file_text 0 crashing_make).
Proof. exact crashing_make_crashes. Qed.

(** The same for makefiles written from statements: statements and the beginnings of
    conditionals, a line that [stops] describes, and any text without `#`. *)
Theorem C36_lines_refuted : forall fs text, ascii_files fs -> file_stops fs w_start text -> reads_to fs text Panic.
Proof. exact file_stops_panics. Qed.
Print Assumptions C36_lines_refuted.
Example C36_lines_case : file_stops no_files w_start crashing_text.
Proof. exact crashing_text_stops. Qed.
Example C36_lines_recipe : file_stops no_files w_start (lit "t: d" ++ nl ++ c_tab :: lit "cmd" ++ nl ++ c_tab :: lit "case $(x (in a) b" ++ nl ++ lit "y = 1").
Proof. exact crashing_recipe_stops. Qed.
Example C36_lines_body : stops no_files w_start Top (mk "define x~echo a~echo $(y").
Proof. exact crashing_body_stops. Qed.
Example C36_lines_kinds : forall k, In k
  ["ifdef x"; "IfNDef(y)"; "else ifeq (a,b)"; "elsewhere = 1"; "endif x"; "else"; "EndIf  "; "x :="; "export x = $(y)"; "override x += 1"; "private x := 1";
   "undefine x"; "export x y"; "unexport x"; "vpath x.c src"; "load $(x)"; "-load a"; "a b: x = 1"; "t:: x ?= 2"; "t: ;x=1 cmd"; "a.o: a.c;CC=$(cc) make a"; "a.o b.o: x.o: x.c"; "x = a $(y) $(z";
   "y += $(shell echo $(x) (b)"; "-include a $(y"; "a.o b.o: $(x) b $(y"; "t:: a.c; echo $(x"; "IfEq 'a $(x b' c"; "include none.mk"] ->
  stops some_files w_start Top (lit k).
Proof. exact crashing_lines_stop. Qed.

(** `ifdef` and `ifndef` end the program after any statements. *)
Theorem C36_ifdef_anywhere_refuted : forall fs ss s k r rest, ascii_files fs -> every well_formed ss -> acts_all fs true w_start ss s ->
  In k ["ifdef"; "ifndef"] -> line_rest r -> asciis rest -> ~ In c_hash rest ->
  reads_to fs (show_all ss ++ (lit k ++ r) ++ nl ++ rest) Panic.
Proof. exact ifdef_after. Qed.
Print Assumptions C36_ifdef_anywhere_refuted.
Example C36_ifdef_anywhere_case : every well_formed forgotten /\ exists s, acts_all no_files true w_start forgotten s.
Proof. exact (conj forgotten_formed forgotten_known). Qed.

(** So does an assignment with a reference that is not closed. *)
Theorem C36_unclosed_anywhere_refuted : forall fs ss s x o r rest, ascii_files fs -> every well_formed ss -> acts_all fs true w_start ss s -> w_deaf s = false ->
  name x -> anything r -> stays_open r -> asciis rest -> ~ In c_hash rest ->
  reads_to fs (show_all ss ++ (x ++ show_op o ++ lit "$(" ++ r) ++ nl ++ rest) Panic.
Proof. exact unclosed_after_statements. Qed.
Print Assumptions C36_unclosed_anywhere_refuted.
Example C36_unclosed_anywhere_case : name (lit "CC") /\ anything (lit "filter $(a) b (c") /\ stays_open (lit "filter $(a) b (c").
Proof. exact unclosed_case. Qed.

(** So does a rule with a dependency that is not closed. *)
Theorem C36_unclosed_rule_anywhere_refuted : forall fs ss s ts r rest, ascii_files fs -> every well_formed ss -> acts_all fs true w_start ss s -> w_deaf s = false ->
  ts <> [] -> Forall name ts -> anything r -> ~ In equals r -> ~ In semicolon r -> stays_open r -> asciis rest -> ~ In c_hash rest ->
  reads_to fs (show_all ss ++ (join c_space ts ++ lit ": $(" ++ r) ++ nl ++ rest) Panic.
Proof. exact unclosed_rule_after. Qed.
Print Assumptions C36_unclosed_rule_anywhere_refuted.
Example C36_unclosed_rule_anywhere_case : Forall name [lit "a.o"; lit "b.o"] /\ anything (lit "SRC:.c .o (c)") /\ ~ In equals (lit "SRC:.c .o (c)") /\
  ~ In semicolon (lit "SRC:.c .o (c)") /\ stays_open (lit "SRC:.c .o (c)").
Proof. exact unclosed_rule_case. Qed.

(** * C38: unmatched conditionals are not reported *)

(** An `else` or `endif` without a conditional, after any statements, ends the program. *)
Theorem C38_unmatched_refuted : forall fs ss s k rest, ascii_files fs -> every well_formed ss -> acts_all fs true w_start ss s ->
  In k ["else"; "endif"] -> asciis rest -> ~ In c_hash rest -> reads_to fs (show_all ss ++ lit k ++ nl ++ rest) Panic.
Proof. exact unmatched_after. Qed.
Print Assumptions C38_unmatched_refuted.
Example C38_unmatched_case : every well_formed statements /\ exists s, acts_all some_files true w_start statements s /\ w_deaf s = false.
Proof. exact (conj statements_formed statements_known). Qed.

(** * C42: a missing file *)

(** The `include` of a file that cannot be opened, after any statements, ends the program
    (it is not an error that the caller sees). *)
Theorem C42_missing_anywhere_refuted : forall fs ss s n e rest, ascii_files fs -> every well_formed ss -> acts_all fs true w_start ss s -> w_deaf s = false ->
  name n -> fs n = FOpenError e -> asciis rest -> ~ In c_hash rest -> reads_to fs (show_all ss ++ (lit "include " ++ n) ++ nl ++ rest) Panic.
Proof. exact missing_after. Qed.
Print Assumptions C42_missing_anywhere_refuted.
Example C42_missing_anywhere_case : every well_formed statements /\ (exists s, acts_all some_files true w_start statements s /\ w_deaf s = false) /\
  name (lit "none.mk") /\ some_files (lit "none.mk") = FOpenError 2.
Proof. exact (conj statements_formed (conj statements_known missing_name)). Qed.
