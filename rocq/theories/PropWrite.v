(** Property theorems about makefiles written out from statements (C50, and parts of C31,
    C32, C33, C35, C36, C37, C39, C44, C47 and C56).  The statements, their text and their meaning are defined in [WriteSpec], on
    plain strings; [lit] gives the characters of a Coq string, [nl] is a newline. *)
From Coq Require Import String.
From Verif Require Import Base LocModel EvdModel AstModel EngineModel ParseModel ModelTests EvdSpec DbSpec ParseSpec EvalSpec EngineSpec MakeSpec WriteSpec
  EngineExamples WriteProofs6 WriteProofs7 WriteProofs8 RecipeProofs ObjectSpec ObjectProofs ObjectProofs2 WriteExamples.
Open Scope string_scope.
Open Scope list_scope.

(** * C50: statements *)

(** Whatever statements a makefile is written from: if the branches of its conditionals that
    are taken are the last ones, then reading it succeeds, and leaves the variables (with
    their expansions) and rules (with dependencies, recipe and kind) that the statements
    define.  [does_all] is what a reader of the statements expects. *)
Theorem C50_statements : forall fs ss text s, ascii_files fs -> every well_formed ss -> written ss text -> does_all fs w_start ss s ->
  exists w, reads_to fs text (Ok (w, MOk)) /\ shows_state fs s w.
Proof. exact expected_reads. Qed.
Print Assumptions C50_statements.

(** Assignments of all kinds, a definition of several lines with another in it, nested
    conditionals, rules with recipes, a rule in two parts, words, text to evaluate,
    assignments over several lines, and includes: a file that does not exist, and one with a comment at its beginning. *)
Example C50_example : every well_formed statements /\ exists s, does_all some_files w_start statements s /\
  (exists v, w_env s (lit "x") = Some v /\ val_says (w_env s) v (lit "a b a bc!")) /\
  (exists v, w_env s (lit "z") = Some v /\ val_says (w_env s) v (mk "if a b a bc!$~  define q~x = 5~endef ~")) /\
  (exists v, w_env s (lit "e") = Some v /\ val_says (w_env s) v (lit "1 2")) /\
  (exists v, w_env s (lit "u") = Some v /\ val_says (w_env s) v (lit "<a bc>")) /\
  (exists v, w_env s (lit "inc") = Some v /\ val_says (w_env s) v (lit "a b a bc!.o")) /\
  rule_is s (lit "obj.o") [lit "a"; lit "b"; lit "a"; lit "bc!.o"] [] false /\
  w_rules s (lit "lost") = None /\
  (exists v, w_env s (lit "lib_x") = Some v /\ val_says (w_env s) v (lit "d/a.d d/b.d")) /\
  rule_is s (lit "b.o") [lit "d/a.d"; lit "d/b.d"] [[t_ " A=1 "; r_ "x"; t_ "; := 2"]; [t_ "echo "; Sub (lit "OBJS") (lit ".o") []];
    [t_ "if "; r_ "p"; t_ "; "; nextline; t_ "x = \1\\"; nextline; t_ "endif"]] false /\
  says (w_env s) [t_ "if "; r_ "p"; t_ "; "; nextline; t_ "x = \1\\"; nextline; t_ "endif"] (mk "if lib; \~x = \1\\\~endif") /\
  says (w_env s) [t_ "echo "; Sub (lit "OBJS") (lit ".o") []] (lit "echo a b") /\
  w_rules s (lit "lib.a") = w_rules s (lit "b.o") /\
  rule_is s (lit "t") [lit "d"; lit "a"; lit "bc"; lit "more"] [[t_ "echo "; r_ "x"]; [t_ "ifeq (a,b)"]] false /\
  rule_is s (lit "v") [] [[]] true /\
  (exists v, w_env s (lit "L") = Some v /\ val_says (w_env s) v (lit "a.clib b.c a b a bc! z")).
Proof. exact (conj statements_formed statements_do). Qed.
Example C50_example_files : ascii_files some_files /\ written rules_mk (mk "# A header,~y = lost # the end~" ++ show_all rules_mk).
Proof. exact (conj some_files_ascii rules_written). Qed.

(** With the other branches the code does not do what a reader expects.  [acts_all] is what
    it does with all statements. *)
Theorem C50_all_branches : forall fs ss text s, ascii_files fs -> every well_formed ss -> written ss text -> acts_all fs true w_start ss s ->
  exists w, reads_to fs text (Ok (w, MOk)) /\ shows_state fs s w.
Proof. exact written_reads. Qed.
Print Assumptions C50_all_branches.

Example C50_all_branches_example : every well_formed forgotten /\ exists s, acts_all no_files true w_start forgotten s /\
  w_env s (lit "x") = None /\ w_env s (lit "y") = Some (Later [t_ "kept"]) /\
  rule_is s (lit "t") [] [[t_ "one"]; [t_ "two"]] false /\ w_rules s (lit "u") = None.
Proof. exact (conj forgotten_formed forgotten_acts). Qed.

(** An assignment continued over several lines, each but the last ending in a backslash, assigns
    the lines with single spaces between them, whatever the operator and whether or not the
    value begins on the line of the operator ([down]). *)
Theorem C50_lines : forall fs x o (down : bool) l ls, ascii_files fs -> name x -> Forall line_part (l :: ls) -> (down = true \/ ls <> []) ->
  exists w, reads_to fs (x ++ (if down then removelast (show_op o) ++ continues else show_op o) ++ l ++ concat (List.map (fun l => continues ++ l) ls) ++ nl) (Ok (w, MOk)) /\
    has_value fs w x (join c_space (l :: ls)) /\ (forall y, y <> x -> undefined w y) /\ forall t, rule_of (w_names w) (w_db w) t = None.
Proof. exact lines_joined. Qed.
Print Assumptions C50_lines.

Example C50_lines_case : name (lit "SRCS") /\ Forall line_part [lit "main.c"; lit "a b.c"; lit "z.c"].
Proof. exact lines_case. Qed.

(** The usual way to name the objects of some sources: the list of sources (on one line, on
    several, or added to with `+=`: [listed] in [ObjectSpec]), the same list with other endings, a
    rule.  [ends_once from n]: the ending is found in [n ++ from] at the end only. *)
Theorem C50_objects : forall fs srcs objs prog from to z v, ascii_files fs -> name srcs -> name objs -> name prog -> name z ->
  srcs <> objs -> z <> srcs -> z <> objs -> Forall word_char from -> Forall word_char to -> plain_value v ->
  forall stems list, Forall file_name stems -> Forall (ends_once from) stems -> listed srcs (List.map (fun n => n ++ from) stems) list ->
  exists w r, reads_to fs (list ++
      objs ++ lit " = $(" ++ srcs ++ lit ":" ++ from ++ lit "=" ++ to ++ lit ")" ++ nl ++
      prog ++ lit ": $(" ++ objs ++ lit ")" ++ nl ++
      z ++ lit " = " ++ v ++ nl) (Ok (w, MOk)) /\
    has_value fs w objs (join c_space (List.map (fun n => n ++ to) stems)) /\
    option_map view (rule_of (w_names w) (w_db w) prog) = Some r /\ List.map block_text (rv_deps r) = List.map (fun n => n ++ to) stems.
Proof. exact objects_built. Qed.
Print Assumptions C50_objects.

Example C50_objects_case : name (lit "SRCS") /\ name (lit "OBJS") /\ name (lit "prog") /\ Forall word_char (lit ".c") /\ Forall word_char (lit ".o") /\
  Forall file_name [lit "main"; lit "src/util"] /\ Forall (ends_once (lit ".c")) [lit "main"; lit "src/util"] /\
  listed (lit "SRCS") [lit "main.c"; lit "src/util.c"] (mk "SRCS = main.c src/util.c~") /\
  listed (lit "SRCS") [lit "main.c"; lit "src/util.c"] (mk "SRCS = \~@main.c \~@src/util.c~") /\
  listed (lit "SRCS") [lit "main.c"; lit "src/util.c"] (mk "SRCS = main.c~SRCS += src/util.c~").
Proof. exact objects_case. Qed.

(** * C23: substitution references in makefiles *)

(** Sources in which the ending is found before the end of the name, too, are not replaced:
    `foo.cpp.cpp` does not become `foo.cpp.o`. *)
Theorem C23_found_twice_refuted : forall fs srcs objs prog from to z v, ascii_files fs -> name srcs -> name objs -> name prog -> name z ->
  srcs <> objs -> z <> srcs -> z <> objs -> Forall word_char from -> Forall word_char to -> plain_value v ->
  forall sources list, listed srcs sources list -> Forall (fun s => exists a b, s = a ++ from ++ b /\ b <> []) sources ->
  exists w r, reads_to fs (list ++
      objs ++ lit " = $(" ++ srcs ++ lit ":" ++ from ++ lit "=" ++ to ++ lit ")" ++ nl ++
      prog ++ lit ": $(" ++ objs ++ lit ")" ++ nl ++
      z ++ lit " = " ++ v ++ nl) (Ok (w, MOk)) /\
    has_value fs w objs (join c_space sources) /\
    option_map view (rule_of (w_names w) (w_db w) prog) = Some r /\ List.map block_text (rv_deps r) = sources.
Proof. exact objects_kept. Qed.
Print Assumptions C23_found_twice_refuted.

Example C23_found_twice_case : listed (lit "SRCS") [lit "a.c.c"; lit "lib.core/b.c"] (mk "SRCS = a.c.c lib.core/b.c~") /\
  Forall (fun s => exists a b, s = a ++ lit ".c" ++ b /\ b <> []) [lit "a.c.c"; lit "lib.core/b.c"].
Proof. exact twice_case. Qed.

(** If the directory of the sources comes from a variable, the names of the files are lost: with
    `SRCS = $(dir)/a.c $(dir)/b.c`, `$(SRCS:.c=.o)` is `src.o src.o`, not `src/a.o src/b.o`. *)
Theorem C23_directory_refuted : forall fs d srcs objs dir from to, ascii_files fs -> name d -> name srcs -> name objs -> d <> srcs -> d <> objs -> srcs <> objs ->
  file_name dir -> Forall word_char from -> Forall word_char to ->
  forall names, names <> [] -> Forall file_name names -> Forall (fun n => ends_once from (dir ++ n)) names ->
  exists w, reads_to fs (d ++ lit " = " ++ dir ++ nl ++
      srcs ++ lit " = " ++ join c_space (List.map (fun n => lit "$(" ++ d ++ lit ")" ++ n ++ from) names) ++ nl ++
      objs ++ lit " = $(" ++ srcs ++ lit ":" ++ from ++ lit "=" ++ to ++ lit ")" ++ nl) (Ok (w, MOk)) /\
    has_value fs w srcs (join c_space (List.map (fun n => dir ++ n ++ from) names)) /\
    has_value fs w objs (join c_space (List.map (fun _ => dir ++ to) names)) /\
    join c_space (List.map (fun n => dir ++ n ++ to) names) <> join c_space (List.map (fun _ => dir ++ to) names).
Proof. exact directory_refuted. Qed.
Print Assumptions C23_directory_refuted.

Example C23_directory_case : file_name (lit "src") /\ Forall word_char (lit ".c") /\ Forall word_char (lit ".o") /\ Forall file_name [lit "/a"; lit "/b"] /\
  Forall (fun n => ends_once (lit ".c") (lit "src" ++ n)) [lit "/a"; lit "/b"] /\
  join c_space (List.map (fun n => lit "$(" ++ lit "dir" ++ lit ")" ++ n ++ lit ".c") [lit "/a"; lit "/b"]) = lit "$(dir)/a.c $(dir)/b.c".
Proof. exact directory_case. Qed.

(** * C31: conditionals *)

(** After the `endif` of a branch that is not taken, no line has any effect, whatever the
    lines are (but for other conditionals). *)
Theorem C31_after_endif_refuted : forall fs a b yes rest, ascii_files fs -> plain_condition a -> plain_condition b -> trim a <> trim b ->
  every well_formed (yes ++ rest) -> every straight (yes ++ rest) ->
  exists w, reads_to fs (lit "ifeq (" ++ a ++ lit "," ++ b ++ lit ")" ++ nl ++ show_all yes ++ lit "endif" ++ nl ++ show_all rest) (Ok (w, MOk)) /\
    (forall x, undefined w x) /\ forall t, rule_of (w_names w) (w_db w) t = None.
Proof. exact never_again. Qed.
Print Assumptions C31_after_endif_refuted.

Example C31_after_endif_case : plain_condition (lit "a") /\ plain_condition (lit "b c") /\ trim (lit "a") <> trim (lit "b c") /\
  every well_formed (endif_yes ++ endif_rest) /\ every straight (endif_yes ++ endif_rest).
Proof. exact endif_case. Qed.

(** * C32: ignored lines *)

(** The recipe of a rule in a branch that is not taken becomes part of the recipe of the
    rule before the conditional. *)
Theorem C32_recipe_moves_refuted : forall fs t lines a b u lines' z v, ascii_files fs -> name t -> Forall (Forall ordinary) lines ->
  plain_condition a -> plain_condition b -> trim a <> trim b -> name u -> u <> t -> Forall (Forall ordinary) lines' -> name z -> plain_value v ->
  exists w r, reads_to fs (t ++ lit ": " ++ nl ++ concat (List.map (fun l => c_tab :: l ++ nl) lines) ++
      lit "ifeq (" ++ a ++ lit "," ++ b ++ lit ")" ++ nl ++
      u ++ lit ": " ++ nl ++ concat (List.map (fun l => c_tab :: l ++ nl) lines') ++
      lit "else" ++ nl ++ z ++ lit " = " ++ v ++ nl ++ lit "endif" ++ nl) (Ok (w, MOk)) /\
    option_map view (rule_of (w_names w) (w_db w) t) = Some r /\ Forall2 (fun l a => expands_to fs w a l) (lines ++ lines') (rv_recipe r) /\
    rule_of (w_names w) (w_db w) u = None.
Proof. exact stolen_recipe. Qed.
Print Assumptions C32_recipe_moves_refuted.

Example C32_recipe_moves_case : name (lit "t") /\ Forall (Forall ordinary) [lit "cc -c t.c"] /\ plain_condition (lit "yes") /\ plain_condition [] /\
  trim (lit "yes") <> trim [] /\ name (lit "clean") /\ lit "clean" <> lit "t" /\ Forall (Forall ordinary) [lit "rm -rf t"; lit "echo"] /\ name (lit "z") /\
  plain_value (lit "1").
Proof. exact stolen_case. Qed.

(** * C36: makefiles that are always read *)

(** Reading does not crash if the makefile is [calm].  Missing: it must not crash for any
    other text either, and it does (see [PropEngine]). *)
Theorem C36_calm_partial : forall fs rank clean ss text, ascii_files fs -> every well_formed ss -> calm_all fs rank clean ss -> written ss text ->
  exists w, reads_to fs text (Ok (w, MOk)).
Proof. exact calm_reads. Qed.
Print Assumptions C36_calm_partial.

Example C36_calm_case : every well_formed calm_statements /\ calm_all some_files calm_rank calm_clean calm_statements.
Proof. exact calm_case. Qed.

(** * C37: the last rule *)

(** The last rule of an included file is lost, although the makefile goes on. *)
Theorem C37_included_refuted : forall fs n t lines z v, ascii_files fs -> name n -> name t -> Forall (Forall ordinary) lines -> name z -> plain_value v ->
  fs n = FText (t ++ lit ": " ++ nl ++ concat (List.map (fun l => c_tab :: l ++ nl) lines)) ->
  exists w, reads_to fs (lit "include " ++ n ++ nl ++ z ++ lit " = " ++ v ++ nl) (Ok (w, MOk)) /\
    has_value fs w z v /\ rule_of (w_names w) (w_db w) t = None.
Proof. exact included_rule_lost. Qed.
Print Assumptions C37_included_refuted.

Example C37_included_case : exists fs, ascii_files fs /\ name (lit "rules.mk") /\ name (lit "all") /\ Forall (Forall ordinary) [lit "cc -c all.c"; lit "echo"] /\
  name (lit "z") /\ plain_value (lit "1") /\
  fs (lit "rules.mk") = FText (lit "all" ++ lit ": " ++ nl ++ concat (List.map (fun l => c_tab :: l ++ nl) [lit "cc -c all.c"; lit "echo"])).
Proof. exact included_case. Qed.

(** * C47: comments *)

(** A comment at the beginning of a file hides everything up to the last `#` of the file. *)
Theorem C47_hides_refuted : forall fs p l x v, ascii_files fs -> asciis p -> Forall ordinary l -> name x -> plain_value v ->
  exists w, reads_to fs (lit "#" ++ p ++ lit "#" ++ l ++ nl ++ x ++ lit " = " ++ v ++ nl) (Ok (w, MOk)) /\
    has_value fs w x v /\ (forall y, y <> x -> undefined w y) /\ forall t, rule_of (w_names w) (w_db w) t = None.
Proof. exact comment_swallows. Qed.
Print Assumptions C47_hides_refuted.

Example C47_hides_case : asciis (mk " Compiler~CC = gcc~all: prog~	$(CC) prog.c~") /\ Forall ordinary (lit " the end") /\ name (lit "x") /\ plain_value (lit "1").
Proof. exact comment_case. Qed.

(** * C33: definitions of several lines *)

(** The lines up to the matching `endef`, each with its newline, are the value; none of
    them is executed.  (A backslash at the end of a line is kept with the newline.)
    Missing: bodies with `#` (see below and C49), and the last newline should not be part of the value. *)
Theorem C33_define_partial : forall fs x body, ascii_files fs -> name x -> nested 1 (List.map (fun l => [Txt l]) body) ->
  exists w, reads_to fs (lit "define " ++ x ++ nl ++ concat (List.map (fun l => l ++ nl) body) ++ lit "endef" ++ nl) (Ok (w, MOk)) /\
    has_value fs w x (concat (List.map (fun l => l ++ nl) body)) /\ (forall y, y <> x -> undefined w y) /\ forall t, rule_of (w_names w) (w_db w) t = None.
Proof. exact define_collects. Qed.
Print Assumptions C33_define_partial.

Example C33_define_case : name (lit "z") /\ nested 1 (List.map (fun l => [Txt l]) body_case).
Proof. exact define_case. Qed.

(** The value ends with a newline. *)
Theorem C33_joined_refuted : exists w, reads_to no_files (mk "define x~a~b~endef~") (Ok (w, MOk)) /\ has_value no_files w (lit "x") (mk "a~b~").
Proof. exact ex_define_newline. Qed.
Print Assumptions C33_joined_refuted.

(** A line that begins with `#` is dropped from the body. *)
Theorem C33_comment_refuted : exists w, reads_to no_files (mk "define x~# not a comment~b~endef~") (Ok (w, MOk)) /\ has_value no_files w (lit "x") (mk "b~").
Proof. exact ex_define_comment. Qed.
Print Assumptions C33_comment_refuted.

(** With a `#` anywhere later, the variable is not defined at all, and the lines up to
    the `#` are lost. *)
Theorem C33_endef_refuted : exists w, reads_to no_files (mk "define x~a~endef~y = 1~# comment~") (Ok (w, MOk)) /\ undefined w (lit "x") /\ undefined w (lit "y").
Proof. exact ex_define_hash. Qed.
Print Assumptions C33_endef_refuted.

(** * C35: `?=` *)

(** `?=` overwrites a variable that has a value, whatever the name and the values. *)
Theorem C35_overwrites_refuted : forall fs x a b, ascii_files fs -> name x -> plain_value a -> plain_value b ->
  exists w, reads_to fs (x ++ lit " = " ++ a ++ nl ++ x ++ lit " ?= " ++ b ++ nl) (Ok (w, MOk)) /\ has_value fs w x b.
Proof. exact maybe_overwrites. Qed.
Print Assumptions C35_overwrites_refuted.

Example C35_case : name (lit "CC") /\ plain_value (lit "gcc -O2") /\ plain_value (lit "cc").
Proof. exact maybe_case. Qed.

(** A variable has one value, so that it does not have the old one any more. *)
Theorem C35_one_value : forall fs w x a b, has_value fs w x a -> has_value fs w x b -> a = b.
Proof. exact has_value_unique. Qed.
Print Assumptions C35_one_value.

(** * C39: missing separators *)

(** A line of words without a separator is never reported: it has no effect. *)
Theorem C39_separator_refuted : forall fs ws, ascii_files fs -> word_line ws ->
  exists w, reads_to fs (join c_space ws ++ nl) (Ok (w, MOk)) /\ (forall x, undefined w x) /\ forall t, rule_of (w_names w) (w_db w) t = None.
Proof. exact words_ignored. Qed.
Print Assumptions C39_separator_refuted.

Example C39_case : word_line [lit "not"; lit "a"; lit "rule"].
Proof. exact words_case. Qed.

(** * C38: malformed conditionals are not reported *)

(** `ifeq` and `ifneq` followed by words instead of two arguments, after any statements:
    the line has no effect (but that the rule before it is complete). *)
Theorem C38_malformed_refuted : forall fs ss s k ws, ascii_files fs -> every well_formed ss -> acts_all fs true w_start ss s ->
  In k ["ifeq"; "ifneq"] -> Forall name ws ->
  exists w, reads_to fs (show_all ss ++ join c_space (lit k :: ws) ++ nl) (Ok (w, MOk)) /\ shows_state fs (if w_deaf s then s else finish s) w.
Proof. exact malformed_ignored. Qed.
Print Assumptions C38_malformed_refuted.
Example C38_malformed_case : every well_formed statements /\ (exists s, acts_all some_files true w_start statements s /\ w_deaf s = false) /\ Forall name [lit "a"; lit "b"].
Proof. exact malformed_case. Qed.

(** * C44: recipes *)

(** The recipe of a rule is the lines after it that begin with a tab, in order; none of
    them is read as makefile syntax.  Missing: recipe lines with references (see C50) or
    an odd number of backslashes at the end (see C56), and makefiles with a `#` after the rule (see below). *)
Theorem C44_recipe_partial : forall fs t deps lines z v, ascii_files fs -> name t -> Forall name deps -> Forall plain_command lines -> name z -> plain_value v ->
  exists w r, reads_to fs (t ++ lit ": " ++ join c_space deps ++ nl ++ concat (List.map (fun l => c_tab :: l ++ nl) lines) ++ z ++ lit " = " ++ v ++ nl) (Ok (w, MOk)) /\
    option_map view (rule_of (w_names w) (w_db w) t) = Some r /\ List.map block_text (rv_deps r) = deps /\ Forall2 (fun l a => expands_to fs w a l) lines (rv_recipe r) /\
    has_value fs w z v /\ (forall y, y <> z -> undefined w y) /\ (forall u, u <> t -> rule_of (w_names w) (w_db w) u = None).
Proof. exact recipe_kept. Qed.
Print Assumptions C44_recipe_partial.

Example C44_case : name (lit "all") /\ Forall name [lit "a.o"; lit "b.o"] /\ Forall plain_command [lit "x = 1"; lit "endif"; lit "  cc -o all \n\\"] /\
  name (lit "z") /\ plain_value [].
Proof. exact recipe_case. Qed.

(** With a `#` later, the recipe and the lines after it, up to the `#`, are lost. *)
Theorem C44_hash_refuted : exists w, reads_to no_files (mk "t: d~@cmd~x = 1~# comment~y = 2~") (Ok (w, MOk)) /\ undefined w (lit "x") /\ has_value no_files w (lit "y") (lit "2") /\
  option_map (fun r => rv_recipe (view r)) (rule_of (w_names w) (w_db w) (lit "t")) = Some [].
Proof. exact ex_recipe_hash. Qed.
Print Assumptions C44_hash_refuted.

(** * C56: commands over several lines *)

(** A recipe line that ends in a backslash goes on in the next line, if that begins with
    a tab: the tab is removed, the backslash and the line break are kept, and none of the
    lines is read as makefile syntax.  Each command is given by its first line and the
    lines that continue it.  Missing: next lines without a tab (see below) or with
    nothing after the tab, references (see C50), and a `#` after the rule (see C44). *)
Theorem C56_commands_partial : forall fs t deps cmds z v, ascii_files fs -> name t -> Forall name deps ->
  Forall (fun c => plain_command (fst c) /\ Forall (fun k => plain_command k /\ k <> []) (snd c)) cmds -> name z -> plain_value v ->
  exists w r, reads_to fs (t ++ lit ": " ++ join c_space deps ++ nl ++
      concat (List.map (fun c => c_tab :: fst c ++ concat (List.map (fun k => [c_bslash; c_nl; c_tab] ++ k) (snd c)) ++ nl) cmds) ++ z ++ lit " = " ++ v ++ nl) (Ok (w, MOk)) /\
    option_map view (rule_of (w_names w) (w_db w) t) = Some r /\ List.map block_text (rv_deps r) = deps /\
    Forall2 (fun c a => expands_to fs w a (fst c ++ concat (List.map (fun k => [c_bslash; c_nl] ++ k) (snd c)))) cmds (rv_recipe r) /\
    has_value fs w z v /\ (forall y, y <> z -> undefined w y) /\ (forall u, u <> t -> rule_of (w_names w) (w_db w) u = None).
Proof. exact commands_kept. Qed.
Print Assumptions C56_commands_partial.

Example C56_commands_case : name (lit "all") /\ Forall name [lit "a.o"] /\
  Forall (fun c => plain_command (fst c) /\ Forall (fun k => plain_command k /\ k <> []) (snd c)) [(lit "for i in 1 2; do", [lit "  x = 1"; lit "done \n"]); (lit "echo", [])] /\
  name (lit "z") /\ plain_value [].
Proof. exact commands_case. Qed.

(** Without a tab, the next line is not part of the command: it is read as makefile
    syntax, here as an assignment, and the command ends in the backslash and the line
    break. *)
Theorem C56_no_tab_refuted : forall fs t deps lines l x v, ascii_files fs -> name t -> Forall name deps -> Forall plain_command lines -> plain_command l -> name x -> plain_value v ->
  exists w r, reads_to fs (t ++ lit ": " ++ join c_space deps ++ nl ++ concat (List.map (fun l => c_tab :: l ++ nl) lines) ++ (c_tab :: l ++ [c_bslash; c_nl]) ++ x ++ lit " = " ++ v ++ nl) (Ok (w, MOk)) /\
    option_map view (rule_of (w_names w) (w_db w) t) = Some r /\ Forall2 (fun l a => expands_to fs w a l) (lines ++ [l ++ [c_bslash; c_nl]]) (rv_recipe r) /\ has_value fs w x v.
Proof. exact cut_command. Qed.
Print Assumptions C56_no_tab_refuted.

Example C56_no_tab_case : name (lit "t") /\ Forall name [lit "d"] /\ Forall plain_command [lit "echo"] /\ plain_command (lit "cc -c \n ") /\ name (lit "x") /\ plain_value (lit "1").
Proof. exact no_tab_case. Qed.
