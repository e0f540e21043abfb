(** Property theorems about evaluated text (C52).  The text after expansion is read by the
    same rules as a makefile; [MakeSpec.runs] says so for all texts that one variable or
    the line itself supplies (see C49).  Here: the consequences for makefiles written out
    from statements ([WriteSpec]). *)
From Coq Require Import String.
From Verif Require Import Base LocModel EvdModel AstModel EngineModel ParseModel ModelTests EvdSpec DbSpec ParseSpec EvalSpec EngineSpec MakeSpec WriteSpec
  EngineExamples WriteProofs7 WriteExamples NestExamples.
Open Scope string_scope.
Open Scope list_scope.

(** * C52: `$(eval text)` *)

(** An assignment can be put into `$(eval ...)`, anywhere in a makefile, at any state: what
    the makefile defines stays the same.  Missing: text with references or `$$` in it,
    other lines, and several lines, where the code crashes or forgets the text (see
    below). *)
Theorem C52_assignment_partial : forall fs p x o v q s, ascii_files fs -> every well_formed (p ++ q) -> name x -> eval_value v ->
  acts_all fs true w_start (p ++ SAssign x o [Txt v] :: q) s ->
  exists w, reads_to fs (show_all p ++ (lit "$(eval " ++ x ++ show_op o ++ v ++ lit ")" ++ nl) ++ show_all q) (Ok (w, MOk)) /\ shows_state fs s w.
Proof. exact eval_like_line. Qed.
Print Assumptions C52_assignment_partial.

Example C52_assignment_case : every well_formed (statements ++ calm_statements) /\ name (lit "x") /\ eval_value (lit "1, 2 = 3") /\
  exists s v, acts_all no_files true w_start ([SAssign (lit "x") OSet [t_ "0"]; SRule [lit "t"] false [t_ "d"] []] ++ SAssign (lit "x") OMore [t_ "1, 2 = 3"] :: [SAssign (lit "y") ONow [r_ "x"]]) s /\
    w_env s (lit "y") = Some v /\ val_says (w_env s) v (lit "0 1, 2 = 3") /\ rule_is s (lit "t") [lit "d"] [] false.
Proof. exact like_line_case. Qed.

(** A rule in evaluated text is lost, although the makefile goes on. *)
Theorem C52_rule_refuted : forall fs ts deps (double : bool) z v, ascii_files fs -> ts <> [] -> Forall name ts -> Forall name deps -> name z -> plain_value v ->
  exists w, reads_to fs (lit "$(eval " ++ join c_space ts ++ lit (if double then ":: " else ": ") ++ join c_space deps ++ lit ")" ++ nl ++ z ++ lit " = " ++ v ++ nl) (Ok (w, MOk)) /\
    has_value fs w z v /\ (forall y, y <> z -> undefined w y) /\ forall t, rule_of (w_names w) (w_db w) t = None.
Proof. exact eval_rule_lost. Qed.
Print Assumptions C52_rule_refuted.

Example C52_rule_case : [lit "a"; lit "b"] <> [] /\ Forall name [lit "a"; lit "b"] /\ Forall name [lit "c.o"] /\ name (lit "z") /\ plain_value (lit "1").
Proof. exact rule_lost_case. Qed.

(** The text may come from a variable. *)
Example C52_variable_example : exists w, reads_to no_files (mk "Y = X = 7~$(eval $(Y))~Z = $(X)~") (Ok (w, MOk)) /\ has_value no_files w (lit "X") (lit "7") /\
  has_value no_files w (lit "Z") (lit "7").
Proof. exact ex_eval_variable. Qed.
Example C52_define_example : exists w, reads_to no_files (mk "define Y~X := 7~endef~$(eval $(Y))~") (Ok (w, MOk)) /\ has_value no_files w (lit "X") (lit "7").
Proof. exact ex_eval_define. Qed.

(** If it comes from several places, reading crashes. *)
Theorem C52_reference_refuted : reads_to no_files (mk "Y = b~$(eval X := $(Y))~") Panic.
Proof. exact ex_eval_now. Qed.
Print Assumptions C52_reference_refuted.
Theorem C52_quoted_reference_refuted : reads_to no_files (mk "Y = b~$(eval X = $$(Y))~") Panic.
Proof. exact ex_eval_later. Qed.
Print Assumptions C52_quoted_reference_refuted.
Theorem C52_several_lines_refuted : reads_to no_files (mk "define Y~X = 7~W = 8~endef~$(eval $(Y))~") Panic.
Proof. exact ex_eval_lines. Qed.
Print Assumptions C52_several_lines_refuted.
