(** Property theorems about whole makefiles as text (C49).  The meaning of a makefile is
    defined in [MakeSpec], on characters with their locations only: [runs fs st t st']
    says that the text [t] leads from the state [st] to [st'].  [shows fs st w] says that
    the engine's data [w] are those of [st]. *)
From Coq Require Import String.
From Verif Require Import Base LocModel EvdModel AstModel EngineModel ModelTests EvdSpec DbSpec EvalSpec AstParseSpec EngineSpec MakeSpec
  EngineExamples MakeProofs5 MakeExamples.
Open Scope string_scope.
Open Scope list_scope.

(** * C49: the meaning of a makefile *)

(** Reading a makefile that has a meaning succeeds, and leaves exactly the variables
    (with the text they expand to and where each of its characters was written) and the
    rules (dependencies, recipe, kind) of that meaning. *)
Theorem C49_makefile_means : forall fs text st, ascii_files fs -> asciis text -> runs fs m_begin (file_text 0 text) st ->
  exists w, reads_to fs text (Ok (w, MOk)) /\ shows fs st w /\ world_good w.
Proof. exact makefile_runs. Qed.
Print Assumptions C49_makefile_means.

(** A makefile has at most one meaning. *)
Theorem C49_meaning_unique : forall fs text st st', ascii_files fs -> asciis text ->
  runs fs m_begin (file_text 0 text) st -> runs fs m_begin (file_text 0 text) st' ->
  (forall x, m_defs st x = None <-> m_defs st' x = None) /\
  (forall x v v' m m', m_defs st x = Some v -> m_defs st' x = Some v' -> value_is (m_defs st) v m -> value_is (m_defs st') v' m' -> m' = m) /\
  (forall t, option_map tv_deps (m_rules st t) = option_map tv_deps (m_rules st' t) /\ option_map tv_double (m_rules st t) = option_map tv_double (m_rules st' t)) /\
  m_files st = m_files st'.
Proof. exact makefile_unique. Qed.
Print Assumptions C49_meaning_unique.

(** A makefile with assignments, conditionals, a continued line, a definition of
    several lines, an include, rules, recipe lines and lines without effect. *)
Example C49_files : ascii_files big_files /\ asciis big_text.
Proof. exact big_ascii. Qed.
Example C49_example : exists st, runs big_files m_begin (file_text 0 big_text) st /\
  m_value st (lit "x") (lit "a sub") /\ m_value st (lit "y") (lit "ab c") /\ m_value st (lit "z") (mk "foo a sub~  bar~ end") /\
  m_rule_is st (lit "t") [lit "d"; lit "ab"; lit "c"] [lit " first"; mk "cmd $(x) \~more"; lit "last"] false /\
  m_rule_is st (lit "u") [lit "d"; lit "ab"; lit "c"] [lit " first"; mk "cmd $(x) \~more"; lit "last"] false /\
  m_rule_is st (lit "v") [lit "w"] [] true /\
  m_rule_is st (lit "r") [lit "s"] [lit "nothing"] false.
Proof. exact big_runs. Qed.

(** A makefile with references that replace the ends of words. *)
Example C49_substitution_example : asciis subst_text /\ exists st, runs no_files m_begin (file_text 0 subst_text) st /\
  m_value st (lit "OBJS") (lit "a.o b.o") /\ m_value st (lit "LATER") (lit "a.x b.x") /\
  m_rule_is st (lit "a.t") [lit "xa.d"; lit "b.d"; lit "a.x"; lit "b.x"] [lit "cc $(SRCS:.c=.o)"] false /\
  m_rule_is st (lit "b.t") [lit "xa.d"; lit "b.d"; lit "a.x"; lit "b.x"] [lit "cc $(SRCS:.c=.o)"] false /\
  m_rule_is st (lit "all") [lit "xa.d"; lit "b.d"; lit "a.x"; lit "b.x"] [lit "cc $(SRCS:.c=.o)"] false.
Proof. exact (conj subst_ascii subst_runs). Qed.
