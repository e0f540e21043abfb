(** Property theorems about the words of a rule line (C51).  [cuts t w rest e] says that
    [w] is the first word or operator of [t] and [rest] what follows it ([WordSpec]). *)
From Coq Require Import String.
From Verif Require Import Base LocModel EvdModel NomModel ParseModel EngineModel EvdSpec ParseSpec EvalSpec AstParseSpec EngineSpec MakeSpec MakeProofs3 WordSpec
  ModelTests EngineExamples WordProofs WordExamples.
Open Scope string_scope.
Open Scope list_scope.

(** * C51: the words of a rule line *)

(** Every text is cut as specified, after the blanks before it; never fails. *)
Theorem C51_next_word : forall s, wf_span s -> exists r cap e w rest,
  next_mword s = Ok (POk r (cap, e)) /\ cuts (lstrip fst (span_marks s)) w rest e /\ span_marks cap = w /\ span_marks r = rest.
Proof. exact next_mword_marks. Qed.
Print Assumptions C51_next_word.

(** There is one way to cut a text; nothing is lost, and each word has a character. *)
Theorem C51_one_way : forall t w rest e w' rest' e', cuts t w rest e -> cuts t w' rest' e' -> w' = w /\ rest' = rest /\ e' = e.
Proof. exact cuts_det. Qed.
Print Assumptions C51_one_way.
Theorem C51_nothing_lost : forall t w rest e, cuts (lstrip fst t) w rest e -> lstrip fst t = w ++ rest /\ (lstrip fst t <> [] -> w <> []).
Proof. exact cuts_all. Qed.
Print Assumptions C51_nothing_lost.

Example C51_examples :
  first_word "  foo.o bar: x" "foo.o" " bar: x" MwStatic /\ first_word "a: x" "a:" " x" MwStatic /\ first_word "c:\dir\a: x" "c:\dir\a:" " x" MwStatic /\
  first_word "$(a b: c)d=e" "$(a b: c)d" "=e" MwStatic /\ first_word "${a ${b}}c" "${a ${b}}c" "" MwVariable /\ first_word "$x$$: y" "$x$$:" " y" MwVariable /\
  first_word "$(a b" "$(a b" "" MwVariable /\ first_word "a\:b\\: c" "a\:b\\:" " c" MwStatic /\ first_word "a?b?=c" "a?b" "?=c" MwStatic /\
  first_word "::= x" "::=" " x" MwVarAssign /\ first_word ":: x" "::" " x" MwDColon.
Proof. exact words_cut. Qed.

(** A quoted colon is part of a name, but not when it ends the line: `a\:` is a rule, for
    a target with a blank at its end; `a\: ` is not.  (GNU make: no rule in both cases.) *)
Theorem C51_quoted_last_refuted :
  (exists w, reads_to no_files (mk "a\:~x = y~") (Ok (w, MOk)) /\ rule_names w = [Ok (lit "a ")]) /\
  (exists w, reads_to no_files (mk "a\: ~x = y~") (Ok (w, MOk)) /\ rule_names w = []).
Proof. exact quoted_last_rule. Qed.
Print Assumptions C51_quoted_last_refuted.
