(** Property theorems about sensitivities: which variables the dependencies of rules, the values
    and the recipes of a makefile are said to depend on (C54).  [uses] (in [WriteSpec]) is defined
    on the statements; [depends_on w P b] says that the sensitivity of the block [b], as listed by
    `sensitivity()`, names the variables with [P] and no others. *)
From Coq Require Import String.
From Verif Require Import Base LocModel EvdModel AstModel EngineModel ParseModel ModelTests EvdSpec DbSpec ParseSpec EvalSpec EngineSpec MakeSpec WriteSpec
  EngineExamples WriteProofs6 WriteProofs7 ObjectSpec ObjectProofs WriteExamples SensProofs2 SensExamples.
Open Scope string_scope.
Open Scope list_scope.

(** * C54: sensitivities *)

(** Whatever statements a makefile is written from: after reading it, the sensitivity of every
    dependency of every rule names exactly the variables that were used for it when the rule
    was read, and evaluating a variable or a line of a recipe names exactly the variables
    used in it. *)
Theorem C54_statements : forall fs ss text s, ascii_files fs -> every well_formed ss -> written ss text -> acts_all fs true w_start ss s ->
  exists w, reads_to fs text (Ok (w, MOk)) /\ shows_state fs s w /\ tracks_state fs s w.
Proof. exact written_tracks. Qed.
Print Assumptions C54_statements.

(** A rule after any other statements: each of its dependencies names the variables used on the
    line. *)
Theorem C54_rule : forall fs ss s t deps d z v, acts_all fs true w_start ss s -> ascii_files fs -> every well_formed ss -> w_deaf s = false ->
  name t -> deps_expr deps -> says (w_env s) deps d -> safe_deps d -> name z -> plain_value v -> w_rules (finish s) t = None ->
  exists w r, reads_to fs (show_all ss ++ t ++ lit ": " ++ show deps ++ nl ++ z ++ lit " = " ++ v ++ nl) (Ok (w, MOk)) /\
    option_map view (rule_of (w_names w) (w_db w) t) = Some r /\ List.map block_text (rv_deps r) = words d /\
    Forall (depends_on w (uses (w_env s) deps)) (rv_deps r).
Proof. exact rule_tracked. Qed.
Print Assumptions C54_rule.

Example C54_rule_case : every well_formed flags /\ deps_expr [t_ "x "; r_ "srcs"] /\ exists s, acts_all no_files true w_start flags s /\ w_deaf s = false /\
  says (w_env s) [t_ "x "; r_ "srcs"] (lit "x a.c a.c b.c ") /\ safe_deps (lit "x a.c a.c b.c ") /\ w_rules (finish s) (lit "t") = None /\
  forall n, uses (w_env s) [t_ "x "; r_ "srcs"] n <-> In n [lit "srcs"; lit "base"; lit "more"; lit "extra"].
Proof. exact flags_case. Qed.

(** The variables that are used are enough: where they have the same values, the text is the same. *)
Theorem C54_enough : forall E E' e s, says E e s -> (forall x, uses E e x -> E' x = E x) -> says E' e s.
Proof. exact (fun E E' => proj1 (uses_enough E E')). Qed.
Print Assumptions C54_enough.

(** None can be left out: another value of one of them leads to another text. *)
Theorem C54_needed : forall E x e a b, ~ In (Ref x) e -> (forall k r, ~ In (Sub x k r) e) -> unreplaced e -> concat a <> concat b -> (forall y v, In (Ref y) e -> E y = Some v -> exists ps, v = Now ps) ->
  forall s s', says (set E x (Now a)) (Ref x :: e) s -> says (set E x (Now b)) (Ref x :: e) s' -> s <> s'.
Proof. exact used_matters. Qed.
Print Assumptions C54_needed.

(** A chain of deferred values is followed to its end. *)
Theorem C54_chain : forall fs x y t a z v, ascii_files fs -> name x -> name y -> x <> y -> name t -> file_name a -> name z -> plain_value v ->
  exists w r, reads_to fs (x ++ lit " = " ++ a ++ nl ++ y ++ lit " = $(" ++ x ++ lit ")" ++ nl ++ t ++ lit ": $(" ++ y ++ lit ")" ++ nl ++ z ++ lit " = " ++ v ++ nl) (Ok (w, MOk)) /\
    option_map view (rule_of (w_names w) (w_db w) t) = Some r /\ List.map block_text (rv_deps r) = [a] /\ Forall (depends_on w (fun n => n = x \/ n = y)) (rv_deps r).
Proof. exact chain_tracked. Qed.
Print Assumptions C54_chain.

(** With `:=` the variable on the right is forgotten: `x = a`, `y := $(x)`, `t: $(y)` gives a
    dependency [a] that is said to depend on [y] alone, although it comes from [x]. *)
Theorem C54_now_refuted : forall fs x y t a z v, ascii_files fs -> name x -> name y -> x <> y -> name t -> file_name a -> name z -> plain_value v ->
  exists w r, reads_to fs (x ++ lit " = " ++ a ++ nl ++ y ++ lit " := $(" ++ x ++ lit ")" ++ nl ++ t ++ lit ": $(" ++ y ++ lit ")" ++ nl ++ z ++ lit " = " ++ v ++ nl) (Ok (w, MOk)) /\
    option_map view (rule_of (w_names w) (w_db w) t) = Some r /\ List.map block_text (rv_deps r) = [a] /\ Forall (depends_on w (fun n => n = y)) (rv_deps r).
Proof. exact (fun fs x y t a z v A X Y _ => chain_forgets fs x y t a z v A X Y). Qed.
Print Assumptions C54_now_refuted.

(** The variables in the name of a variable are forgotten: `x = y`, `$(x) = a`, `t: $(y)`. *)
Theorem C54_name_refuted : forall fs x y t a z v, ascii_files fs -> name x -> name y -> x <> y -> name t -> file_name a -> name z -> plain_value v ->
  exists w r, reads_to fs (x ++ lit " = " ++ y ++ nl ++ lit "$(" ++ x ++ lit ") = " ++ a ++ nl ++ t ++ lit ": $(" ++ y ++ lit ")" ++ nl ++ z ++ lit " = " ++ v ++ nl) (Ok (w, MOk)) /\
    option_map view (rule_of (w_names w) (w_db w) t) = Some r /\ List.map block_text (rv_deps r) = [a] /\ Forall (depends_on w (fun n => n = y)) (rv_deps r).
Proof. exact (fun fs x y t a z v A X Y _ => name_forgotten fs x y t a z v A X Y). Qed.
Print Assumptions C54_name_refuted.

(** The variables of a condition are forgotten: the rule is there because of the value of [x],
    and its dependency names no variable. *)
Theorem C54_condition_refuted : forall fs x y t a z v, ascii_files fs -> name x -> name y -> name t -> file_name a -> name z -> plain_value v ->
  exists w r, reads_to fs (x ++ lit " = " ++ a ++ nl ++ lit "ifeq ($(" ++ x ++ lit ")," ++ a ++ lit ")" ++ nl ++ t ++ lit ": " ++ y ++ nl ++ lit "endif" ++ nl ++ z ++ lit " = " ++ v ++ nl) (Ok (w, MOk)) /\
    option_map view (rule_of (w_names w) (w_db w) t) = Some r /\ List.map block_text (rv_deps r) = [y] /\ Forall (fun b => b_sens b = []) (rv_deps r).
Proof. exact condition_forgotten. Qed.
Print Assumptions C54_condition_refuted.

(** The variables of a target are forgotten. *)
Theorem C54_target_refuted : forall fs x y a z v, ascii_files fs -> name x -> name y -> file_name a -> name z -> plain_value v ->
  exists w r, reads_to fs (x ++ lit " = " ++ a ++ nl ++ lit "$(" ++ x ++ lit "): " ++ y ++ nl ++ z ++ lit " = " ++ v ++ nl) (Ok (w, MOk)) /\
    option_map view (rule_of (w_names w) (w_db w) a) = Some r /\ List.map block_text (rv_deps r) = [y] /\ Forall (fun b => b_sens b = []) (rv_deps r).
Proof. exact target_forgotten. Qed.
Print Assumptions C54_target_refuted.

Example C54_chain_case : name (lit "CC") /\ name (lit "tool") /\ lit "CC" <> lit "tool" /\ name (lit "prog") /\ file_name (lit "bin/gcc") /\ name (lit "z") /\ plain_value (lit "1").
Proof. exact chain_case. Qed.
