(** Property theorems about expressions as text (C28, C29).  [span_marks s] is the
    text of the span [s], each character with its location; [reads_ast] is the
    grammar and [means] the value of a text, in [AstParseSpec]. *)
From Coq Require Import String.
From Verif Require Import Base LocModel EvdModel NomModel AstModel ParseModel AstParseModel EngineModel ModelTests EvdSpec ParseSpec EvalSpec
  AstParseSpec EvdProofs ParseProofs5 EvalProofs2 EvalExamples AstParseProofs AstParseProofs3 AstExamples.
Open Scope string_scope.
Open Scope list_scope.

(** C28: parsing reads the whole text as the grammar says, or reports a failure
    because the grammar has no reading of it.  It always ends, and cannot panic on
    flat text (text straight from a file).  If the text is tidy (what was written in one
    go is in one piece: a file and its logical lines), then what was written in one go is
    read as one constant. *)
Theorem C28_parse_follows_grammar : forall s, wf_span s ->
  match parse_ast s with
  | Ok (POk r a) => sp_len r = 0 /\ reads_ast (tidy s) (span_marks s) a
  | Ok (PFailure _) => forall a, ~ reads_ast False (span_marks s) a
  | Ok (PError _) | OutOfFuel => False
  | Panic => ~ flat s
  end.
Proof. exact parse_outcome_ok. Qed.
Print Assumptions C28_parse_follows_grammar.

(** C28: text without '$' evaluates to itself, with no variables looked up. *)
Theorem C28_plain_text : forall fs s w, wf_span s -> flat s -> world_ok w -> ~ has fst 36%N (span_marks s) ->
  exists r a, parse_ast s = Ok (POk r a) /\ sp_len r = 0 /\ evaluates fs w a (span_marks s) [].
Proof. exact (fun fs s w W F O N => parse_evaluates fs s w _ _ W F O (means_plain _ _ _ N)). Qed.
Print Assumptions C28_plain_text.

(** C28: text made of characters, `$$`, `$c`, `$(name)` and (in tidy text)
    `$(name:key=replacement)` evaluates to what it means: everything around the
    references is kept, in order. *)
Theorem C28_text_with_references : forall fs s w m d, wf_span s -> flat s -> world_ok w ->
  means (tidy s) (world_env w) (span_marks s) m d ->
  exists r a, parse_ast s = Ok (POk r a) /\ sp_len r = 0 /\ evaluates fs w a m d.
Proof. exact parse_evaluates. Qed.
Print Assumptions C28_text_with_references.

(** C28: so does a reference `$(name:key=replacement)` alone: it is the value of the
    variable with the words replaced. *)
Theorem C28_substitution_reference : forall fs s w x b t y n k r m d, wf_span s -> tidy s -> world_ok w ->
  span_marks s = x :: b :: t ++ [y] -> fst x = 36%N -> fst b = 40%N -> fst y = 41%N ->
  ~ has fst 36%N t -> ~ has fst 40%N t -> ~ has fst 41%N t -> unbroken t -> is_subst t n k r ->
  (forall f, In f function_names -> ~ begins_with f t) ->
  subst_value (world_env w) (chars n) k r m d ->
  exists r a, parse_ast s = Ok (POk r a) /\ sp_len r = 0 /\ evaluates fs w a m d.
Proof. exact parse_subst_reference. Qed.
Print Assumptions C28_substitution_reference.

(** C28: `$$` evaluates to one dollar sign, with any plain text around. *)
Theorem C28_dollar : forall fs s w t x y u, wf_span s -> flat s -> world_ok w -> span_marks s = t ++ x :: y :: u ->
  ~ has fst 36%N t -> fst x = 36%N -> fst y = 36%N -> ~ has fst 36%N u ->
  exists r a, parse_ast s = Ok (POk r a) /\ sp_len r = 0 /\ evaluates fs w a (t ++ y :: u) [].
Proof. exact parse_dollar. Qed.
Print Assumptions C28_dollar.

(** C28 fails after a function call: what follows it is dropped, whatever it is. *)
Theorem C28_text_after_call_refuted : forall k x b n y r a, In k function_names ->
  fst x = 36%N -> fst b = 40%N -> fst y = 41%N -> ~ has fst 40%N n -> ~ has fst 41%N n -> begins_with k n ->
  reads_ast True (x :: b :: n ++ y :: r) a -> forall r', reads_ast True (x :: b :: n ++ y :: r') a.
Proof. exact (call_drops_rest True). Qed.
Print Assumptions C28_text_after_call_refuted.

(** C28 fails on text collected from several expansions: parsing may panic. *)
Theorem C28_nested_panics_refuted : exists s, wf_span s /\ ~ has fst 36%N (span_marks s) /\ parse_ast s = Panic.
Proof. exact parse_nested_panics. Qed.
Print Assumptions C28_nested_panics_refuted.

(** "a $(X)c" in the example world. *)
Example C28_example : wf_span (block_span (text_block (lit "a $(X)c"))) /\ flat (block_span (text_block (lit "a $(X)c"))) /\
  exists m, means (tidy (block_span (text_block (lit "a $(X)c")))) (world_env ex_world) (span_marks (block_span (text_block (lit "a $(X)c")))) m [lit "X"; lit "Y"] /\ chars m = lit "a a b.cc".
Proof. exact ex_means. Qed.

(** "$(Y:.c=.o)" in the example world. *)
Example C28_substitution_example : wf_span (block_span (text_block (lit "$(Y:.c=.o)"))) /\ tidy (block_span (text_block (lit "$(Y:.c=.o)"))) /\
  exists x b t y n k r m, span_marks (block_span (text_block (lit "$(Y:.c=.o)"))) = x :: b :: t ++ [y] /\
    fst x = 36%N /\ fst b = 40%N /\ fst y = 41%N /\ ~ has fst 36%N t /\ ~ has fst 40%N t /\ ~ has fst 41%N t /\ unbroken t /\
    is_subst t n k r /\ (forall f, In f function_names -> ~ begins_with f t) /\
    subst_value (world_env ex_world) (chars n) k r m [lit "Y"] /\ chars m = lit "b.o".
Proof. exact ex_subst_reference. Qed.

(** C29: `$(name)` is the variable of that name, if the name does not begin with
    the name of a built-in function and is not a substitution reference; names
    containing references are covered by [C28_text_with_references].  Missing:
    names that begin with a function name (refuted below). *)
Theorem C29_variable_partial : forall fs s w x b n y m d, wf_span s -> flat s -> world_ok w ->
  span_marks s = x :: b :: n ++ [y] -> fst x = 36%N -> fst b = 40%N -> fst y = 41%N ->
  ~ has fst 36%N n -> ~ has fst 40%N n -> ~ has fst 41%N n -> plain n ->
  (forall k, In k function_names -> ~ begins_with k n) ->
  variable_value (world_env w) (chars n) m d ->
  exists r a, parse_ast s = Ok (POk r a) /\ sp_len r = 0 /\ evaluates fs w a m d.
Proof. exact parse_variable. Qed.
Print Assumptions C29_variable_partial.

(** C29: `$c` is the variable c. *)
Theorem C29_one_character : forall fs s w x c u m d m2 d2, wf_span s -> flat s -> world_ok w ->
  span_marks s = x :: c :: u -> fst x = 36%N -> ~ In (fst c) [36; 40; 125]%N ->
  variable_value (world_env w) [fst c] m d -> means (tidy s) (world_env w) u m2 d2 ->
  exists r a, parse_ast s = Ok (POk r a) /\ sp_len r = 0 /\ evaluates fs w a (m ++ m2) (d ++ d2).
Proof. exact parse_short_variable. Qed.
Print Assumptions C29_one_character.

(** C29 fails for every name that begins with a function name: it is read as a
    call of the function, never as a variable. *)
Theorem C29_function_prefix_refuted : forall k s x b n y rest r a, wf_span s -> In k function_names ->
  span_marks s = x :: b :: n ++ y :: rest -> fst x = 36%N -> fst b = 40%N -> fst y = 41%N ->
  ~ has fst 40%N n -> ~ has fst 41%N n -> begins_with k n ->
  parse_ast s = Ok (POk r a) -> call_of k a \/ (k = "word" /\ call_of "words" a).
Proof. exact parse_call. Qed.
Print Assumptions C29_function_prefix_refuted.

(** C29 fails for braces: `${name}` is the variable `{` followed by `name}`. *)
Theorem C29_braces_refuted : forall fs s w x b u m d, wf_span s -> flat s -> world_ok w ->
  span_marks s = x :: b :: u -> fst x = 36%N -> fst b = 123%N -> ~ has fst 36%N u ->
  variable_value (world_env w) [123%N] m d ->
  exists r a, parse_ast s = Ok (POk r a) /\ sp_len r = 0 /\ evaluates fs w a (m ++ u) d.
Proof. exact parse_braces. Qed.
Print Assumptions C29_braces_refuted.

Example C29_example : exists x b n y m, span_marks (block_span (text_block (lit "$(Y)"))) = x :: b :: n ++ [y] /\ plain n /\
  fst x = 36%N /\ fst b = 40%N /\ fst y = 41%N /\ (forall k, In k function_names -> ~ begins_with k n) /\
  variable_value (world_env ex_world) (chars n) m [lit "Y"] /\ chars m = lit "b.c".
Proof. exact ex_variable. Qed.

Example C29_refuted_example : exists r l v, parse_ast (block_span (text_block (lit "$(evaluation)"))) = Ok (POk r (AEval l v)).
Proof. do 3 eexists. vm_compute. reflexivity. Qed.
