(** Property theorems about evaluation (C14, C16-C23).  The specification of
    expansion is [expands] in [EvalSpec]; [world_env w] are the definitions in the
    engine state [w]; [evaluates] says that evaluation ends with the given text,
    provenance and sensitivity. *)
From Coq Require Import String.
From Verif Require Import Base LocModel EvdModel NomModel AstModel ParseModel AstParseModel EngineModel ModelTests EvdSpec ParseSpec DbSpec EvalSpec
  EvdProofs ParseProofs5 SubstProofs CutProofs EvalProofs2 EvalProofs3 FuelProofs EvalProofs4 EvalExamples.
Open Scope string_scope.
Open Scope list_scope.

(** C14: after `x += new`, `$(x)` is the old expansion, one space, the expansion
    of [new]; provided [new] does not itself refer to x. *)
Theorem C14_append_to_defined : forall fs w id s l lr old new m1 d1 m2 d2,
  world_ok w -> variable_name (w_names w) (l_str s) = Some id -> asciis (l_str s) -> plain (located_marks s) ->
  get_variable (w_db w) id = Some old -> ast_ok (v_ast new) ->
  expands (world_env w) (v_ast old) m1 d1 -> expands (world_env w) (v_ast new) m2 d2 -> ~ In (l_str s) d2 ->
  evaluates fs (set_db w (append_to_variable (w_db w) id l new true)) (reference lr s)
    (m1 ++ made 32%N :: m2) (l_str s :: d1 ++ d2).
Proof. exact append_existing. Qed.
Print Assumptions C14_append_to_defined.

(** C14: of an undefined variable, just [new]. *)
Theorem C14_append_to_undefined : forall fs w id s l lr new m2 d2,
  world_ok w -> variable_name (w_names w) (l_str s) = Some id -> asciis (l_str s) -> plain (located_marks s) ->
  get_variable (w_db w) id = None -> ast_ok (v_ast new) ->
  expands (world_env w) (v_ast new) m2 d2 -> ~ In (l_str s) d2 ->
  evaluates fs (set_db w (append_to_variable (w_db w) id l new true)) (reference lr s) m2 (l_str s :: d2).
Proof. exact append_undefined. Qed.
Print Assumptions C14_append_to_undefined.

(** C14: everything else, and flavor and origin, are kept. *)
Theorem C14_append_frame : forall d id l v,
  (forall j, j <> id -> get_variable (append_to_variable d id l v true) j = get_variable d j) /\
  (forall t j, get_variable_for_target (append_to_variable d id l v true) t j = get_variable_for_target d t j) /\
  (forall t, get_rule (append_to_variable d id l v true) t = get_rule d t) /\
  (forall old new, get_variable d id = Some old -> get_variable (append_to_variable d id l v true) id = Some new ->
     v_flavor new = v_flavor old /\ v_origin new = v_origin old).
Proof. exact append_rest. Qed.
Print Assumptions C14_append_frame.

(** C14 fails for `x += $(x)`: the variable becomes circular, whatever it was
    (in GNU make too, unless it is a simple variable). *)
Theorem C14_append_self_diverges : forall fs w id x l sp lr s, world_ok w -> variable_name (w_names w) x = Some id -> l_str s = x ->
  plain (located_marks s) -> asciis x ->
  (exists old m1 d1, get_variable (w_db w) id = Some old /\ expands (world_env w) (v_ast old) m1 d1) ->
  diverges fs (set_db w (append_to_variable (w_db w) id l (VParams (reference lr s) FlRecursive OrFile) sp)) (reference lr s).
Proof. exact append_self_diverges. Qed.
Print Assumptions C14_append_self_diverges.

Example C14_example : world_ok ex_world /\ variable_name (w_names ex_world) (lit "X") = Some 0%N /\ plain (located_marks (at_ 1 9 "X")) /\
  get_variable (w_db ex_world) 0 = Some (VParams ex_x FlRecursive OrFile) /\
  expands (world_env ex_world) ex_x (located_marks (at_ 1 5 "a ") ++ located_marks (at_ 2 5 "b.c")) [lit "Y"] /\
  expands (world_env ex_world) (ex_ref "Y") (located_marks (at_ 2 5 "b.c")) [lit "Y"] /\ ~ In (lit "X") [lit "Y"].
Proof.
  split; [exact ex_world_ok|]. split; [reflexivity|]. split; [no_colon|]. split; [reflexivity|]. split; [|split; [exact ex_y_expands|]].
  - apply E_concat. change [lit "Y"] with ([] ++ [lit "Y"]). apply E_cons; [apply E_const|].
    rewrite <- (app_nil_r (located_marks (at_ 2 5 "b.c"))). change [lit "Y"] with ([lit "Y"] ++ []). apply E_cons; [exact ex_y_expands|apply E_nil].
  - intros [E|[]]. discriminate.
Qed.

(** C16: evaluate in one state; any other state with the same names that agrees
    on the variables of the reported sensitivity set gives the same block (text,
    structure, provenance and sensitivity).  No `$(eval)` is run: not in the
    expression, not in the variables it is sensitive to. *)
Theorem C16_sensitivity_is_sound : forall fs fs' fuel w1 w2 a w1' b,
  eval_fuel fs fuel w1 a = Ok (w1', b) -> w_names w2 = w_names w1 -> eval_free a ->
  (forall id v, In id (b_sens b) -> get_variable (w_db w1) id = Some v -> eval_free (v_ast v)) ->
  (forall id, In id (b_sens b) -> get_variable (w_db w2) id = get_variable (w_db w1) id) ->
  exists w2', eval_fuel fs' fuel w2 a = Ok (w2', b) /\ w_names w2' = w_names w1' /\ w_db w2' = w_db w2.
Proof. exact non_interference. Qed.
Print Assumptions C16_sensitivity_is_sound.

(** The state after `L` was changed: it agrees on the set {X, Y}. *)
Definition ex_world2 : world := set_db ex_world (set_variable (w_db ex_world) 2 (VParams (con 9 9 "new") FlSimple OrFile)).
Example C16_example : exists w' b, eval_fuel no_files 10 ex_world (ex_ref "X") = Ok (w', b) /\ b_sens b = [1; 0]%N /\
  w_names ex_world2 = w_names ex_world /\ eval_free (ex_ref "X") /\ w_db ex_world2 <> w_db ex_world /\
  (forall id v, In id (b_sens b) -> get_variable (w_db ex_world) id = Some v -> eval_free (v_ast v)) /\
  (forall id, In id (b_sens b) -> get_variable (w_db ex_world2) id = get_variable (w_db ex_world) id).
Proof.
  eexists. eexists. split; [vm_compute; reflexivity|]. split; [vm_compute; reflexivity|]. split; [reflexivity|]. split; [exact I|].
  split; [vm_compute; discriminate|]. split.
  - intros id v [<-|[<-|[]]] G; vm_compute in G; inversion G; subst; cbn; auto.
  - intros id [<-|[<-|[]]]; reflexivity.
Qed.

(** C17: every variable the expression looks up, directly, in a computed name or
    in the value of another variable, is in the reported set, for every
    evaluation that ends. *)
Theorem C17_lookups_are_recorded : forall fs fuel w a w' b x, world_ok w -> ast_ok a -> eval_free a ->
  (forall id v, get_variable (w_db w) id = Some v -> eval_free (v_ast v)) ->
  eval_fuel fs fuel w a = Ok (w', b) -> looks_up (world_env w) a x ->
  exists id, variable_name (w_names w') x = Some id /\ In id (b_sens b).
Proof. exact lookups_recorded. Qed.
Print Assumptions C17_lookups_are_recorded.

(** C17, C21: an expression that has an expansion evaluates to it, and the
    reported set is exactly the set of variables looked up. *)
Theorem C17_evaluation_is_expansion : forall fs w a m d, world_ok w -> ast_ok a -> expands (world_env w) a m d ->
  evaluates fs w a m d.
Proof. exact expands_evaluates. Qed.
Print Assumptions C17_evaluation_is_expansion.

(** The specification gives at most one expansion. *)
Theorem C17_expansion_unique : forall e a m d m' d', expands e a m d -> expands e a m' d' -> m' = m /\ d' = d.
Proof. exact (fun e a m d m' d' H H' => expands_det e a m d H m' d' H'). Qed.
Print Assumptions C17_expansion_unique.

Example C17_example : world_ok ex_world /\ ast_ok (ex_ref "X") /\
  expands (world_env ex_world) (ex_ref "X") (located_marks (at_ 1 5 "a ") ++ located_marks (at_ 2 5 "b.c")) [lit "X"; lit "Y"] /\
  looks_up (world_env ex_world) (ex_ref "X") (lit "Y").
Proof.
  split; [exact ex_world_ok|]. split; [cbn; ascii_tac|]. split; [exact ex_x_expands|].
  apply (L_value _ _ _ (located_marks (at_ 1 9 "X")) [] ex_x); [apply E_const|no_colon|reflexivity|].
  apply (L_part _ _ _ (ex_ref "Y")); [right; left; reflexivity|].
  apply (L_var _ _ (AConst (loc 1 7) (at_ 1 9 "Y")) (located_marks (at_ 1 9 "Y")) []); [apply E_const|no_colon].
Qed.

(** C18: such an evaluation leaves database and settings alone; the name cache
    only gains variable names. *)
Theorem C18_evaluation_changes_nothing : forall fs fuel w a w' b, eval_free a -> eval_fuel fs fuel w a = Ok (w', b) ->
  (forall id v, In id (b_sens b) -> get_variable (w_db w) id = Some v -> eval_free (v_ast v)) ->
  w_db w' = w_db w /\ w_cmd w' = w_cmd w /\ n_files (w_names w') = n_files (w_names w) /\
  exists more, n_vars (w_names w') = n_vars (w_names w) ++ more.
Proof. exact eval_frame. Qed.
Print Assumptions C18_evaluation_changes_nothing.

(** It may gain names, and an `$(eval)` does change the database. *)
Example C18_example :
  (exists w' b, eval_fuel no_files 10 ex_world (ex_ref "V") = Ok (w', b) /\ n_vars (w_names w') = n_vars (w_names ex_world) ++ [lit "V"]) /\
  (exists w' b, eval_fuel no_files 10 ex_world (AEval (loc 1 1) (con 1 1 "U = 1")) = Ok (w', b) /\ w_db w' <> w_db ex_world).
Proof. split; eexists; eexists; (split; [vm_compute; reflexivity|]); vm_compute; [reflexivity|discriminate]. Qed.

(** C19: collapsing a list of expressions evaluates exactly if its parts do, one
    after the other; text and provenance are concatenated, sensitivities united.
    For every expression, `$(eval)` included. *)
Theorem C19_collapsing_concat : forall fs fuel w l ns,
  (forall w' bs, eval_seq (eval_fuel fs fuel) w ns w' bs -> 0 < fuel ->
    exists b, eval_fuel fs fuel w (collapsing_concat l ns) = Ok (w', b) /\ block_text b = concat (List.map block_text bs) /\
      block_marks b = concat (List.map block_marks bs) /\ (forall id, In id (b_sens b) <-> exists p, In p bs /\ In id (b_sens p))) /\
  (forall w' b, eval_fuel fs fuel w (collapsing_concat l ns) = Ok (w', b) -> exists bs, eval_seq (eval_fuel fs fuel) w ns w' bs).
Proof. exact collapsing_both. Qed.
Print Assumptions C19_collapsing_concat.

Example C19_example : exists w' bs, eval_seq (eval_fuel no_files 10) ex_world [a_empty; ex_ref "Y"; con 5 5 "!"; a_empty] w' bs /\
  concat (List.map block_text bs) = lit "b.c!".
Proof.
  eexists. eexists. split; [repeat (eapply ES_cons; [vm_compute; reflexivity|]); apply ES_nil|vm_compute; reflexivity].
Qed.

(** C20: the block [b] computed by evaluating the right-hand side of `x := a` and
    stored as x's value gives the text it had then, after any later history that
    does not assign x. *)
Theorem C20_simple_is_frozen : forall fs w a m d, world_ok w -> ast_ok a -> expands (world_env w) a m d ->
  exists enough, forall fuel, enough <= fuel -> exists w1 b, eval_fuel fs fuel w a = Ok (w1, b) /\ block_marks b = m /\
  forall fs' w2 id l s loc fl og D ops, world_ok w2 -> variable_name (w_names w2) (l_str s) = Some id -> asciis (l_str s) ->
    plain (located_marks s) ->
    w_db w2 = db_run (set_variable D id (VParams (APre loc b) fl og)) ops -> Forall (fun o => ~ writes_global id o) ops ->
    evaluates fs' w2 (reference l s) m [l_str s].
Proof. exact simple_frozen. Qed.
Print Assumptions C20_simple_is_frozen.

(** C20: with `x = a`, `$(x)` is the expansion of [a] in the state of the
    reference, after any later history that does not assign x. *)
Theorem C20_recursive_tracks : forall fs w a m d id l s fl og D ops, world_ok w -> variable_name (w_names w) (l_str s) = Some id ->
  asciis (l_str s) -> plain (located_marks s) ->
  w_db w = db_run (set_variable D id (VParams a fl og)) ops -> Forall (fun o => ~ writes_global id o) ops ->
  expands (world_env w) a m d -> evaluates fs w (reference l s) m (l_str s :: d).
Proof. exact recursive_tracks. Qed.
Print Assumptions C20_recursive_tracks.

Example C20_example : run no_files "Y = 1~X := $(Y)~R = $(Y)~Y = 2~" "X" = Some "1" /\
  run no_files "Y = 1~X := $(Y)~R = $(Y)~Y = 2~" "R" = Some "2" /\
  w_db ex_world = db_run (set_variable (Db [(2%N, VParams (ex_ref "L") FlRecursive OrFile)] [] []) 1 (VParams ex_y FlRecursive OrFile))
                         [SetGlobal 0 (VParams ex_x FlRecursive OrFile)].
Proof. split; [vm_compute; reflexivity|]. split; vm_compute; reflexivity. Qed.

(** C21: the reference to an undefined variable, its name computed in any way. *)
Theorem C21_undefined_is_empty : forall fs w l nm m d, world_ok w -> ast_ok nm -> expands (world_env w) nm m d ->
  plain m -> world_env w (chars m) = None -> evaluates fs w (AVar l nm) [] (d ++ [chars m]).
Proof. exact undefined_empty. Qed.
Print Assumptions C21_undefined_is_empty.

(** $($(Y)): the variable b.c is undefined. *)
Example C21_example : expands (world_env ex_world) (ex_ref "Y") (located_marks (at_ 2 5 "b.c")) [lit "Y"] /\
  plain (located_marks (at_ 2 5 "b.c")) /\ world_env ex_world (chars (located_marks (at_ 2 5 "b.c"))) = None.
Proof. split; [exact ex_y_expands|]. split; [no_colon|reflexivity]. Qed.

(** C22: with definitions ranked so that everything refers to lower ranks,
    evaluation ends, with the expansion. *)
Theorem C22_ranked_definitions_terminate : forall fs w rank k a, world_ok w -> ast_ok a ->
  (forall x v, world_env w x = Some v -> refs_below (world_env w) rank (rank x) v) -> refs_below (world_env w) rank k a ->
  exists m d, expands (world_env w) a m d /\ evaluates fs w a m d.
Proof. exact ranked_terminates. Qed.
Print Assumptions C22_ranked_definitions_terminate.

(** C22: a set of variables each of which needs the value of one of the set never
    evaluates. *)
Theorem C22_circular_definitions_diverge : forall fs w (S : str -> Prop) a,
  (forall x, S x -> exists v, world_env w x = Some v /\ needs (world_env w) S v) ->
  world_ok w -> ast_ok a -> needs (world_env w) S a -> diverges fs w a.
Proof. exact needs_diverges. Qed.
Print Assumptions C22_circular_definitions_diverge.

(** C22: a result does not depend on the fuel it was computed with. *)
Theorem C22_result_independent_of_fuel : forall fs f g w a r r', eval_fuel fs f w a = r -> eval_fuel fs g w a = r' ->
  r <> OutOfFuel -> r' <> OutOfFuel -> r = r'.
Proof. exact eval_fuel_det. Qed.
Print Assumptions C22_result_independent_of_fuel.

Example C22_example_circular : needs (world_env ex_world) (fun x => x = lit "L") (ex_ref "L") /\
  world_env ex_world (lit "L") = Some (ex_ref "L").
Proof.
  split; [|reflexivity]. apply (N_var _ _ _ (AConst (loc 1 7) (at_ 1 9 "L")) (located_marks (at_ 1 9 "L")) []); [apply E_const|no_colon|reflexivity].
Qed.

Definition ex_ranked : world := set_db ex_world (Db (firstn 2 (db_vars (w_db ex_world))) [] []).
Definition ex_rank (x : str) : nat := if str_eqb x (lit "X") then 1 else 0.
Example C22_example_ranked : (forall x v, world_env ex_ranked x = Some v -> refs_below (world_env ex_ranked) ex_rank (ex_rank x) v) /\
  refs_below (world_env ex_ranked) ex_rank 2 (ex_ref "X").
Proof.
  assert (R : forall v k, ~ In 58%N (lit v) -> ex_rank (lit v) < k -> refs_below (world_env ex_ranked) ex_rank k (ex_ref v)).
  { intros v k N L. cbn [refs_below ex_ref reference]. split; [exact I|]. intros m d X. inversion X; subst. split.
    - intros _. cbn [concat]. rewrite app_nil_r, located_chars. exact L.
    - intros n key r Su. cbn [concat] in Su. rewrite app_nil_r in Su. destruct (ex_plain 1 9 v N n key r Su). }
  split; [|apply R; [vm_compute; intuition discriminate|cbn; lia]].
  intros x v E. unfold world_env in E. destruct (variable_name (w_names ex_ranked) x) as [id|] eqn:V; [|discriminate].
  unfold ex_ranked, get_variable in E. cbn [set_db w_db db_vars firstn ex_world mget] in E.
  destruct (0 =? id)%N eqn:Q0.
  - apply N.eqb_eq in Q0. subst id. assert (x = lit "X").
    { unfold variable_name in V. cbn [ex_ranked set_db w_names ex_world n_vars interned] in V.
      destruct (str_eqb x (lit "X")) eqn:Sx; [apply str_eqb_eq in Sx; exact Sx|].
      repeat (match type of V with context [str_eqb x ?y] => destruct (str_eqb x y) end; try (cbn in V; discriminate)). }
    subst x. cbn in E. inversion E; subst v. cbn [refs_below fold_right ex_x]. split; [exact I|]. split; [|exact I].
    apply R; [vm_compute; intuition discriminate|cbn; lia].
  - rewrite N.eqb_sym in Q0. rewrite Q0 in E. destruct (id =? 1)%N; [|discriminate]. cbn [option_map v_ast] in E. injection E as <-. exact I.
Qed.

(** C23 is false in several ways: the key occurs earlier in the word; the key is
    empty, as in $(X:=.o); the pattern ends in %; the replacement has no %; the
    word goes on from one piece of the value to the next; the name has several pieces. *)
Theorem C23_repeated_suffix_refuted : sub_wrong (text_block (lit "a.c.c")) (text_block (lit ".c")) (text_block (lit ".o")).
Proof. exact c23_repeated_suffix. Qed.
Print Assumptions C23_repeated_suffix_refuted.
Theorem C23_empty_key_refuted : sub_wrong (text_block (lit "a")) block_empty (text_block (lit ".o")).
Proof. exact c23_empty_key. Qed.
Print Assumptions C23_empty_key_refuted.
Theorem C23_prefix_pattern_refuted : sub_wrong (text_block (lit "foox")) (text_block (lit "foo%")) (text_block (lit "%")).
Proof. exact c23_prefix_pattern. Qed.
Print Assumptions C23_prefix_pattern_refuted.
Theorem C23_whole_word_refuted : sub_wrong (text_block (lit "a.c")) (text_block (lit "%.c")) (text_block (lit "obj")).
Proof. exact c23_whole_word. Qed.
Print Assumptions C23_whole_word_refuted.
Theorem C23_two_pieces_refuted : sub_wrong two_pieces (text_block (lit ".c")) (text_block (lit ".o")).
Proof. exact c23_two_pieces. Qed.
Print Assumptions C23_two_pieces_refuted.
Theorem C23_computed_name_refuted : exists w' b, eval_fuel no_files 10 named_world named_ref = Ok (w', b) /\ block_into_string b = Ok [] /\
  eval_fuel no_files 10 named_world (ex_ref "Ab:x=y") <> Panic /\
  (forall w'' b', eval_fuel no_files 10 named_world (ex_ref "Ab:x=y") = Ok (w'', b') -> block_into_string b' = Ok (lit "1.y")).
Proof. exact c23_two_piece_name. Qed.
Print Assumptions C23_computed_name_refuted.

(** C23, where it holds: no word of the value goes on from one piece of it to the next,
    the replacement has a % if the key has one, and what follows % in the pattern (the key itself if there is no
    %) is not empty and occurs only at the end of words.  Missing: the other
    cases, in which the documented result is not produced. *)
Theorem C23_substitution_partial : forall sens value key repl,
  wf_block value -> words_whole (List.map cref_marks (b_content value)) -> wf_block key -> wf_block repl ->
  (forall c rest o, unquote fst percent [] (block_marks key) = (o, Stopped c rest) ->
     exists ro rc rrest, unquote fst percent [] (block_marks repl) = (ro, Stopped rc rrest)) ->
  (forall pk qk pr qr, pattern fst (block_marks key) (block_marks repl) pk qk pr qr -> qk <> [] /\
     forall w, In w (split_at fst blank [] (block_marks value)) ->
     forall a p z q, w = a ++ p ++ z ++ q -> List.map fst a = pk -> List.map fst z = qk -> q = []) ->
  exists b, do_subref sens value key repl = Ok b /\
    intended_out fst (made 32%N) (block_marks key) (block_marks repl) (block_marks value) (block_marks b).
Proof. exact subref_as_documented. Qed.
Print Assumptions C23_substitution_partial.

(** C23, what happens in all cases: words that match the pattern become the replacement around
    the stem, but a stem that goes over a boundary between two pieces of the value (constant text
    and references are pieces) is cut at the last of these boundaries: see [kept]. *)
Theorem C23_what_happens : forall sens value key repl, wf_block value -> wf_block key -> wf_block repl ->
  exists b, do_subref sens value key repl = Ok b /\
    cut_substituted fst (made 32%N) (block_marks key) (block_marks repl) (List.map cref_marks (b_content value)) (block_marks b).
Proof. exact subref_exact. Qed.
Print Assumptions C23_what_happens.

(** If no word of the value goes on from one piece of it to the next, no stem is cut. *)
Theorem C23_whole_words : forall space key repl value out, words_whole (List.map cref_marks (b_content value)) ->
  cut_substituted fst space key repl (List.map cref_marks (b_content value)) out -> substituted fst space key repl (block_marks value) out.
Proof. exact cut_whole_block. Qed.
Print Assumptions C23_whole_words.

(** The specifications give one result. *)
Theorem C23_results_unique : forall space key repl value pieces o1 o2,
  (intended_out fst space key repl value o1 -> intended_out (A := N * location) fst space key repl value o2 -> o1 = o2) /\
  (substituted fst space key repl value o1 -> substituted (A := N * location) fst space key repl value o2 -> o1 = o2) /\
  (cut_substituted fst space key repl pieces o1 -> cut_substituted (A := N * location) fst space key repl pieces o2 -> o1 = o2).
Proof. exact (fun sp k r v ps o1 o2 => conj (intended_out_det fst sp k r v o1 o2) (conj (substituted_det fst sp k r v o1 o2) (cut_substituted_det fst sp k r ps o1 o2))). Qed.
Print Assumptions C23_results_unique.

(** A value that is a file in a directory, the directory being a piece of its own (as in
    `$(dir)file.c`): the name of the file is lost, for all directories, files and endings. *)
Theorem C23_name_lost_refuted : forall sens value key repl dir file ending,
  wf_block value -> wf_block key -> wf_block repl -> List.map cref_marks (b_content value) = [dir; file ++ ending] ->
  dir <> [] -> file <> [] -> Forall (fun m => blank (fst m) = false) (dir ++ file ++ ending) ->
  unquote fst percent [] (block_marks key) = (block_marks key, Ended []) -> chars ending = chars (block_marks key) -> ending <> [] ->
  (forall a b, chars (dir ++ file ++ ending) = a ++ chars ending ++ b -> b = []) ->
  intended_out fst (made 32%N) (block_marks key) (block_marks repl) (block_marks value) (dir ++ file ++ block_marks repl) /\
  exists b, do_subref sens value key repl = Ok b /\ block_marks b = dir ++ block_marks repl.
Proof. exact name_lost. Qed.
Print Assumptions C23_name_lost_refuted.
Example C23_name_lost_case : wf_block two_pieces /\
  (exists dir file ending, List.map cref_marks (b_content two_pieces) = [dir; file ++ ending] /\ dir <> [] /\ file <> [] /\
     Forall (fun m => blank (fst m) = false) (dir ++ file ++ ending) /\ chars ending = lit ".c" /\
     forall a b, chars (dir ++ file ++ ending) = a ++ chars ending ++ b -> b = []) /\
  unquote fst percent [] (block_marks (text_block (lit ".c"))) = (block_marks (text_block (lit ".c")), Ended []).
Proof. exact ex_two_cut. Qed.
Example C23_name_lost_example : run no_files "D = src/~X = $(D)main.c b.c~Y = $(X:.c=.o)~" "Y" = Some "src/.o b.o".
Proof. vm_compute. reflexivity. Qed.

Example C23_example : exists m, expands (world_env ex_world) ex_subst m [lit "Y"] /\ chars m = lit "b.o".
Proof. exact ex_subst_expands. Qed.
Example C23_example_words : run no_files "X = a.c   b.h c.c~Y = $(X:.c=.o) $(X:%.c=obj/%.o)~" "Y" = Some "a.o b.h c.o obj/a.o b.h obj/c.o".
Proof. vm_compute. reflexivity. Qed.
(** A value of several pieces, with no word that goes on from one to the next. *)
Example C23_example_pieces :
  words_whole (List.map cref_marks (b_content (Blk [] (b_content (text_block (lit "a.c ")) ++ b_content (text_block (lit "b.c")))))) /\
  run no_files "D = d.c~X = a.c \~ b.c $(D)~X += e.c~Y = $(X:.c=.o)~" "Y" = Some "a.o b.o d.o e.o".
Proof. split; [exact ex_two_whole|]. vm_compute. reflexivity. Qed.
