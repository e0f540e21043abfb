(** Concrete cases for the theorems about expressions as text. *)
From Coq Require Import String Lia.
From Verif Require Import Base LocModel EvdModel NomModel AstModel ParseModel AstParseModel EngineModel ModelTests EvdSpec ParseSpec EvalSpec
  AstParseSpec EvdProofs EvdProofs2 EvdExamples ParseProofs ParseProofs5 SubstProofs EvalProofs EvalProofs2 EvalProofs3 EvalExamples AstParseProofs AstParseProofs2 AstParseProofs3.
Open Scope string_scope.
Open Scope list_scope.

Lemma text_flat : forall t, flat (block_span (text_block t)).
Proof. intros t. repeat constructor. Qed.

Lemma ex_means : wf_span (block_span (text_block (lit "a $(X)c"))) /\ flat (block_span (text_block (lit "a $(X)c"))) /\
  exists m, means (tidy (block_span (text_block (lit "a $(X)c")))) (world_env ex_world) (span_marks (block_span (text_block (lit "a $(X)c")))) m [lit "X"; lit "Y"] /\ chars m = lit "a a b.cc".
Proof.
  split; [apply text_span_wf; [discriminate|reflexivity]|]. split; [apply text_flat|].
  eexists. split.
  - set (v := span_marks _). vm_compute in v. subst v.
    apply M_plain; [discriminate|]. apply M_plain; [discriminate|].
    eapply (M_var _ _ _ _ _ [_] [_] _ [] _ [lit "X"; lit "Y"] _ []); try reflexivity.
    + apply (bare_group _ _ [_] _ [_]); [| |reflexivity]; intros (x & [<-|[]] & E); discriminate.
    + intros k I B. apply begins_starts in B. cbn in I. destruct I as [<-|[<-|[<-|[<-|[]]]]]; discriminate.
    + apply means_plain. intros (x & [<-|[]] & E); discriminate.
    + apply single_plain.
    + exists [lit "Y"]. split; [|reflexivity]. apply E_concat. change [lit "Y"] with ([] ++ [lit "Y"]). apply E_cons; [apply E_const|].
      change [lit "Y"] with ([lit "Y"] ++ []). apply E_cons; [exact ex_y_expands|apply E_nil].
    + apply means_plain. intros (x & [<-|[]] & E); discriminate.
  - reflexivity.
Qed.

Lemma text_tidy : forall t, tidy (block_span (text_block t)).
Proof. intros t. split; [apply text_flat|]. apply parted_one. Qed.

Lemma ex_subst_reference : wf_span (block_span (text_block (lit "$(Y:.c=.o)"))) /\ tidy (block_span (text_block (lit "$(Y:.c=.o)"))) /\
  exists x b t y n k r m, span_marks (block_span (text_block (lit "$(Y:.c=.o)"))) = x :: b :: t ++ [y] /\
    fst x = 36%N /\ fst b = 40%N /\ fst y = 41%N /\ ~ has fst 36%N t /\ ~ has fst 40%N t /\ ~ has fst 41%N t /\ unbroken t /\
    is_subst t n k r /\ (forall f, In f function_names -> ~ begins_with f t) /\
    subst_value (world_env ex_world) (chars n) k r m [lit "Y"] /\ chars m = lit "b.o".
Proof.
  split; [apply text_span_wf; [discriminate|reflexivity]|]. split; [apply text_tidy|].
  set (t := firstn 7 (skipn 2 (span_marks (block_span (text_block (lit "$(Y:.c=.o)")))))). vm_compute in t.
  set (v := located_marks (at_ 2 5 "b.c")).
  do 2 eexists. exists t. eexists. exists (firstn 1 t), (firstn 2 (skipn 2 t)), (skipn 5 t), (firstn 1 v ++ skipn 5 t).
  split; [vm_compute; reflexivity|]. do 3 (split; [reflexivity|]).
  assert (H : forall c, ~ In c (chars t) -> ~ has fst c t).
  { intros c N (x & I & E). apply N. rewrite <- E. exact (in_map fst _ _ I). }
  do 3 (split; [apply H; vm_compute; intuition discriminate|]). clear H. split.
  { intros p x y q E. subst t. do 6 (destruct p as [|? p]; [injection E as <- <- _; split; [discriminate|vm_compute; reflexivity]|injection E as _ E]). destruct p as [|? [|? p]]; discriminate. }
  split.
  { exists (nth 1 t (0%N, Synthetic)), (nth 4 t (0%N, Synthetic)). do 3 (split; [reflexivity|]).
    split; intros (x & I & E); vm_compute in I; intuition (subst; discriminate). }
  split.
  { intros k I B. apply begins_starts in B. cbn in I. destruct I as [<-|[<-|[<-|[<-|[]]]]]; discriminate. }
  split; [|reflexivity]. exists [v], []. split; [apply X_const|]. split; [|reflexivity].
  apply whole_cut; [apply words_whole_short; cbn; lia|].
  exists [], (lit ".c"), [], (skipn 5 t), [firstn 1 v ++ skipn 5 t]. split; [|split; [|reflexivity]].
  - apply (P_suffix fst (firstn 2 (skipn 2 t)) (skipn 5 t) (firstn 2 (skipn 2 t)) []). vm_compute. reflexivity.
  - change (subst_words fst (concat [v])) with [v]. constructor; [|constructor].
    change (firstn 1 v ++ skipn 5 t) with ([] ++ firstn 1 v ++ skipn 5 t). apply R_match. exists [], (skipn 1 v). do 3 (split; [reflexivity|]).
    intros p q E. destruct p; [discriminate|cbn; lia].
Qed.

Lemma ex_variable : exists x b n y m, span_marks (block_span (text_block (lit "$(Y)"))) = x :: b :: n ++ [y] /\ plain n /\
  fst x = 36%N /\ fst b = 40%N /\ fst y = 41%N /\ (forall k, In k function_names -> ~ begins_with k n) /\
  variable_value (world_env ex_world) (chars n) m [lit "Y"] /\ chars m = lit "b.c".
Proof.
  do 2 eexists. exists [(89%N, SourceLocation 1 3 0)]. do 2 eexists. split; [vm_compute; reflexivity|]. split; [apply single_plain|].
  do 3 (split; [reflexivity|]). split.
  - intros k I B. apply begins_starts in B. cbn in I. destruct I as [<-|[<-|[<-|[<-|[]]]]]; discriminate.
  - split; [exists []; split; [apply E_const|reflexivity]|reflexivity].
Qed.

Lemma parse_nested_panics : exists s, wf_span s /\ ~ has fst 36%N (span_marks s) /\ parse_ast s = Panic.
Proof.
  destruct (slice_from_sub (block_span c07_block) 1) as (s & E & S); [apply block_span_wf, c07_wf|vm_compute; lia|].
  exists s. split; [eapply sub_wf; exact S|]. clear S. vm_compute in E. injection E as <-. split.
  - intros (x & I & X). vm_compute in I. intuition (subst; discriminate).
  - vm_compute. reflexivity.
Qed.
