(** Concrete cases for the theorems about the engine. *)
From Coq Require Import String Lia.
From Verif Require Import Base LocModel EvdModel NomModel AstModel ParseModel AstParseModel EngineModel ModelTests EvdSpec ParseSpec DbSpec EvalSpec
  AstParseSpec EngineSpec EvdProofs EvdProofs2 ParseProofs ParseProofs5 ParseExamples FuelProofs EvalProofs EvalProofs2 SafeProofs SafeProofs2 EngineProofs EngineProofs2.
Open Scope string_scope.
Open Scope list_scope.

(** Results for one fuel are results for all larger ones. *)
Lemma reads_by : forall fuel fs text r, read_makefile fs fuel world_new (lit "Makefile") (inr text) = r -> r <> OutOfFuel -> reads_to fs text r.
Proof.
  intros fuel fs text r E N. exists fuel. intros f L.
  destruct (read_with_mono (process_fuel fs fuel) (process_fuel fs f) (fun w b => process_fuel_mono fs fuel f w b L) world_new (lit "Makefile") text) as [X|X].
  - exfalso. apply N. rewrite <- E. exact X.
  - unfold read_makefile in *. rewrite <- X. exact E.
Qed.

Lemma value_by : forall fuel fs w n t a w' b, world_env w n = Some a -> eval_fuel fs fuel w a = Ok (w', b) -> block_into_string b = Ok t ->
  has_value fs w n t.
Proof.
  intros fuel fs w n t a w' b E V T. exists a. split; [exact E|]. exists fuel. intros f L. exists w', b. split; [|exact T].
  exact (below_ok _ _ _ (eval_fuel_mono fs fuel f w a L) V).
Qed.

Definition mk (s : string) : str := lit (esc s).

Ltac by_run := eapply (reads_by 20); [vm_compute; reflexivity|discriminate].
Ltac by_value := eapply (value_by 20); [vm_compute; reflexivity|vm_compute; reflexivity|vm_compute; reflexivity].

(** Position at the start of a makefile. *)
Lemma start_ok : forall t, t <> [] -> asciib t = true ->
  world_good world_new /\ state_ok pstate_new world_new /\ gspan (block_span (text_block t)) /\ define_apart pstate_new.
Proof.
  intros t N A. split; [apply new_good|]. split; [split; discriminate|]. split.
  - split; [apply text_span_wf; auto|apply text_block_wf; auto].
  - intros H. exfalso. apply H. reflexivity.
Qed.
Lemma no_files_ascii : ascii_files no_files.
Proof. intros n t E. discriminate. Qed.

(** ** C30 *)
Definition ex_text : str := mk "x = a~ifeq (a,b)~y = 1~else~z := $(x)b~endif~t: d $(z)~@cmd $(x)~u := 3~".

Lemma ex_reads : exists w, reads_to no_files ex_text (Ok (w, MOk)) /\
  has_value no_files w (lit "x") (lit "a") /\ undefined w (lit "y") /\ has_value no_files w (lit "z") (lit "ab") /\ has_value no_files w (lit "u") (lit "3").
Proof. eexists. split; [by_run|]. split; [by_value|]. split; [vm_compute; reflexivity|]. split; by_value. Qed.

(** The engine's own evaluator and reader, giving up at some depth of references
    and includes. *)
Definition give_up {A} (r : res A) : res A := match r with OutOfFuel => Panic | _ => r end.
Lemma ex_total : forall fs fuel, ascii_files fs ->
  total_evaluator (fun w a => give_up (eval_fuel fs fuel w a)) /\
  total_reader (fun w nm t => give_up (read_makefile_with (process_fuel fs fuel) w nm t)).
Proof.
  intros fs fuel Hfs. destruct (SafeProofs4.engine_safe fs Hfs fuel) as (He & Hp). split; [split|].
  - intros w a G A. specialize (He w a G A). unfold safe in He. destruct (eval_fuel fs fuel w a) as [x| |]; cbn; auto.
  - intros w a w' b l H E. apply (SafeProofs4.eval_empty fs fuel w a w' b).
    + exists l. exact H.
    + destruct (eval_fuel fs fuel w a); try discriminate. exact E.
  - intros w nm t G A. pose proof (SafeProofs4.read_with_safe True _ Hp w nm t G A) as H. unfold safe in H.
    destruct (read_makefile_with (process_fuel fs fuel) w nm t) as [x| |]; cbn; auto.
Qed.

(** ** C31 *)
Definition cond_text : str := mk "ifeq (a,a)~ifneq (a,a)~else~endif~".
Definition at_char (t : str) (n : nat) : span := match slice_from (block_span (text_block t)) n with Ok s => s | _ => block_span block_empty end.

Ltac cond_line c e := eapply (ME_cond _ _ _ _ _ c e);
  [vm_compute; lia|vm_compute; reflexivity
  |split; [intros (t & E); vm_compute in E; discriminate|]; split; [intros (E & _); apply E; reflexivity|]; split; [intros (_ & E); apply E; reflexivity|];
   do 3 eexists; (split; [vm_compute; reflexivity|vm_compute; reflexivity])
  | |].

Lemma ex_meets : exists s w i, meets no_files 20 pstate_new world_new (block_span (text_block cond_text))
  [EvIf true; EvIf false; EvElse; EvEndif] s w i /\ stack s = [(true, false)] /\ ps_ignoring s = false /\
  ends_taken [] [EvIf true; EvIf false; EvElse; EvEndif].
Proof.
  do 3 eexists. split.
  - cond_line (CIfEq (AConst (SourceLocation 1 7 0) (Located (SourceLocation 1 7 0) (lit "a"))) (AConst (SourceLocation 1 9 0) (Located (SourceLocation 1 9 0) (lit "a")))) (EvIf true).
    + exists true. split; [|reflexivity]. do 4 eexists. split; [vm_compute; reflexivity|]. split; [vm_compute; reflexivity|vm_compute; reflexivity].
    + cond_line (CIfNEq (AConst (SourceLocation 2 8 0) (Located (SourceLocation 2 8 0) (lit "a"))) (AConst (SourceLocation 2 10 0) (Located (SourceLocation 2 10 0) (lit "a")))) (EvIf false).
      * exists true. split; [|reflexivity]. do 4 eexists. split; [vm_compute; reflexivity|]. split; [vm_compute; reflexivity|vm_compute; reflexivity].
      * cond_line (CElse None) EvElse; [unfold event_of; reflexivity|]. cond_line CEndIf EvEndif; [unfold event_of; reflexivity|]. apply ME_none.
  - split; [vm_compute; reflexivity|]. split; [vm_compute; reflexivity|]. repeat split.
Qed.

(** An `endif` after a branch that was not taken: the next line is still ignored. *)
Lemma ex_endif : exists w, reads_to no_files (mk "ifeq (a,b)~X = 1~endif~Y = 2~") (Ok (w, MOk)) /\ undefined w (lit "Y").
Proof. eexists. split; [by_run|vm_compute; reflexivity]. Qed.

(** ** C32 *)
Lemma ex_ignored_eval : exists w, reads_to no_files (mk "ifeq (a,b)~ifeq ($(eval X = 1),)~endif~") (Ok (w, MOk)) /\
  has_value no_files w (lit "X") (lit "1").
Proof. eexists. split; [by_run|by_value]. Qed.
Definition recipe_texts (w : world) : list (list (option str)) :=
  List.map (fun r => List.map (fun a => match a with AConst _ l => Some (l_str l) | _ => None end) (r_recipe r)) (db_all_rules (w_db w)).
Lemma ex_ignored_recipe : exists w, reads_to no_files (mk "t: d~ifeq (a,b)~@cmd~else~X = 1~") (Ok (w, MOk)) /\
  recipe_texts w = [[Some (lit "cmd")]].
Proof. eexists. split; [by_run|vm_compute; reflexivity]. Qed.
(** A line that is ignored. *)
Definition ignoring_state : pstate := PState [CondState false false] true None None.
Lemma ex_ignored : exists i1, engine_line no_files 20 ignoring_state world_new (block_span (text_block (mk "x = 1~"))) = Ok (ignoring_state, world_new, POk i1 tt) /\
  (forall c, ~ directive_line ignoring_state world_new (block_span (text_block (mk "x = 1~"))) c).
Proof.
  eexists. split; [vm_compute; reflexivity|]. intros c (_ & _ & _ & r & line & j & A & B).
  vm_compute in A. injection A as _ A. rewrite <- A in B. vm_compute in B. discriminate.
Qed.

(** ** C35 *)
Lemma ex_conditional_assign : exists w, reads_to no_files (mk "X = 1~X ?= 2~") (Ok (w, MOk)) /\ has_value no_files w (lit "X") (lit "2").
Proof. eexists. split; [by_run|by_value]. Qed.

(** ** C37 *)
Lemma ex_last_rule : exists w, reads_to no_files (mk "t: d~@cmd~") (Ok (w, MOk)) /\ db_rules (w_db w) = [].
Proof. eexists. split; [by_run|vm_compute; reflexivity]. Qed.
Lemma ex_rule_line : exists s w i1 p, engine_line no_files 20 pstate_new world_new (block_span (text_block (mk "t: d~x = 1~"))) = Ok (s, w, POk i1 tt) /\
  ps_rule s = Some p /\ List.map block_text (pr_targets p) = [lit "t"] /\ List.map block_text (pr_deps p) = [lit "d"].
Proof. do 4 eexists. split; [vm_compute; reflexivity|]. split; [vm_compute; reflexivity|]. split; [vm_compute; reflexivity|vm_compute; reflexivity]. Qed.

(** ** C42 *)
Definition ex_files (n : str) : file :=
  if str_eqb n (lit "a.mk") then FText (mk "X = 1~")
  else if str_eqb n (lit "b.mk") then FText (mk "X += $(Y)~") else FOpenError 2.
Lemma ex_files_ascii : ascii_files ex_files.
Proof.
  intros n t. unfold ex_files. destruct (str_eqb n (lit "a.mk")); [|destruct (str_eqb n (lit "b.mk")); [|discriminate]]; intros E; inversion E; subst;
    apply asciib_iff; vm_compute; reflexivity.
Qed.
Lemma ex_include : exists w, reads_to ex_files (mk "Y = 3~-include a.mk missing b.mk~Z := $(X)~") (Ok (w, MOk)) /\
  has_value ex_files w (lit "Z") (lit "1 3").
Proof. eexists. split; [by_run|by_value]. Qed.
