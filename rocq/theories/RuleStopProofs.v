(** Makefiles that end the program: rules whose dependencies or command are not well-formed. *)
From Coq Require Import String ZArith.
From Verif Require Import Base LocModel EvdModel NomModel AstModel ParseModel AstParseModel EngineModel
  EvdSpec DbSpec ParseSpec EvalSpec AstParseSpec EngineSpec MakeSpec CrashSpec
  EvdProofs EvdProofs3 ParseProofs ParseProofs2 ParseProofs3 ParseProofs4 ParseProofs5 EvalProofs2 EvalProofs3 EvalProofs4 FuelProofs
  DbProofs EvdProofs2 AstParseProofs AstParseProofs2 AstParseProofs3 SubstProofs SafeProofs SafeProofs2 SafeProofs3 SafeProofs4
  EngineProofs EngineProofs2 EngineProofs3 MakeProofs MakeProofs2 MakeProofs3 MakeProofs4 MakeProofs6 MakeProofs7 MakeProofs8 MakeProofs9 MakeProofs10 MakeProofs11 MakeProofs12 MakeProofs13 MakeProofs14 MakeProofs5 CrashProofs CrashProofs2 UnclosedProofs.
Local Open Scope nat_scope.

Lemma not_expression_nil : expression [].
Proof. exists a_empty. constructor. Qed.

Lemma dependencies_stop : forall fs st s w i t u deps cmd rest, ascii_files fs -> sim st s w -> world_good w -> at_text i t ->
  rule_like st t u -> after_targets (m_defs st) u deps cmd ->
  with_command rest deps cmd -> no_assignment (lstrip fst rest) -> begins_none modifier_words (lstrip fst rest) ->
  ~ expression deps -> stops_at fs s w i.
Proof.
  intros fs st s w i t u deps cmd rest FS SI G A RL AT WC NA NM NE.
  destruct (rule_start fs st s w i t u SI G A RL) as (b & l & u' & W & SB0 & M & NH & LL & H). apply H. clear H RL A.
  destruct (line_reaches fs (m_defs st) w (block_span b) l u u' deps cmd FS G (sim_env _ _ _ SI) W SB0 M NH LL AT)
    as (w1 & r0 & buf & ac & r' & ps & after & double & e1 & E & S1 & Wbuf & Nbuf & Wa & Ma & Wr & Fr & Wp & After & AC & CB).
  destruct (finish_start buf ac r' ps after double deps cmd Wbuf Nbuf Wa Ma Wr Fr Wp After AC CB) as (ts & slice & Wsl & Fsl & Msl & EF).
  assert (Lsl : sp_len slice = List.length deps + List.length (tail_text cmd)) by (rewrite <- (span_marks_len slice Wsl), Msl, app_length; reflexivity).
  assert (CH : chars (lstrip fst rest) = chars (lstrip fst (span_marks slice))) by (apply lstrip_chars; rewrite Msl; apply with_command_chars, WC).
  assert (NA' := no_assignment_chars _ _ CH NA). assert (NM' := begins_none_chars _ _ _ CH NM).
  pose proof (slice_to_sub slice (List.length deps) Wsl ltac:(lia)) as Spre.
  assert (Mpre : span_marks (slice_to slice (List.length deps)) = deps) by (eapply sub_prefix; [exact Wsl|exact Spre|exact Msl|reflexivity]).
  assert (Fpre : tidy (slice_to slice (List.length deps))).
  { destruct Fsl as [F|Z]; [exact F|]. exfalso. apply NE. assert (List.length deps = 0) as Q by lia. apply length_zero_iff_nil in Q. rewrite Q. exact not_expression_nil. }
  destruct (not_expression _ (sub_wf _ _ _ _ Spre) Fpre) as (ks & EP); [rewrite Mpre; exact NE|].
  exists e1. intros fuel L. rewrite E, EF by lia.
  destruct (variable_none (eval_fuel fs fuel) w1 slice Wsl NA' NM') as (e & Ee). rewrite Ee. cbn [bind].
  unfold expand_segment, wbind. rewrite EP.
  destruct (List.length deps <? sp_len slice) eqn:Q; cbn [bind]; [|exact Logic.I].
  apply Nat.ltb_lt in Q. destruct (slice_from_sub slice (List.length deps + 1) Wsl ltac:(lia)) as (s' & Es & _). rewrite Es. cbn [bind]. exact Logic.I.
Qed.

Lemma command_stops : forall fs st s w i t u deps k rest m, ascii_files fs -> sim st s w -> world_good w -> at_text i t ->
  rule_like st t u -> after_targets (m_defs st) u deps [k] ->
  with_command rest deps [k] -> no_assignment (lstrip fst rest) -> begins_none modifier_words (lstrip fst rest) ->
  stands_for (m_defs st) deps m -> ~ expression k -> stops_at fs s w i.
Proof.
  intros fs st s w i t u deps k rest m FS SI G A RL AT WC NA NM S NE.
  destruct (rule_start fs st s w i t u SI G A RL) as (b & l & u' & W & SB0 & M & NH & LL & H). apply H. clear H RL A.
  destruct (line_reaches fs (m_defs st) w (block_span b) l u u' deps [k] FS G (sim_env _ _ _ SI) W SB0 M NH LL AT)
    as (w1 & r0 & buf & ac & r' & ps & after & double & e1 & E & S1 & Wbuf & Nbuf & Wa & Ma & Wr & Fr & Wp & After & AC & CB).
  destruct (finish_start buf ac r' ps after double deps [k] Wbuf Nbuf Wa Ma Wr Fr Wp After AC CB) as (ts & slice & Wsl & Fsl & Msl & EF).
  assert (G1 : world_good w1) by exact (sbn_good _ _ S1 G).
  assert (R1 : env_rep (m_defs st) (world_env w1)). { eapply env_rep_ext; [exact (sim_env _ _ _ SI)|]. apply sbn_env; [exact S1|exact (proj1 G)]. }
  assert (Lsl : sp_len slice = List.length deps + List.length (tail_text [k])) by (rewrite <- (span_marks_len slice Wsl), Msl, app_length; reflexivity).
  assert (CH : chars (lstrip fst rest) = chars (lstrip fst (span_marks slice))) by (apply lstrip_chars; rewrite Msl; apply with_command_chars, WC).
  assert (NA' := no_assignment_chars _ _ CH NA). assert (NM' := begins_none_chars _ _ _ CH NM).
  pose proof (slice_to_sub slice (List.length deps) Wsl ltac:(lia)) as Spre.
  assert (Mpre : span_marks (slice_to slice (List.length deps)) = deps) by (eapply sub_prefix; [exact Wsl|exact Spre|exact Msl|reflexivity]).
  cbn [tail_text List.length] in Lsl.
  assert (F : tidy slice) by (destruct Fsl as [F|Z]; [exact F|lia]).
  rewrite <- Mpre in S. destruct (segment_flattish fs (m_defs st) w1 _ m FS G1 R1 (sub_wf _ _ _ _ Spre) (or_introl F) S) as (w' & nb & en & Ev & Mn & Wn & SB & _).
  assert (Q : (List.length deps <? sp_len slice) = true) by (apply Nat.ltb_lt; lia).
  destruct (slice_from_sub slice (List.length deps + 1) Wsl ltac:(lia)) as (s' & Es & Ss).
  destruct (to_new_block_ok s' (sub_wf _ _ _ _ Ss)) as (bb & Eb & Wbb & Mb & _).
  destruct (not_expression (block_span bb) (block_span_wf bb Wbb)) as (ks & EP).
  { apply (new_block_tidied s' bb (sub_wf _ _ _ _ Ss) (within_tidy _ _ (sub_within _ _ _ _ Ss) F) Eb). }
  { rewrite (block_span_marks bb Wbb), Mb. intros X. apply NE.
    replace k with (span_marks s'); [exact X|].
    eapply (sub_suffix slice (List.length deps + 1) s' (deps ++ [made c_semi]) k Wsl Ss); [rewrite Msl, <- app_assoc; reflexivity|].
    rewrite app_length. reflexivity. }
  exists (Nat.max e1 en). intros fuel L. rewrite E, EF by lia.
  destruct (variable_none (eval_fuel fs fuel) w1 slice Wsl NA' NM') as (e & Ee). rewrite Ee. cbn [bind].
  rewrite Q, Es. cbn [bind]. rewrite (Ev fuel _ _ ltac:(lia)), Eb. cbn [bind]. unfold wbind. rewrite EP. exact Logic.I.
Qed.
