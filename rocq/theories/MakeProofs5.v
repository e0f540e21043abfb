(** Text-level makefile semantics: whole makefiles. *)
From Coq Require Import String ZArith.
From Verif Require Import Base LocModel EvdModel NomModel AstModel ParseModel AstParseModel EngineModel
  EvdSpec DbSpec ParseSpec EvalSpec AstParseSpec EngineSpec MakeSpec
  EvdProofs EvdProofs3 ParseProofs ParseProofs2 ParseProofs4 ParseProofs5 EvalProofs2 EvalProofs3 EvalProofs4 FuelProofs
  DbProofs EvdProofs2 AstParseProofs AstParseProofs2 AstParseProofs3 SafeProofs SafeProofs2 SafeProofs3 SafeProofs4
  EngineProofs EngineProofs2 EngineProofs3 MakeProofs MakeProofs2 MakeProofs3 MakeProofs4 MakeProofs6 MakeProofs7 MakeProofs8 MakeProofs9 MakeProofs10 MakeProofs11 MakeProofs12 MakeProofs13 MakeProofs14.
Local Open Scope nat_scope.

Lemma step_sim : forall fs st t st' rest s w i, ascii_files fs -> step st t st' rest -> sim st s w -> world_good w -> state_ok s w -> at_text i t ->
  gets_to fs s w i st' rest.
Proof.
  intros fs st t st' rest s w i FS ST SI G SO A. destruct ST.
  - eapply comment_step; eassumption.
  - eapply blank_step; eassumption.
  - eapply conditional_step; eassumption.
  - eapply ignored_step; eassumption.
  - eapply assignment_step; eassumption.
  - eapply rule_step; eassumption.
  - eapply recipe_step; eassumption.
  - eapply idle_step; eassumption.
  - eapply define_step; eassumption.
  - eapply body_step; eassumption.
  - eapply endef_step; eassumption.
Qed.

Lemma lines_app : forall fs fuel n1 n2 s w i s1 w1 i1 s2 w2 i2, engine_lines fs fuel n1 s w i s1 w1 i1 ->
  engine_lines fs fuel n2 s1 w1 i1 s2 w2 i2 -> engine_lines fs fuel (n1 + n2) s w i s2 w2 i2.
Proof. intros fs fuel n1 n2 s w i s1 w1 i1 s2 w2 i2 H. induction H; intros H2; [exact H2|]. cbn. econstructor; eauto. Qed.

(** The text of a file. *)
Lemma file_at : forall id t, asciis t ->
  exists b, block_new [] [ev_constant (Located (SourceLocation 1 1 id) t)] = Ok b /\ wf_block b /\ at_text (block_span b) (file_text id t).
Proof.
  intros id t A. destruct (const_cref (Located (SourceLocation 1 1 id) t) A) as (W & M).
  destruct (block_new_ok [] [ev_constant (Located (SourceLocation 1 1 id) t)]) as (b & E & Wb & Mb & _ & _); [constructor; [exact W|constructor]|].
  exists b. split; [exact E|]. split; [exact Wb|].
  destruct (block_new_flat _ _ _ (Forall_cons (P := piece) _ (or_intror Logic.I : piece (ev_constant (Located (SourceLocation 1 1 id) t))) (Forall_nil _)) E) as (F & L).
  split; [split; [apply block_span_wf, Wb|exact Wb]|]. split; [split; [exact L|exact F]|].
  rewrite (block_span_marks b Wb), Mb. unfold crefs_marks. cbn [concat List.map]. rewrite app_nil_r. exact M.
Qed.

Lemma begin_sim : sim m_begin pstate_new (set_names world_new (fst (intern_file_name (w_names world_new) (lit "Makefile")))).
Proof.
  constructor; try reflexivity; try exact Logic.I; try discriminate; intros x; [exact Logic.I|]. unfold rule_of. destruct (file_name _ x); exact Logic.I.
Qed.

Lemma start_state : forall w, state_ok pstate_new w.
Proof. intros w. split; discriminate. Qed.

Lemma rep_shows : forall fs st s w, sim st s w -> world_good w -> shows fs st w.
Proof.
  intros fs st s w SI G. pose proof (sim_env _ _ _ SI) as ER. split; [|split; [|split; [|split; [exact (sim_kinds _ _ _ SI)|split; [|exact (sim_files _ _ _ SI)]]]]].
  - intros x. specialize (ER x). unfold undefined. destruct (m_defs st x), (world_env w x); try contradiction; split; congruence.
  - intros x v m N V. pose proof (ER x) as RX. rewrite N in RX. destruct (world_env w x) as [a|] eqn:Ea; [|contradiction].
    exists a. split; [reflexivity|]. destruct (proj1 (proj2 (proj2 (stands_means _ _ ER))) v m V a RX) as [d [X EX]].
    assert (A : ast_ok a).
    { unfold world_env in Ea. destruct (variable_name (w_names w) x) as [id|]; [|discriminate].
      destruct (get_variable (w_db w) id) as [vp|] eqn:Q; [|discriminate]. injection Ea as <-. apply (proj1 G id vp Q). }
    destruct (expands_fixed fs w a m d _ (proj1 G) A X EX) as (w' & b & en & E & M & I & _ & _ & DO).
    exists en. intros fuel L. exists w', b. auto.
  - intros x t m P N. pose proof (ER x) as RX. rewrite N in RX. destruct (world_env w x) as [a|] eqn:Ea; [|contradiction].
    inversion RX as [|t' m' P' l b Mb Sh E1 E2|]; subst. exists l, b. split; [reflexivity|]. split; [exact (PieceProofs.alike_concat _ _ Mb)|]. exact (sim_fixed _ _ _ SI x _ _ _ l b N Ea).
  - intros t. pose proof (sim_rules _ _ _ SI t) as V. unfold view_rep in V. unfold shows_rule.
    destruct (m_rules st t) as [v|], (option_map view (rule_of (w_names w) (w_db w) t)) as [rv|]; auto.
    destruct V as (V1 & V0 & V2 & V3). split; [|split; [exact V0|split; [|exact V3]]].
    + clear -V1. induction V1 as [|x y l l' <- _ IH]; [reflexivity|]. cbn. rewrite IH. reflexivity.
    + clear V0 V1 V3. induction V2 as [|x y l l' (RA & A) _ IH]; constructor; [|exact IH].
      intros m S. destruct (reads_evaluates fs _ w x y m (proj1 G) ER RA A S) as (w' & b & en & E & M & I & _ & DO).
      exists en. intros fuel L. exists w', b. auto.
Qed.

Definition runs_to (fs : str -> file) (st : mstate) (t : text) (st' : mstate) : Prop := forall s w i,
  sim st s w -> world_good w -> state_ok s w -> at_text i t ->
  exists n s' w' i' enough, (forall fuel, enough <= fuel -> engine_lines fs fuel n s w i s' w' i') /\ sp_len i' = 0 /\
    sim st' s' w' /\ world_good w' /\ grown w w'.
Definition takes_to (fs : str -> file) (soft : bool) (st : mstate) (ns : list str) (st' : mstate) : Prop := forall s w,
  sim st s w -> world_good w -> state_ok s w ->
  exists w' enough, (forall fuel, enough <= fuel -> reads_files (read_makefile_with (process_fuel fs fuel)) fs soft w ns w' HOk) /\
    sim st' s w' /\ world_good w' /\ grown w w'.

Lemma process_reads : forall fs fuel n w b s' w' i', ascii_files fs -> world_good w -> wf_block b ->
  engine_lines fs fuel n pstate_new w (block_span b) s' w' i' -> sp_len i' = 0 -> process_fuel fs (S fuel) w b = Ok (w', MOk).
Proof.
  intros fs fuel n w b s' w' i' FS G W E Z. apply (process_run fs fuel w b w' MOk FS G W). split; [reflexivity|]. exists n, s', i'. auto.
Qed.

(** Processing evaluated text. *)
Lemma eval_reads : forall fs st s w i t l rest u u' m st1, ascii_files fs -> sim st s w -> world_good w -> state_ok s w ->
  at_text i t -> ~ is_comment_text t -> directly st t -> plain_line t l rest -> solid l ->
    m_ignoring st = false -> unconditional l -> begins_none (modifier_words ++ directive_words) l -> no_assignment l ->
    logical_line fst l [] u u' -> eval_line (m_defs st) u m -> runs_to fs (nested st) m st1 ->
  exists r s' w' en, at_text r rest /\ (forall fuel, en <= fuel -> engine_line fs fuel s w i = Ok (s', w', POk r tt)) /\
    sim (closed (resume st st1)) s' w'.
Proof.
  intros fs st s w i t l rest u u' m st1 FS SI G SO A NC DR P So IG BC BN NA LL EL R.
  destruct (eval_start fs st s w i t l rest u u' m FS SI G SO A NC DR P So IG BC BN NA LL EL) as (r & w1 & b & e1 & Ar & SB & Wb & Ab & E).
  assert (G1 : world_good w1) by exact (sbn_good _ _ SB G).
  destruct (R pstate_new w1 (block_span b) (nested_sim _ _ _ _ SI G SB) G1 (start_state _) Ab) as (n & s2 & w2 & i2 & e2 & E2 & Z & SI2 & G2 & GR).
  assert (SI3 : sim (resume st st1) s w2) by exact (resume_sim st s w1 st1 s2 w2 (sim_same _ _ _ _ SI (proj1 G) SB) SI2 GR).
  assert (GR2 : grown w w2) by exact (grown_trans _ _ _ (sbn_grown _ _ SB) GR).
  destruct (close_sim _ s w2 SI3 G2 (state_grown _ _ _ SO GR2)) as (s3 & w3 & C & SI4 & _ & _ & _ & G4 & _).
  exists r, s3, w3, (S (S (Nat.max e1 e2))). split; [exact Ar|]. split; [|exact SI4].
  intros fuel L. destruct fuel as [|[|fuel]]; [lia..|]. rewrite E by lia.
  rewrite (process_reads fs fuel n w1 b s2 w2 i2 FS G1 Wb (E2 fuel ltac:(lia)) Z). cbn [bind]. rewrite C. reflexivity.
Qed.

Lemma plain_nonempty : forall i t l rest, at_text i t -> plain_line t l rest -> solid l -> 0 < sp_len i.
Proof.
  intros i t l rest A L S. rewrite (at_len _ _ A). destruct t; [|cbn; lia]. exfalso. clear -L S. remember [] as t0. destruct L as [t last rest NH LL|p h u NH Eh]; [|destruct p; discriminate].
  subst t. remember [] as t0. destruct LL as [l Nl C|l n rest Nl C En|l Nl C|l n t ls last rest Nl C En LL]; try (destruct l; discriminate); subst l.
  cbn in S. destruct S as (c & u & Q & _). discriminate.
Qed.

(** Reading a file called [n]. *)
Lemma read_reads : forall fs st s w n t st', ascii_files fs -> asciis t -> sim st s w -> world_good w ->
  runs_to fs (fresh st n) (file_text (number st n) t) st' ->
  exists w' s' enough, (forall fuel, enough <= fuel -> read_makefile_with (process_fuel fs fuel) w n t = Ok (w', MOk)) /\
    sim st' s' w' /\ world_good w' /\ grown w w'.
Proof.
  intros fs st s w n t st' FS A SI G R. destruct (file_world st s w n SI G) as (SI0 & G0 & GR0 & N0).
  destruct (file_at (number st n) t A) as (b & Eb & Wb & Ab).
  destruct (R pstate_new _ (block_span b) SI0 G0 (start_state _) Ab) as (k & s' & w' & i' & en & E & Z & SI' & G' & GR).
  exists w', s', (S en). split; [|split; [exact SI'|split; [exact G'|exact (grown_trans _ _ _ GR0 GR)]]].
  intros fuel L. destruct fuel as [|fuel]; [lia|]. unfold read_makefile_with.
  destruct (intern_file_name (w_names w) n) as [n' id] eqn:Q. cbn [snd fst] in *. rewrite N0, Eb. cbn [bind].
  eapply process_reads; try eassumption. apply E. lia.
Qed.

Lemma runs_takes_sim : forall fs, ascii_files fs ->
  (forall st t st', runs fs st t st' -> runs_to fs st t st') /\
  (forall soft st ns st', takes_in fs soft st ns st' -> takes_to fs soft st ns st').
Proof.
  intros fs FS. apply runs_takes.
  - intros st s w i SI G SO A. exists 0, s, w, i, 0. split; [intros fuel _; constructor|].
    split; [rewrite (at_len _ _ A); reflexivity|]. auto using grown_refl.
  - intros st t st1 rest st2 N ST R IH s w i SI G SO A.
    destruct (step_sim fs _ _ _ _ s w i FS ST SI G SO A) as (s1 & w1 & i1 & e1 & E1 & A1 & SI1).
    assert (P : 0 < sp_len i). { rewrite (at_len _ _ A). destruct t; [congruence|cbn; lia]. }
    destruct (engine_line_ok fs e1 s w i s1 w1 i1 FS G SO (proj1 A) P (E1 e1 (le_n _))) as (_ & G1 & GR1 & SO1 & _).
    destruct (IH s1 w1 i1 SI1 G1 SO1 A1) as (n & s2 & w2 & i2 & e2 & E2 & Z & SI2 & G2 & GR2).
    exists (S n), s2, w2, i2, (Nat.max e1 e2). split; [|split; [exact Z|split; [exact SI2|split; [exact G2|exact (grown_trans _ _ _ GR1 GR2)]]]].
    intros fuel L. econstructor; [exact P|apply E1; lia|apply E2; lia].
  - intros st t l rest soft names st1 st2 NC DR L S IG BC BN NA IL T IHT R IHR s w i SI G SO A.
    destruct (include_start fs st s w i t l rest soft names FS SI G SO A NC DR L S IG BC BN NA IL) as (r & s2 & w2 & w3 & e1 & Ar & SI3 & G3 & SO3 & E).
    destruct (IHT s2 w3 SI3 G3 SO3) as (w4 & e2 & E2 & SI4 & G4 & GR4).
    assert (P : 0 < sp_len i).
    { rewrite (at_len _ _ A). destruct t; [|cbn; lia]. exfalso. clear -L S. remember [] as t0. destruct L as [t ls last rest NH LL|p h u NH Eh]; [|destruct p; discriminate].
      subst t. remember [] as t0. destruct LL as [l Nl C|l n rest Nl C En|l Nl C|l n t ls last rest Nl C En LL]; try (destruct l; discriminate); subst l.
      cbn in S. destruct S as (c & u & Q & _). discriminate. }
    destruct (engine_line_ok fs (Nat.max e1 e2) s w i s2 w4 r FS G SO (proj1 A) P) as (_ & _ & GR1 & SO4 & _).
    { apply E; [lia|]. apply E2. lia. }
    destruct (IHR s2 w4 r SI4 G4 SO4 Ar) as (n & s5 & w5 & i5 & e3 & E3 & Z & SI5 & G5 & GR5).
    exists (Datatypes.S n), s5, w5, i5, (Nat.max (Nat.max e1 e2) e3). split; [|split; [exact Z|split; [exact SI5|split; [exact G5|exact (grown_trans _ _ _ GR1 GR5)]]]].
    intros fuel Lf. econstructor; [exact P| |apply E3; lia]. apply E; [lia|]. apply E2. lia.
  - intros st t l rest u u' m st1 st2 NC DR P So IG BC BN NA LL EL R1 IH1 R2 IH2 s w i SI G SO A.
    destruct (eval_reads fs st s w i t l rest u u' m st1 FS SI G SO A NC DR P So IG BC BN NA LL EL IH1) as (r & s1 & w1 & e1 & Ar & E1 & SI1).
    pose proof (plain_nonempty i t l rest A P So) as PI.
    destruct (engine_line_ok fs e1 s w i s1 w1 r FS G SO (proj1 A) PI (E1 e1 (le_n _))) as (_ & G1 & GR1 & SO1 & _).
    destruct (IH2 s1 w1 r SI1 G1 SO1 Ar) as (n & s2 & w2 & i2 & e2 & E2 & Z & SI2 & G2 & GR2).
    exists (S n), s2, w2, i2, (Nat.max e1 e2). split; [|split; [exact Z|split; [exact SI2|split; [exact G2|exact (grown_trans _ _ _ GR1 GR2)]]]].
    intros fuel L. econstructor; [exact PI|apply E1; lia|apply E2; lia].
  - intros soft st s w SI G SO. exists w, 0. split; [intros; constructor|]. auto using grown_refl.
  - intros soft st n ns t st1 st2 Fn R IHR T IHT s w SI G SO.
    destruct (read_reads fs st s w n t st1 FS (FS n t Fn) SI G IHR) as (w1 & s1 & e1 & E1 & SI1 & G1 & GR1).
    destruct (IHT s w1 (resume_sim _ _ _ _ _ _ SI SI1 GR1) G1 (state_grown _ _ _ SO GR1)) as (w2 & e2 & E2 & SI2 & G2 & GR2).
    exists w2, (Nat.max e1 e2). split; [|split; [exact SI2|split; [exact G2|exact (grown_trans _ _ _ GR1 GR2)]]].
    intros fuel L. eapply RF_read; [exact Fn|apply E1; lia|apply E2; lia].
  - intros st n k ns st2 Fn T IHT s w SI G SO. destruct (IHT s w SI G SO) as (w2 & e2 & E2 & H).
    exists w2, e2. split; [|exact H]. intros fuel L. eapply RF_skip; eauto.
Qed.

Theorem makefile_runs : forall fs text st, ascii_files fs -> asciis text -> runs fs m_begin (file_text 0 text) st ->
  exists w, reads_to fs text (Ok (w, MOk)) /\ shows fs st w /\ world_good w.
Proof.
  intros fs text st FS A R.
  destruct (read_reads fs m_start pstate_new world_new (lit "Makefile") text st FS A sim_start new_good (proj1 (runs_takes_sim fs FS) _ _ _ R))
    as (w & s & en & E & SI & G & _).
  exists w. split; [|split; [eapply rep_shows; eassumption|exact G]]. exists en. exact E.
Qed.

(** A makefile has one meaning. *)
Lemma evaluates_to_det : forall fs w a m m' P P', evaluates_to fs w a m P -> evaluates_to fs w a m' P' -> m = m'.
Proof.
  intros fs w a m m' P P' (e & H) (e' & H'). destruct (H (Nat.max e e') (Nat.le_max_l _ _)) as (w1 & b & E & M & _).
  destruct (H' (Nat.max e e') (Nat.le_max_r _ _)) as (w2 & b' & E' & M' & _). rewrite E in E'. injection E' as _ <-. congruence.
Qed.

Theorem makefile_unique : forall fs text st st', ascii_files fs -> asciis text ->
  runs fs m_begin (file_text 0 text) st -> runs fs m_begin (file_text 0 text) st' ->
  (forall x, m_defs st x = None <-> m_defs st' x = None) /\
  (forall x v v' m m', m_defs st x = Some v -> m_defs st' x = Some v' -> value_is (m_defs st) v m -> value_is (m_defs st') v' m' -> m' = m) /\
  (forall t, option_map tv_deps (m_rules st t) = option_map tv_deps (m_rules st' t) /\ option_map tv_double (m_rules st t) = option_map tv_double (m_rules st' t)) /\
  m_files st = m_files st'.
Proof.
  intros fs text st st' FS A R R'. destruct (makefile_runs fs text st FS A R) as (w & (e & E) & (U & V & _ & _ & RR & F) & _).
  destruct (makefile_runs fs text st' FS A R') as (w' & (e' & E') & (U' & V' & _ & _ & RR' & F') & _).
  assert (w' = w). { specialize (E (Nat.max e e') (Nat.le_max_l _ _)). specialize (E' (Nat.max e e') (Nat.le_max_r _ _)). congruence. }
  subst w'. split; [|split; [|split; [|congruence]]].
  - intros x. rewrite U, U'. reflexivity.
  - intros x v v' m m' D D' H H'. destruct (V x v m D H) as (a & Ea & X). destruct (V' x v' m' D' H') as (a' & Ea' & X').
    rewrite Ea in Ea'. injection Ea' as <-. symmetry. eapply evaluates_to_det; eassumption.
  - intros t. specialize (RR t). specialize (RR' t). unfold shows_rule in RR, RR'.
    destruct (m_rules st t) as [v|], (m_rules st' t) as [v'|], (option_map view _) as [rv|]; try contradiction; cbn; [|auto].
    destruct RR as (A1 & _ & _ & A3), RR' as (B1 & _ & _ & B3). split; [congruence|]. rewrite A3 in B3. destruct (tv_double v), (tv_double v'); congruence.
Qed.
