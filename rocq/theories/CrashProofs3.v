(** Makefiles that end the program: definitions, includes, whole makefiles. *)
From Coq Require Import String ZArith.
From Verif Require Import Base LocModel EvdModel NomModel AstModel ParseModel AstParseModel EngineModel
  EvdSpec DbSpec ParseSpec EvalSpec AstParseSpec EngineSpec MakeSpec CrashSpec
  EvdProofs EvdProofs3 ParseProofs ParseProofs2 ParseProofs3 ParseProofs4 ParseProofs5 EvalProofs2 EvalProofs3 EvalProofs4 FuelProofs
  DbProofs EvdProofs2 AstParseProofs AstParseProofs2 AstParseProofs3 SubstProofs SafeProofs SafeProofs2 SafeProofs3 SafeProofs4
  EngineProofs EngineProofs2 EngineProofs3 MakeProofs MakeProofs2 MakeProofs3 MakeProofs4 MakeProofs6 MakeProofs7 MakeProofs8 MakeProofs9 MakeProofs10 MakeProofs11 MakeProofs12 MakeProofs13 MakeProofs14 MakeProofs5 CrashProofs CrashProofs2 MalformedProofs RuleStopProofs CondStopProofs.
Local Open Scope nat_scope.

(** * Definitions *)
Lemma drop_while_some : forall (t : text) c, In c (chars t) -> is_whitespace c = false ->
  drop_while (fun a : char * location => negb (negb (is_whitespace (fst a)))) t <> [].
Proof.
  induction t as [|a t IH]; intros c I N; [destruct I|]. cbn [drop_while]. destruct (is_whitespace (fst a)) eqn:E; cbn [negb]; [|discriminate].
  destruct I as [I|I]; [rewrite I in E; congruence|]. eapply IH; eauto.
Qed.

Lemma endef_stops : forall fs st s w i t d l rest u c, sim st s w -> at_text i t -> ~ is_comment_text t -> m_rule st = None -> MakeSpec.m_define st = Some d ->
  body_line t l rest -> expression l -> chars (lstrip fst l) = lit "endef" ++ u -> In c u -> is_whitespace c = false -> stops_at fs s w i.
Proof.
  intros fs st s w i t (x, n) l rest u c SI A NC RN DN B X C I N.
  destruct (define_start fs st s w i t x n SI A NC RN DN) as (d & PD & V & _ & E).
  destruct (define_grab_at i t l rest A B) as (r & p & Eg & Ar & (Kp & Mp) & Nl).
  pose proof (proj1 Kp) as Wp. assert (Fp : tidy p) by exact (proj1 (proj2 (proj2 Kp)) (single_tidy _ (proj1 (proj2 A)))).
  pose proof (location_cases p Wp) as LC. rewrite Mp in LC.
  destruct l as [|l0 l]; [congruence|]. cbn in LC. destruct (span_location p) as [lc| |] eqn:EL; [|exfalso; exact (LC (proj1 Fp))|contradiction]. subst lc.
  pose proof X as X'. rewrite <- Mp in X'. destruct (parse_at p Wp Fp X') as (j & a & Pa & Ra & _ & Oa).
  destruct (whitespace_keeps p Wp) as (p1 & q1 & E1 & K1 & M1). rewrite Mp in M1.
  assert (AD : asciis (lit "define")) by (apply lit_ascii; reflexivity). assert (AE : asciis (lit "endef")) by (apply lit_ascii; reflexivity).
  rewrite <- M1 in C. destruct (tag_moves p1 _ u (proj1 K1) AE C) as (p2 & q2 & T & K2 & M2).
  destruct (take_till_marks p2 (fun c => negb (is_whitespace c)) (proj1 K2)) as (p3 & q3 & E3 & W3 & _ & _ & M3 & _ & _).
  exists 0. intros fuel _. rewrite E. unfold parse_define_line. rewrite Eg. cbn [pbind bind]. rewrite EL. cbn [bind unwrap option_map].
  rewrite Pa. cbn [pbind bind]. unfold preceded. rewrite E1. cbn [pbind bind palt]. unfold pmap.
  rewrite (tag_misses p1 (lit "define") (proj1 K1) AD) by (intros v Q; rewrite C in Q; discriminate Q). cbn [pbind bind].
  rewrite T. cbn [pbind bind pok]. rewrite E3. cbn [pbind bind].
  assert (Z : (sp_len p3 =? 0) = false).
  { apply Nat.eqb_neq. rewrite <- (span_marks_len p3 W3), M3. intros Z. apply length_zero_iff_nil in Z. rewrite <- M2 in I.
    exact (drop_while_some _ _ I N Z). }
  rewrite Z. cbn. exact Logic.I.
Qed.

(** * Single lines *)
Theorem fatal_stops : forall fs st s w i t, ascii_files fs -> fatal st t -> sim st s w -> world_good w -> at_text i t -> stops_at fs s w i.
Proof.
  intros fs st s w i t FS F SI G A. destruct F.
  - eapply ifdef_stops; eassumption.
  - eapply unmatched_stops; eassumption.
  - eapply extra_stops; eassumption.
  - eapply condition_stops; eassumption.
  - eapply no_value_stops; eassumption.
  - eapply modified_stops; eassumption.
  - eapply undefine_stops; eassumption.
  - eapply export_stops; eassumption.
  - eapply others_stop; eassumption.
  - eapply target_variable_stops; eassumption.
  - eapply static_stops; eassumption.
  - eapply dependencies_stop; eassumption.
  - eapply command_stops; eassumption.
  - eapply endef_stops; eassumption.
  - eapply unclosed_stops; eassumption.
  - eapply malformed_stops; eassumption.
  - eapply recipe_stops; eassumption.
  - eapply body_stops; eassumption.
Qed.

(** * Includes *)
Lemma include_from : forall fs st s w i t l rest soft names, ascii_files fs -> sim st s w -> world_good w -> state_ok s w ->
  at_text i t -> ~ is_comment_text t -> directly st t -> line_text t l rest -> solid l ->
  m_ignoring st = false -> unconditional l -> begins_none modifier_words l -> no_assignment l ->
  include_line (m_defs st) l soft names ->
  exists r s2 w3 enough, sim (closed st) s2 w3 /\ world_good w3 /\ state_ok s2 w3 /\
    forall fuel, enough <= fuel -> exists files, Forall wf_block files /\ List.map block_text files = names /\
      engine_line fs fuel s w i =
        (let* '(w4, h) := include_files (read_makefile_with (process_fuel fs fuel)) fs w3 soft files in
         match h with HOk => Ok (s2, w4, POk r tt) | HErr e => Ok (s2, w4, PFailure [KCustom e]) end).
Proof.
  intros fs st s w i t l rest soft names FS SI G SO A NC DR L S IG BC BM NA (k & u & m & I & Kw & SF & NB & ->).
  destruct (solid_start fs st s w i t l rest SI A NC DR L S) as (r & b & Ar & W & F & M & WS & MS & E).
  assert (Fs : tidy (block_span b)) by exact F.
  destruct (conditional_none (block_span b) WS F) as (kc & Ec); [rewrite MS; exact S|rewrite MS; exact BC|].
  assert (LS : lstrip fst (span_marks (block_span b)) = l) by (rewrite MS; apply solid_strip; exact S).
  assert (EV : forall ev, exists e, variable_parse_line ev w (block_span b) = Ok (w, PError e)).
  { intros ev. apply variable_none; [exact WS|rewrite LS; exact NA|rewrite LS; exact BM]. }
  rewrite <- MS in Kw.
  destruct (include_pick (block_span b) k soft u WS Fs I Kw) as (j & a & Ed & Ra & Oa).
  { exact (stands_expression _ _ _ _ (sim_env _ _ _ SI) SF). }
  destruct (close_sim st s w SI G SO) as (s2 & w2 & C & SI2 & Rn & Dn & _ & G2 & EE & NE).
  assert (SF2 : stands_for (m_defs (closed st)) u m) by (rewrite closed_defs; exact SF).
  destruct (reads_evaluates fs _ w2 _ _ _ (proj1 G2) (sim_env _ _ _ SI2) Ra Oa SF2) as (w3 & bb & en & E3 & M3 & I3 & S3 & _).
  exists r, s2, w3, en. split; [exact (sim_same _ _ _ _ SI2 (proj1 G2) S3)|].
  split; [exact (sbn_good _ _ S3 G2)|]. split.
  { split; [rewrite Rn; discriminate|]. rewrite Dn. intros d D. pose proof (sim_define _ _ _ SI) as DD. rewrite (proj2 DR), D in DD. destruct DD. }
  intros fuel Lf.
  pose proof (proj1 (engine_safe fs FS fuel) w2 a G2 Oa) as Sf. rewrite (E3 fuel Lf) in Sf. destruct Sf as (_ & _ & Wbb). cbn [snd] in Wbb.
  destruct (parse_file_seq_plain (block_span bb) false []) as (bs & P & Wb & Mb).
  { apply block_span_wf, Wbb. } { intros []. } { rewrite (block_span_marks bb Wbb), M3. exact NB. }
  exists bs. split; [exact Wb|]. split.
  { rewrite <- (map_ext _ _ block_marks_text), <- (map_map block_marks (List.map fst)), Mb.
    replace (List.map (cleaned false) (split_at mch (file_stop []) [] (span_marks (block_span bb))))
      with (split_at mch (file_stop []) [] (span_marks (block_span bb))) by (symmetry; apply map_id).
    rewrite (block_span_marks bb Wbb), M3. reflexivity. }
  rewrite E, Ec. cbn [bind run_parser]. rewrite (sim_ignoring _ _ _ SI), IG. unfold parse_active_line.
  destruct (EV (eval_fuel fs fuel)) as (ev & Ev). rewrite Ev. cbn [bind run_parser]. rewrite Ed. cbn [bind run_parser].
  rewrite C. cbn [bind]. unfold handle_directive_action, include_directive.
  assert (H : handle_include (eval_fuel fs fuel) (read_makefile_with (process_fuel fs fuel)) fs w2 a soft =
    include_files (read_makefile_with (process_fuel fs fuel)) fs w3 soft bs).
  { unfold handle_include. rewrite (E3 fuel Lf). cbn [bind]. rewrite P. reflexivity. }
  destruct soft; rewrite H; destruct (include_files _ _ _ _ _) as [[w4 h]| |]; reflexivity.
Qed.

Definition broken (r : res (world * hresult)) : Prop :=
  match r with Panic => True | Ok (_, HErr _) => True | _ => False end.
Definition crashes_to (fs : str -> file) (st : mstate) (t : text) : Prop := forall s w i,
  sim st s w -> world_good w -> state_ok s w -> at_text i t ->
  exists n s1 w1 i1 enough, (forall fuel, enough <= fuel -> engine_lines fs fuel n s w i s1 w1 i1 /\ rejects (engine_line fs fuel s1 w1 i1)) /\ 0 < sp_len i1.
Definition breaks_in (fs : str -> file) (soft : bool) (st : mstate) (ns : list str) : Prop := forall s w,
  sim st s w -> world_good w -> state_ok s w ->
  exists enough, forall fuel, enough <= fuel -> forall files, Forall wf_block files -> List.map block_text files = ns ->
    broken (include_files (read_makefile_with (process_fuel fs fuel)) fs w soft files).

Lemma read_breaks : forall fs st s w n t, ascii_files fs -> asciis t -> sim st s w -> world_good w ->
  crashes_to fs (fresh st n) (file_text (number st n) t) ->
  exists enough, forall fuel, enough <= fuel -> read_makefile_with (process_fuel fs fuel) w n t = Panic.
Proof.
  intros fs st s w n t FS A SI G R. destruct (file_world st s w n SI G) as (SI0 & G0 & GR0 & N0).
  destruct (file_at (number st n) t A) as (b & Eb & Wb & Ab).
  destruct (R pstate_new _ (block_span b) SI0 G0 (start_state _) Ab) as (k & s1 & w1 & i1 & en & E & P).
  exists (S en). intros fuel L. destruct fuel as [|fuel]; [lia|]. unfold read_makefile_with.
  destruct (intern_file_name (w_names w) n) as [n' id] eqn:Q. cbn [snd fst] in *. rewrite N0, Eb. cbn [bind].
  destruct (E fuel ltac:(lia)) as (E1 & E2). eapply process_fail; try eassumption.
  - intros s2 w2 i2 X. rewrite X in E2. exact E2.
  - intros X. rewrite X in E2. exact E2.
Qed.

Lemma nonempty_line : forall i t l rest, at_text i t -> line_text t l rest -> solid l -> 0 < sp_len i.
Proof.
  intros i t l rest A L S. rewrite (at_len _ _ A). destruct t; [|cbn; lia]. exfalso. clear -L S.
  remember [] as t0. destruct L as [t ls last rest NH LL|p h u NH Eh]; [|destruct p; discriminate].
  subst t. remember [] as t0. destruct LL as [l Nl C|l n rest Nl C En|l Nl C|l n t ls last rest Nl C En LL]; try (destruct l; discriminate); subst l.
  cbn in S. destruct S as (c & u & Q & _). discriminate.
Qed.

Lemma file_names : forall files n ns, List.map block_text files = n :: ns -> Forall wf_block files ->
  exists f files', files = f :: files' /\ block_into_string f = Ok n /\ List.map block_text files' = ns /\ Forall wf_block files'.
Proof.
  intros [|f files] n ns E W; [discriminate|]. inversion W; subst. injection E as <- E.
  exists f, files. split; [reflexivity|]. split; [apply block_into_string_ok; assumption|]. auto.
Qed.

Lemma eval_breaks : forall fs st s w i t l rest u u' m, ascii_files fs -> sim st s w -> world_good w -> state_ok s w ->
  at_text i t -> ~ is_comment_text t -> directly st t -> plain_line t l rest -> solid l ->
    m_ignoring st = false -> unconditional l -> begins_none (modifier_words ++ directive_words) l -> no_assignment l ->
    logical_line fst l [] u u' -> eval_line (m_defs st) u m -> crashes_to fs (nested st) m ->
  exists en, forall fuel, en <= fuel -> rejects (engine_line fs fuel s w i).
Proof.
  intros fs st s w i t l rest u u' m FS SI G SO A NC DR P So IG BC BN NA LL EL R.
  destruct (eval_start fs st s w i t l rest u u' m FS SI G SO A NC DR P So IG BC BN NA LL EL) as (r & w1 & b & e1 & Ar & SB & Wb & Ab & E).
  assert (G1 : world_good w1) by exact (sbn_good _ _ SB G).
  destruct (R pstate_new w1 (block_span b) (nested_sim _ _ _ _ SI G SB) G1 (start_state _) Ab) as (n & s2 & w2 & i2 & e2 & H & PI).
  exists (S (S (Nat.max e1 e2))). intros fuel L. destruct fuel as [|[|fuel]]; [lia..|]. rewrite E by lia.
  destruct (H fuel ltac:(lia)) as (E1 & E2).
  assert (Q : process_fuel fs (S fuel) w1 b = Panic).
  { eapply process_fail; try eassumption.
    - intros s3 w3 i3 X. rewrite X in E2. exact E2.
    - intros X. rewrite X in E2. exact E2. }
  rewrite Q. exact Logic.I.
Qed.

Lemma crash_both : forall fs, ascii_files fs ->
  (forall st t, crashes fs st t -> crashes_to fs st t) /\
  (forall soft st ns, crashes_in fs soft st ns -> breaks_in fs soft st ns).
Proof.
  intros fs FS. apply crashes_both.
  - intros st t N F s w i SI G SO A. destruct (fatal_stops fs st s w i t FS F SI G A) as (en & H).
    exists 0, s, w, i, en. split; [intros fuel L; split; [constructor|exact (H fuel L)]|].
    rewrite (at_len _ _ A). destruct t; [congruence|cbn; lia].
  - intros st t st1 rest N ST R IH s w i SI G SO A.
    destruct (step_sim fs _ _ _ _ s w i FS ST SI G SO A) as (s1 & w1 & i1 & e1 & E1 & A1 & SI1).
    assert (P : 0 < sp_len i). { rewrite (at_len _ _ A). destruct t; [congruence|cbn; lia]. }
    destruct (engine_line_ok fs e1 s w i s1 w1 i1 FS G SO (proj1 A) P (E1 e1 (le_n _))) as (_ & G1 & GR1 & SO1 & _).
    destruct (IH s1 w1 i1 SI1 G1 SO1 A1) as (n & s2 & w2 & i2 & e2 & E2 & Z).
    exists (S n), s2, w2, i2, (Nat.max e1 e2). split; [|exact Z].
    intros fuel L. destruct (E2 fuel ltac:(lia)) as (E3 & E4). split; [|exact E4]. econstructor; [exact P|apply E1; lia|exact E3].
  - intros st t l rest soft names st1 NC DR L S IG BC BN NA IL T R IHR s w i SI G SO A.
    destruct (include_start fs st s w i t l rest soft names FS SI G SO A NC DR L S IG BC BN NA IL) as (r & s2 & w2 & w3 & e1 & Ar & SI3 & G3 & SO3 & E).
    destruct (proj2 (runs_takes_sim fs FS) _ _ _ _ T s2 w3 SI3 G3 SO3) as (w4 & e2 & E2 & SI4 & G4 & GR4).
    pose proof (nonempty_line _ _ _ _ A L S) as P.
    destruct (engine_line_ok fs (Nat.max e1 e2) s w i s2 w4 r FS G SO (proj1 A) P) as (_ & _ & GR1 & SO4 & _).
    { apply E; [lia|]. apply E2. lia. }
    destruct (IHR s2 w4 r SI4 G4 SO4 Ar) as (n & s5 & w5 & i5 & e3 & E3 & Z).
    exists (Datatypes.S n), s5, w5, i5, (Nat.max (Nat.max e1 e2) e3). split; [|exact Z].
    intros fuel Lf. destruct (E3 fuel ltac:(lia)) as (E4 & E5). split; [|exact E5]. econstructor; [exact P| |exact E4]. apply E; [lia|]. apply E2. lia.
  - intros st t l rest soft names NC DR L S IG BC BN NA IL T IHT s w i SI G SO A.
    destruct (include_from fs st s w i t l rest soft names FS SI G SO A NC DR L S IG BC BN NA IL) as (r & s2 & w3 & e1 & SI3 & G3 & SO3 & E).
    destruct (IHT s2 w3 SI3 G3 SO3) as (e2 & E2).
    exists 0, s, w, i, (Nat.max e1 e2). split; [|exact (nonempty_line _ _ _ _ A L S)].
    intros fuel Lf. split; [constructor|]. destruct (E fuel ltac:(lia)) as (files & Wf & Nf & Q). rewrite Q.
    specialize (E2 fuel ltac:(lia) files Wf Nf). destruct (include_files _ _ _ _ _) as [[w4 [|e]]| |]; cbn in E2 |- *; try contradiction; exact Logic.I.
  - intros st t l rest u u' m st1 NC DR P So IG BC BN NA LL EL R C IH s w i SI G SO A.
    destruct (eval_reads fs st s w i t l rest u u' m st1 FS SI G SO A NC DR P So IG BC BN NA LL EL (proj1 (runs_takes_sim fs FS) _ _ _ R)) as (r & s1 & w1 & e1 & Ar & E1 & SI1).
    pose proof (plain_nonempty i t l rest A P So) as PI.
    destruct (engine_line_ok fs e1 s w i s1 w1 r FS G SO (proj1 A) PI (E1 e1 (le_n _))) as (_ & G1 & GR1 & SO1 & _).
    destruct (IH s1 w1 r SI1 G1 SO1 Ar) as (n & s2 & w2 & i2 & e2 & E2 & Z).
    exists (Datatypes.S n), s2, w2, i2, (Nat.max e1 e2). split; [|exact Z].
    intros fuel L. destruct (E2 fuel ltac:(lia)) as (E3 & E4). split; [|exact E4]. econstructor; [exact PI|apply E1; lia|exact E3].
  - intros st t l rest u u' m NC DR P So IG BC BN NA LL EL C IH s w i SI G SO A.
    destruct (eval_breaks fs st s w i t l rest u u' m FS SI G SO A NC DR P So IG BC BN NA LL EL IH) as (en & H).
    exists 0, s, w, i, en. split; [|exact (plain_nonempty i t l rest A P So)].
    intros fuel L. split; [constructor|exact (H fuel L)].
  - intros st n k ns Fn s w SI G SO. exists 0. intros fuel _ files W E. destruct (file_names _ _ _ E W) as (f & fl & -> & B & _ & _).
    cbn [include_files]. rewrite B. cbn [bind]. rewrite Fn. exact Logic.I.
  - intros soft st n k ns Fn s w SI G SO. exists 0. intros fuel _ files W E. destruct (file_names _ _ _ E W) as (f & fl & -> & B & _ & _).
    cbn [include_files]. rewrite B. cbn [bind]. rewrite Fn. exact Logic.I.
  - intros soft st n t ns Fn C IH s w SI G SO.
    destruct (read_breaks fs st s w n t FS (FS n t Fn) SI G IH) as (en & H). exists en.
    intros fuel L files W E. destruct (file_names _ _ _ E W) as (f & fl & -> & B & _ & _).
    cbn [include_files]. rewrite B. cbn [bind]. rewrite Fn, (H fuel L). exact Logic.I.
  - intros soft st n ns t st1 Fn R C IH s w SI G SO.
    destruct (read_reads fs st s w n t st1 FS (FS n t Fn) SI G (proj1 (runs_takes_sim fs FS) _ _ _ R)) as (w1 & s1 & e1 & E1 & SI1 & G1 & GR1).
    destruct (IH s w1 (resume_sim _ _ _ _ _ _ SI SI1 GR1) G1 (state_grown _ _ _ SO GR1)) as (e2 & E2).
    exists (Nat.max e1 e2). intros fuel L files W E. destruct (file_names _ _ _ E W) as (f & fl & -> & B & Nf & Wf).
    cbn [include_files]. rewrite B. cbn [bind]. rewrite Fn, E1 by lia. cbn [bind]. apply E2; auto. lia.
  - intros st n k ns Fn C IH s w SI G SO. destruct (IH s w SI G SO) as (e2 & E2).
    exists e2. intros fuel L files W E. destruct (file_names _ _ _ E W) as (f & fl & -> & B & Nf & Wf).
    cbn [include_files]. rewrite B. cbn [bind]. rewrite Fn. apply E2; auto.
Qed.

Theorem makefile_crashes : forall fs text, ascii_files fs -> asciis text -> crashes fs m_begin (file_text 0 text) -> reads_to fs text Panic.
Proof.
  intros fs text FS A C.
  destruct (read_breaks fs m_start pstate_new world_new (lit "Makefile") text FS A sim_start new_good (proj1 (crash_both fs FS) _ _ C)) as (en & H).
  exists en. exact H.
Qed.
