(** Text-level makefile semantics: includes. *)
From Coq Require Import String ZArith.
From Verif Require Import Base LocModel EvdModel NomModel AstModel ParseModel AstParseModel EngineModel
  EvdSpec DbSpec ParseSpec EvalSpec AstParseSpec EngineSpec MakeSpec
  EvdProofs EvdProofs3 ParseProofs ParseProofs2 ParseProofs4 ParseProofs5 EvalProofs2 EvalProofs3 EvalProofs4 FuelProofs
  DbProofs EvdProofs2 AstParseProofs AstParseProofs2 AstParseProofs3 SafeProofs SafeProofs2 SafeProofs3 SafeProofs4
  EngineProofs EngineProofs2 EngineProofs3 MakeProofs MakeProofs2 MakeProofs3 MakeProofs4 MakeProofs6 MakeProofs7.
Local Open Scope nat_scope.

Definition directive_table : list (string * (ast -> directive)) :=
  [("export", DiExport); ("unexport", DiUnexport); ("vpath", DiVPath); ("include", DiInclude); ("sinclude", DiSoftInclude);
   ("-include", DiSoftInclude); ("load", DiLoad); ("-load", DiSoftLoad)]%string.

Lemma directive_pick : forall (table : list (string * (ast -> directive))) s k f rest, wf_span s -> tidy s ->
  Forall (fun kt => lowercase (fst kt)) table ->
  (forall k' f', In (k', f') table -> k' = k -> f' = f) ->
  (forall k' f', In (k', f') table -> starts_with (lit k) (lit k') = true \/ starts_with (lit k') (lit k) = true -> k' = k) ->
  In (k, f) table -> keyword k (span_marks s) rest -> expression rest ->
  exists r a, palt (List.map (fun kf => pmap (snd kf) (preceded (tag_no_case (lit (fst kf))) parse_ast)) table) s = Ok (POk r (f a)) /\
    reads_ast True rest a /\ ast_ok a.
Proof.
  intros table s k f rest W F. induction table as [|(k0, f0) table IH]; intros LW SF AP I Kw X; [destruct I|].
  inversion LW as [|? ? L0 LW']; subst. cbn [fst] in L0.
  destruct (tag_no_case_at s k0 W L0) as [(rest0 & Kw0 & r & p & P & Sb & M)|(No & P)].
  - assert (k0 = k) as ->. { apply (AP k0 f0); [now left|]. exact (keyword_excl _ _ _ _ _ Kw Kw0). }
    assert (f0 = f) as -> by (apply (SF k f0); [now left|reflexivity]).
    assert (rest0 = rest) as ->. { rewrite (keyword_skip _ _ _ Kw0), (keyword_skip _ _ _ Kw). reflexivity. }
    pose proof (sub_keeps _ _ _ _ Sb) as Kp. rewrite <- M in X.
    destruct (parse_at r (proj1 Kp) (proj1 (proj2 (proj2 Kp)) F) X) as (j & a & Pa & Ra & _ & Oa). rewrite M in Ra.
    exists j, a. split; [|auto]. cbn [List.map palt fst snd]. unfold pmap at 1, preceded at 1. rewrite P. cbn [pbind bind pok]. rewrite Pa. reflexivity.
  - destruct I as [I|I]; [injection I as -> ->; exfalso; exact (No rest Kw)|].
    destruct IH as (r & a & E & RA); auto.
    + intros k' f' I'. apply SF. now right.
    + intros k' f' I'. apply (AP k' f'). now right.
    + exists r, a. split; [|exact RA]. cbn [List.map palt fst snd]. unfold pmap at 1, preceded at 1. rewrite P. cbn [pbind bind pok]. exact E.
Qed.

Definition include_directive (soft : bool) : ast -> directive := if soft then DiSoftInclude else DiInclude.

Lemma include_pick : forall s k soft rest, wf_span s -> tidy s -> In (k, soft) include_words -> keyword k (span_marks s) rest -> expression rest ->
  exists r a, directive_parse_line s = Ok (POk r (include_directive soft a)) /\ reads_ast True rest a /\ ast_ok a.
Proof.
  intros s k soft rest W F I Kw X. 
  assert (Q : directive_parse_line = palt (List.map (fun kf => pmap (snd kf) (preceded (tag_no_case (lit (fst kf))) parse_ast)) directive_table)) by reflexivity.
  rewrite Q. apply (directive_pick directive_table s k (include_directive soft) rest); auto.
  - repeat (constructor; [split; [reflexivity|apply lit_ascii; reflexivity]|]). constructor.
  - intros k' f' I' ->. cbn in I. cbn in I'.
    repeat (destruct I as [I|I]; [injection I as <- <-; repeat (destruct I' as [I'|I']; [first [discriminate I'|injection I' as <-; reflexivity]|]); destruct I'|]); destruct I.
  - intros k' f' I' H. cbn in I. cbn in I'.
    repeat (destruct I as [I|I]; [injection I as <- <-; repeat (destruct I' as [I'|I']; [injection I' as <- _; first [reflexivity|exfalso; destruct H as [H|H]; discriminate H]|]); destruct I'|]); destruct I.
  - cbn in I. cbn. repeat (destruct I as [I|I]; [injection I as <- <-; cbn; tauto|]). destruct I.
Qed.

(** The line up to the handling of the directive. *)
Lemma include_start : forall fs st s w i t l rest soft names, ascii_files fs -> sim st s w -> world_good w -> state_ok s w ->
  at_text i t -> ~ is_comment_text t -> directly st t -> line_text t l rest -> solid l ->
  m_ignoring st = false -> unconditional l -> begins_none modifier_words l -> no_assignment l ->
  include_line (m_defs st) l soft names ->
  exists r s2 w2 w3 enough, at_text r rest /\ sim (closed st) s2 w3 /\ world_good w3 /\ state_ok s2 w3 /\
    forall fuel w4, enough <= fuel -> reads_files (read_makefile_with (process_fuel fs fuel)) fs soft w3 names w4 HOk ->
      engine_line fs fuel s w i = Ok (s2, w4, POk r tt) /\ close_rule s w = Ok (s2, w2).
Proof.
  intros fs st s w i t l rest soft names FS SI G SO A NC DR L S IG BC BM NA (k & u & m & I & Kw & SF & NB & ->).
  destruct (solid_start fs st s w i t l rest SI A NC DR L S) as (r & b & Ar & W & F & M & WS & MS & E).
  assert (Fs : tidy (block_span b)) by exact F.
  destruct (conditional_none (block_span b) WS F) as (kc & Ec); [rewrite MS; exact S|rewrite MS; exact BC|].
  assert (LS : lstrip fst (span_marks (block_span b)) = l) by (rewrite MS; apply solid_strip; exact S).
  assert (EV : forall ev, exists e, variable_parse_line ev w (block_span b) = Ok (w, PError e)).
  { intros ev. apply variable_none; [exact WS|rewrite LS; exact NA|rewrite LS; exact BM]. }
  rewrite <- MS in Kw.
  destruct (include_pick (block_span b) k soft u WS Fs I Kw) as (j & a & Ed & Ra & Oa).
  { exact (stands_expression _ _ _ _ (sim_env _ _ _ SI) SF). }
  destruct (close_sim st s w SI G SO) as (s2 & w2 & C & SI2 & Rn & Dn & _ & G2 & EE & NE).
  assert (SF2 : stands_for (m_defs (closed st)) u m) by (rewrite closed_defs; exact SF).
  destruct (reads_evaluates fs _ w2 _ _ _ (proj1 G2) (sim_env _ _ _ SI2) Ra Oa SF2) as (w3 & bb & en & E3 & M3 & I3 & S3 & _).
  exists r, s2, w2, w3, en. split; [exact Ar|]. split; [exact (sim_same _ _ _ _ SI2 (proj1 G2) S3)|].
  split; [exact (sbn_good _ _ S3 G2)|]. split.
  { split; [rewrite Rn; discriminate|]. rewrite Dn. intros d D. pose proof (sim_define _ _ _ SI) as DD. rewrite (proj2 DR), D in DD. destruct DD. }
  intros fuel w4 Lf RF. split; [|exact C].
  assert (H : handle_include (eval_fuel fs fuel) (read_makefile_with (process_fuel fs fuel)) fs w2 a soft = Ok (w4, HOk)).
  { apply (handle_include_words fs fuel w2 a soft w3 bb w4 HOk FS G2 Oa (E3 fuel Lf)).
    - rewrite <- block_marks_text, M3. intros Q. apply NB. apply in_map_iff in Q as (x & Q1 & Q2). exists x. auto.
    - rewrite <- block_marks_text, M3. rewrite <- (split_at_map (@fst char location)) with (w := []). exact RF. }
  rewrite E, Ec. cbn [bind run_parser]. rewrite (sim_ignoring _ _ _ SI), IG. unfold parse_active_line.
  destruct (EV (eval_fuel fs fuel)) as (ev & Ev). rewrite Ev. cbn [bind run_parser]. rewrite Ed. cbn [bind run_parser].
  rewrite C. cbn [bind]. unfold handle_directive_action, include_directive. destruct soft; rewrite H; reflexivity.
Qed.

(** An included file. *)
Lemma file_world : forall st s w n, sim st s w -> world_good w ->
  let w0 := set_names w (fst (intern_file_name (w_names w) n)) in
  sim (fresh st n) pstate_new w0 /\ world_good w0 /\ grown w w0 /\ snd (intern_file_name (w_names w) n) = number st n.
Proof.
  intros st s w n SI G w0. destruct (world_text_good w n G) as (G0 & GR0). fold w0 in G0, GR0.
  destruct (intern_file_name (w_names w) n) as [n' id] eqn:E. pose proof (intern_file_meet _ _ _ _ E) as En.
  pose proof (sim_files _ _ _ SI) as Fi.
  split; [|split; [exact G0|split; [exact GR0|]]].
  - constructor; try reflexivity; try exact Logic.I.
    + apply (env_rep_ext _ (world_env w)); [exact (sim_env _ _ _ SI)|]. intros x. unfold world_env, w0. cbn [fst set_names w_names w_db].
      assert (V : variable_name n' x = variable_name (w_names w) x) by (rewrite En; reflexivity). rewrite V. reflexivity.
    + intros x. pose proof (sim_rules _ _ _ SI x) as V. cbn [m_rules fresh].
      assert (Q : rule_of (w_names w0) (w_db w0) x = rule_of (w_names w) (w_db w) x).
      { exact (rule_in_grows _ _ (db_rules (w_db w)) x (proj1 (proj2 G)) (proj1 (proj2 GR0))). }
      rewrite Q. eapply view_more; [|exact V]. intros y0 id0 Hy. unfold w0. cbn [fst set_names w_names]. rewrite En. exact Hy.
    + unfold w0. cbn [fst set_names w_names m_files fresh]. rewrite En. cbn [n_files]. rewrite Fi. reflexivity.
    + exact (sim_cmd _ _ _ SI).
    + intros x v Ex. pose proof (sim_kinds _ _ _ SI x v Ex) as Q. unfold recorded in *. unfold w0. cbn [fst set_names w_names w_db].
      assert (V : variable_name n' x = variable_name (w_names w) x) by (rewrite En; reflexivity). rewrite V. exact Q.
    + intros x t m P l b Ex Ea. apply (depends_more w); [intros y0 id0 Hy; unfold w0; cbn [fst set_names w_names]; rewrite En; exact Hy|]. eapply (sim_fixed _ _ _ SI); [exact Ex|].
      rewrite <- Ea. unfold world_env, w0. cbn [fst set_names w_names w_db]. rewrite En. reflexivity.
  - cbn [snd]. unfold number. rewrite <- Fi. unfold intern_file_name in E. destruct (get_or_intern n (n_files (w_names w))). injection E as _ <-. reflexivity.
Qed.

Lemma grown_names : forall w w', grown w w' -> more_names w w'.
Proof.
  intros w w' ((v & V) & _) x id H. unfold variable_name in *. rewrite V. destruct (interned x (n_vars (w_names w))) as [k|] eqn:Q; [|discriminate].
  rewrite (interned_app _ _ v _ Q). exact H.
Qed.

Lemma define_grown : forall x d w w', define_rep x d w -> grown w w' -> define_rep x d w'.
Proof.
  intros [(x, n)|] [d|] w w' H ((v & V) & _); cbn in *; auto. destruct H as (H & E). split; [|exact E].
  unfold variable_name in *. rewrite V. destruct (interned x (n_vars (w_names w))) as [k|] eqn:Q; [|discriminate].
  rewrite (interned_app _ _ v _ Q). exact H.
Qed.

Lemma resume_sim : forall st s w st1 s1 w1, sim st s w -> sim st1 s1 w1 -> grown w w1 -> sim (resume st st1) s w1.
Proof.
  intros st s w st1 s1 w1 [E C I R RS D F K Kd] [E1 C1 I1 R1 RS1 D1 F1 K1 Kd1] GR. constructor; cbn; auto.
  - eapply open_more; [|exact R]. apply grown_names. exact GR.
  - exact (define_grown _ _ _ _ D GR).
Qed.
