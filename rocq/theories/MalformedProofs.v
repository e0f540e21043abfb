(** Makefiles that end the program: lines that are not well-formed. *)
From Coq Require Import String ZArith.
From Verif Require Import Base LocModel EvdModel NomModel AstModel ParseModel AstParseModel EngineModel
  EvdSpec DbSpec ParseSpec EvalSpec AstParseSpec EngineSpec MakeSpec CrashSpec
  EvdProofs EvdProofs3 ParseProofs ParseProofs2 ParseProofs3 ParseProofs4 ParseProofs5 EvalProofs2 EvalProofs3 EvalProofs4 FuelProofs
  DbProofs EvdProofs2 AstParseProofs AstParseProofs2 AstParseProofs3 SubstProofs SafeProofs SafeProofs2 SafeProofs3 SafeProofs4
  EngineProofs EngineProofs2 EngineProofs3 MakeProofs MakeProofs2 MakeProofs3 MakeProofs4 MakeProofs6 MakeProofs7 MakeProofs8 MakeProofs9 MakeProofs10 MakeProofs11 MakeProofs12 MakeProofs13 MakeProofs14 MakeProofs5 CrashProofs CrashProofs2 UnclosedProofs.
Local Open Scope nat_scope.

(** * Assignments *)
Lemma unclosed_stops : forall fs st s w i t l name op v, sim st s w -> at_text i t -> acting_line st t l ->
  assigns l name op v -> unclosed name \/ (expression name /\ unclosed v) -> stops_at fs s w i.
Proof.
  intros fs st s w i t l name op v SI A AL AS U. destruct (active_stop fs st s w i t l SI A AL) as (r & b & W & F & M & WS & MS & E).
  destruct AL as ((_ & _ & _ & S) & _). assert (Fs : tidy (block_span b)) by exact F.
  destruct (whitespace_keeps _ WS) as (s0 & q0 & E0 & K0 & M0). rewrite MS, (solid_strip _ S) in M0. rewrite <- M0 in AS.
  assert (F0 : tidy s0) by exact (proj1 (proj2 (proj2 K0)) Fs).
  destruct (assignment_parts s0 name op v (proj1 K0) F0 AS) as (r1 & ns & P & (Kn & Mn) & (Kr & Mr)).
  destruct (whitespace_keeps r1 (proj1 Kr)) as (r2 & q & P2 & K2 & M2). rewrite Mr in M2.
  assert (Z : lstrip fst v = v). { destruct AS as (? & ? & post & _ & _ & _ & _ & ->). apply lstrip_twice. }
  rewrite Z in M2. clear Z.
  assert (Fn : tidy ns) by exact (proj1 (proj2 (proj2 Kn)) F0).
  assert (F2 : tidy r2) by exact (proj1 (proj2 (proj2 K2)) (proj1 (proj2 (proj2 Kr)) F0)).
  assert (H : forall ev, exists ks, parse_variable_assignment ev no_modifiers w s0 = Ok (w, PFailure ks) /\ is_unterminated (error_kind ks) = true).
  { intros ev. unfold parse_variable_assignment, wbind. rewrite P. cbn [bind]. rewrite P2. cbn [bind]. rewrite <- Mn, <- M2 in U. destruct U as [U|(X & U)].
    - destruct (unclosed_at ns (proj1 Kn) Fn U) as (ks & Ek & Q). rewrite Ek. cbn [bind]. exists ks. auto.
    - destruct (parse_at ns (proj1 Kn) Fn X) as (rn & an & Pn & _). rewrite Pn. cbn [bind].
      destruct (unclosed_at r2 (proj1 K2) F2 U) as (ks & Ek & Q). rewrite Ek. cbn [bind]. exists ks. auto. }
  exists 0. intros fuel _. rewrite E. unfold parse_active_line, variable_parse_line, wbind. rewrite E0. cbn [bind].
  assert (Z : sp_len s0 <> 0). { rewrite <- (span_marks_len s0 (proj1 K0)), M0. destruct S as (c & u' & -> & _). discriminate. }
  apply Nat.eqb_neq in Z. rewrite Z. cbn [variable_loop]. destruct (H (eval_fuel fs fuel)) as (ks & Ek & Q). rewrite Ek. cbn [bind]. rewrite Q.
  exact Logic.I.
Qed.

(** * Directives *)
Lemma directive_fails : forall (table : list (string * (ast -> directive))) s k f rest, wf_span s -> tidy s ->
  Forall (fun kt => lowercase (fst kt)) table ->
  (forall k' f', In (k', f') table -> starts_with (lit k) (lit k') = true \/ starts_with (lit k') (lit k) = true -> k' = k) ->
  In (k, f) table -> keyword k (span_marks s) rest -> ~ expression rest ->
  exists ks, palt (List.map (fun kf => pmap (snd kf) (preceded (tag_no_case (lit (fst kf))) parse_ast)) table) s = Ok (PFailure ks).
Proof.
  intros table s k f rest W F. induction table as [|(k0, f0) table IH]; intros LW AP I Kw X; [destruct I|].
  inversion LW as [|? ? L0 LW']; subst. cbn [fst] in L0.
  destruct (tag_no_case_at s k0 W L0) as [(rest0 & Kw0 & r & p & P & Sb & M)|(No & P)].
  - assert (k0 = k) as ->. { apply (AP k0 f0); [now left|]. exact (keyword_excl _ _ _ _ _ Kw Kw0). }
    assert (rest0 = rest) as ->. { rewrite (keyword_skip _ _ _ Kw0), (keyword_skip _ _ _ Kw). reflexivity. }
    pose proof (sub_keeps _ _ _ _ Sb) as Kp. rewrite <- M in X.
    destruct (not_expression r (proj1 Kp) (proj1 (proj2 (proj2 Kp)) F) X) as (ks & Pa).
    exists ks. cbn [List.map palt fst snd]. unfold pmap at 1, preceded at 1. rewrite P. cbn [pbind bind pok]. rewrite Pa. reflexivity.
  - destruct I as [I|I]; [injection I as -> ->; exfalso; exact (No rest Kw)|].
    destruct IH as (ks & E); auto.
    + intros k' f' I'. apply (AP k' f'). now right.
    + exists ks. cbn [List.map palt fst snd]. unfold pmap at 1, preceded at 1. rewrite P. cbn [pbind bind pok]. exact E.
Qed.

Lemma malformed_stops : forall fs st s w i t l k u, sim st s w -> at_text i t -> acting_line st t l -> no_assignment l -> begins_none modifier_words l ->
  In k directive_words -> keyword k l u -> ~ expression u -> stops_at fs s w i.
Proof.
  intros fs st s w i t l k u SI A AL NA BN I Kw X. destruct (active_stop fs st s w i t l SI A AL) as (r & b & W & F & M & WS & MS & E).
  destruct AL as ((_ & _ & _ & S) & _).
  assert (LS : lstrip fst (span_marks (block_span b)) = l) by (rewrite MS; apply solid_strip; exact S).
  exists 0. intros fuel _. rewrite E.
  destruct (variable_none (eval_fuel fs fuel) w (block_span b) WS) as (e & V); [rewrite LS; exact NA|rewrite LS; exact BN|].
  assert (exists f, In (k, f) directive_table) as (f & If).
  { cbn in I. repeat (destruct I as [<-|I]; [eexists; cbn; eauto 12|]). destruct I. }
  assert (Q : directive_parse_line = palt (List.map (fun kf => pmap (snd kf) (preceded (tag_no_case (lit (fst kf))) parse_ast)) directive_table)) by reflexivity.
  rewrite <- MS in Kw. destruct (directive_fails directive_table (block_span b) k f u WS F) as (ks & D); auto.
  - repeat (constructor; [split; [reflexivity|apply lit_ascii; reflexivity]|]). constructor.
  - intros k' f' I' H. clear - If I' H. cbn in If. cbn in I'.
    repeat (destruct If as [If|If]; [injection If as <- <-; repeat (destruct I' as [I'|I']; [injection I' as <- _; first [reflexivity|exfalso; destruct H as [H|H]; discriminate H]|]); destruct I'|]); destruct If.
  - unfold parse_active_line. rewrite V. cbn [bind run_parser]. rewrite Q, D. cbn [bind run_parser]. exact Logic.I.
Qed.

(** * Recipes and definitions *)
Lemma recipe_stops : forall fs st s w i t c u body rest r, sim st s w -> at_text i t -> ~ is_comment_text t -> m_rule st = Some r ->
  t = c :: u -> fst c = c_tab -> recipe_text u body rest -> ~ expression body -> stops_at fs s w i.
Proof.
  intros fs st s w i t c u body rest r SI A NC MR -> T RT X.
  destruct (recipe_line_reads i c u body rest A T RT) as (j & p & E & _ & W & F & M). rewrite <- M in X.
  destruct (not_expression p W F X) as (ks & Pa). rewrite Pa in E.
  pose proof (sim_rule _ _ _ SI) as RR. rewrite MR in RR. destruct (ps_rule s) as [q|] eqn:Ep; [|contradiction].
  exists 0. intros fuel _. unfold engine_line, parse_line. destruct (not_comment_at i _ A NC) as (kc & Ec). rewrite Ec. cbn [bind run_parser].
  rewrite Ep, (sim_cmd _ _ _ SI), E. exact Logic.I.
Qed.

Lemma body_stops : forall fs st s w i t d l rest, sim st s w -> at_text i t -> ~ is_comment_text t -> m_rule st = None -> MakeSpec.m_define st = Some d ->
  body_line t l rest -> l <> [] -> ~ expression l -> stops_at fs s w i.
Proof.
  intros fs st s w i t (x, n) l rest SI A NC RN DN B NE X.
  destruct (define_start fs st s w i t x n SI A NC RN DN) as (d & PD & V & _ & E).
  destruct (define_grab_at i t l rest A B) as (r & p & Eg & Ar & (Kp & Mp) & Nl).
  pose proof (proj1 Kp) as Wp. assert (Fp : tidy p) by exact (proj1 (proj2 (proj2 Kp)) (single_tidy _ (proj1 (proj2 A)))).
  pose proof (location_cases p Wp) as LC. rewrite Mp in LC.
  destruct l as [|l0 l]; [congruence|]. cbn in LC. destruct (span_location p) as [lc| |] eqn:EL; [|exfalso; exact (LC (proj1 Fp))|contradiction]. subst lc.
  rewrite <- Mp in X. destruct (not_expression p Wp Fp X) as (ks & Pa).
  exists 0. intros fuel _. rewrite E. unfold parse_define_line. rewrite Eg. cbn [pbind bind]. rewrite EL. cbn [bind unwrap option_map].
  rewrite Pa. exact Logic.I.
Qed.
