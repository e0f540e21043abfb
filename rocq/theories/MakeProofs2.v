(** Text-level makefile semantics: comments, blank lines, assignments. *)
From Coq Require Import String.
From Verif Require Import Base LocModel EvdModel NomModel AstModel ParseModel AstParseModel EngineModel
  EvdSpec DbSpec ParseSpec EvalSpec AstParseSpec EngineSpec MakeSpec
  EvdProofs EvdProofs3 ParseProofs ParseProofs2 ParseProofs4 ParseProofs5 EvalProofs2 EvalProofs3 EvalProofs4 FuelProofs
  DbProofs EvdProofs2 AstParseProofs AstParseProofs2 AstParseProofs3 SafeProofs SafeProofs2 SafeProofs3 SafeProofs4
  EngineProofs EngineProofs2 EngineProofs3 MakeProofs.
Local Open Scope nat_scope.

(** The position [i] is in text straight from a file, and [t] is what follows. *)
Definition at_text (i : span) (t : text) : Prop := gspan i /\ single i /\ span_marks i = t.

Lemma at_len : forall i t, at_text i t -> sp_len i = List.length t.
Proof. intros i t (G & _ & <-). symmetry. apply span_marks_len, G. Qed.

Lemma at_sub : forall i t k n r u, at_text i t -> sub i k n r -> span_marks r = u -> at_text r u.
Proof.
  intros i t k n r u (G & S & _) B M. split; [exact (sub_gspan _ _ _ _ G B)|]. split; [|exact M].
  exact (within_single _ _ (sub_within _ _ _ _ B) S).
Qed.

Lemma line_at : forall i t l rest, at_text i t -> line_text t l rest ->
  exists r b, makefile_line i GNU true = Ok (POk r b) /\ at_text r rest /\ wf_block b /\ tidy_block b /\ block_marks b = l.
Proof.
  intros i t l rest A L. pose proof A as (G & S & M). destruct L as [t ls last rest N L|p h u N E].
  - rewrite <- M in N, L. destruct (makefile_line_ok GNU true i ls last rest (proj1 G) N L) as (r & b & k & E & W & _ & B & Mr & Mb).
    exists r, b. split; [exact E|]. split; [exact (at_sub _ _ _ _ _ _ A B Mr)|]. split; [exact W|].
    split; [exact (proj1 (makefile_line_tidy _ _ _ _ _ (proj1 G) S E))|exact Mb].
  - destruct (makefile_line_hash GNU true i p h u (proj1 G) M N E) as (r & b & Q & W & _ & B & Mr & Mb).
    exists r, b. split; [exact Q|]. split; [exact (at_sub _ _ _ _ _ _ A B Mr)|]. split; [exact W|].
    split; [exact (proj1 (makefile_line_tidy _ _ _ _ _ (proj1 G) S Q))|exact Mb].
Qed.

(** * Comments *)
Lemma within_ws : forall s r p, makefile_whitespace s = Ok (POk r p) -> within s r.
Proof. intros s r p E. apply (within_till _ _ _ _ E). Qed.

Lemma within_pchar : forall c s r d, pchar c s = Ok (POk r d) -> within s r.
Proof.
  intros c s r d E. unfold pchar in E. inv_bind E. destruct x as [x|]; [|discriminate]. destruct (x =? c)%N; [|discriminate].
  inv_bind E. inversion E; subst. eapply within_from; eauto.
Qed.

Lemma within_popt_char : forall c s r d, popt (pchar c) s = Ok (POk r d) -> within s r.
Proof.
  intros c s r d E. unfold popt in E. apply bind_inv in E as (x & Ex & E).
  destruct x as [j a|ks|ks]; inversion E; subst; [eapply within_pchar; eauto|apply within_refl].
Qed.

Lemma within_comment_loop : forall fuel i line reason r, comment_loop fuel i line reason = Ok (POk r tt) -> within i r.
Proof.
  induction fuel as [|fuel IH]; intros i line reason r E; [discriminate|]. cbn [comment_loop] in E.
  apply bind_inv in E as (go & _ & E). destruct go; [|inversion E; subst; apply within_refl].
  apply pbind_inv in E as (j & [p e] & Ej & E). unfold preceded in Ej. apply pbind_inv in Ej as (j0 & x & E0 & Ej).
  apply within_popt_char in E0. apply within_grab in Ej. apply IH in E.
  eapply within_trans; [exact E0|]. eapply within_trans; [exact (proj1 Ej)|exact E].
Qed.

Lemma within_comment : forall i r, parse_comment i = Ok (POk r tt) -> within i r.
Proof.
  intros i r E. unfold parse_comment in E. apply pbind_inv in E as (j & [p e] & Ej & E).
  unfold preceded in Ej. apply pbind_inv in Ej as (j0 & x & E0 & Ej). apply within_grab in Ej. apply within_comment_loop in E.
  assert (within i j0).
  { unfold add_return_error in E0. apply bind_inv in E0 as (y & Ey & E0). destruct y; inversion E0; subst. eapply within_pchar; eauto. }
  eapply within_trans; [exact H|]. eapply within_trans; [exact (proj1 Ej)|exact E].
Qed.

Lemma comment_at : forall i t rest, at_text i t -> comment_text t rest ->
  exists r, parse_comment_following_whitespace i = Ok (POk r tt) /\ at_text r rest.
Proof.
  intros i t rest A (h & u & v & ls & last & E & Hh & Hu & Hv & L). pose proof A as (G & S & M).
  destruct (whitespace_marks i (proj1 G)) as (j & q & Ew & Sj & Mj). rewrite M, E in Mj.
  destruct (comment_thm j h u v ls last rest (sub_wf _ _ _ _ Sj) Mj Hh Hu Hv L) as (r & Er & Mr).
  assert (P : parse_comment_following_whitespace i = Ok (POk r tt)).
  { unfold parse_comment_following_whitespace, preceded. rewrite Ew. cbn [pbind bind]. exact Er. }
  exists r. split; [exact P|]. split; [|split; [|exact Mr]].
  - destruct (comment_which i G) as [(_ & r' & P' & Gr & _)|(_ & _ & ks & P')]; congruence.
  - eapply within_single; [|exact S]. eapply within_trans; [exact (sub_within _ _ _ _ Sj)|]. eapply within_comment; eauto.
Qed.

Lemma not_comment_at : forall i t, at_text i t -> ~ is_comment_text t ->
  exists ks, parse_comment_following_whitespace i = Ok (PError ks).
Proof.
  intros i t (G & _ & M) N. destruct (comment_which i G) as [((u & Q) & _)|(_ & _ & ks & P)]; [|eauto].
  exfalso. apply N. rewrite span_text_marks, M in Q. rewrite <- (drop_while_id fst) in Q.
  destruct (lstrip fst t) as [|h v] eqn:L; [discriminate|]. inversion Q. exists h, v. auto.
Qed.

(** * Lines in general *)

Lemma line_start_with : forall fs st s w i t r b, sim st s w -> at_text i t -> ~ is_comment_text t -> directly st t ->
  makefile_line i GNU true = Ok (POk r b) ->
    forall fuel, engine_line fs fuel s w i =
      if block_len b =? 0 then Ok (s, w, POk r tt)
      else
        let* c := conditional_parse_line (block_span b) in
        run_parser s w r c (handle_conditional (eval_fuel fs fuel) s w)
          (fun _ => if ps_ignoring s then Ok (s, w, POk r tt)
                    else parse_active_line (eval_fuel fs fuel) (read_makefile_with (process_fuel fs fuel)) fs s w r b).
Proof.
  intros fs st s w i t r b SI A NC (NR & ND) E fuel.
  unfold engine_line, parse_line. destruct (not_comment_at i t A NC) as (ks & Ec). rewrite Ec. cbn [bind run_parser].
  assert (C : parse_collapsed_line (eval_fuel fs fuel) (read_makefile_with (process_fuel fs fuel)) fs s w i =
      if block_len b =? 0 then Ok (s, w, POk r tt)
      else
        let* c := conditional_parse_line (block_span b) in
        run_parser s w r c (handle_conditional (eval_fuel fs fuel) s w)
          (fun _ => if ps_ignoring s then Ok (s, w, POk r tt)
                    else parse_active_line (eval_fuel fs fuel) (read_makefile_with (process_fuel fs fuel)) fs s w r b)).
  { unfold parse_collapsed_line. rewrite E. reflexivity. }
  pose proof (sim_rule _ _ _ SI) as RR. pose proof (sim_define _ _ _ SI) as DD. rewrite ND in DD.
  destruct (ps_define s); [contradiction|].
  destruct (ps_rule s) as [p|]; [|exact C].
  destruct (m_rule st) as [rl|]; [|contradiction].
  destruct (recipe_which (w_cmd w) i (proj1 A)) as (ks' & Er).
  { rewrite (sim_cmd _ _ _ SI). reflexivity. }
  { rewrite (sim_cmd _ _ _ SI). intros (u & Q). rewrite span_text_marks, (proj2 (proj2 A)) in Q.
    destruct t as [|c v]; [discriminate|]. inversion Q. apply NR; [discriminate|]. eauto. }
  rewrite Er. cbn [bind run_parser]. exact C.
Qed.

Lemma line_start : forall fs st s w i t l rest, sim st s w -> at_text i t -> ~ is_comment_text t -> directly st t -> line_text t l rest ->
  exists r b, at_text r rest /\ wf_block b /\ tidy_block b /\ block_marks b = l /\
    forall fuel, engine_line fs fuel s w i =
      if block_len b =? 0 then Ok (s, w, POk r tt)
      else
        let* c := conditional_parse_line (block_span b) in
        run_parser s w r c (handle_conditional (eval_fuel fs fuel) s w)
          (fun _ => if ps_ignoring s then Ok (s, w, POk r tt)
                    else parse_active_line (eval_fuel fs fuel) (read_makefile_with (process_fuel fs fuel)) fs s w r b).
Proof.
  intros fs st s w i t l rest SI A NC DR L.
  destruct (line_at i t l rest A L) as (r & b & E & Ar & W & F & M). exists r, b.
  split; [exact Ar|]. split; [exact W|]. split; [exact F|]. split; [exact M|]. exact (line_start_with fs st s w i t r b SI A NC DR E).
Qed.

(** * Keywords *)
Lemma keyword_starts : forall k t, (exists rest, keyword k t rest) <-> starts_with (lit k) (List.map ascii_lower (chars t)) = true.
Proof.
  intros k t. rewrite starts_with_iff. split.
  - intros (rest & w & -> & E). exists (List.map ascii_lower (chars rest)). unfold chars in *. rewrite !map_app, E. reflexivity.
  - intros (post & E). exists (skipn (List.length (lit k)) t), (firstn (List.length (lit k)) t). split; [symmetry; apply firstn_skipn|].
    unfold chars. rewrite <- !firstn_map. unfold chars in E. rewrite E. rewrite firstn_app, firstn_all, Nat.sub_diag. cbn. apply app_nil_r.
Qed.

Lemma keyword_skip : forall k t rest, keyword k t rest -> rest = skipn (List.length (lit k)) t.
Proof.
  intros k t rest (w & -> & E). rewrite <- E. unfold chars. rewrite !map_length, skipn_app, skipn_all, Nat.sub_diag. reflexivity.
Qed.

Definition lowercase (k : string) : Prop := List.map ascii_lower (lit k) = lit k /\ asciis (lit k).

Lemma tag_no_case_at : forall s k, wf_span s -> lowercase k ->
  (exists rest, keyword k (span_marks s) rest /\ exists r p, tag_no_case (lit k) s = Ok (POk r p) /\
     sub s (List.length (lit k)) (sp_len s - List.length (lit k)) r /\ span_marks r = rest) \/
  ((forall rest, ~ keyword k (span_marks s) rest) /\ tag_no_case (lit k) s = Ok (PError [KNom])).
Proof.
  intros s k W (K & A). pose proof (tag_no_case_ok s (lit k) W A) as T. rewrite K, span_text_marks in T. fold (chars (span_marks s)) in T.
  destruct (starts_with (lit k) (List.map ascii_lower (chars (span_marks s)))) eqn:Q.
  - left. destruct T as (r & p & E & Sr & Sp & Ln). destruct (proj2 (keyword_starts k (span_marks s)) Q) as (rest & Kw).
    exists rest. split; [exact Kw|]. exists r, p. split; [exact E|]. split; [exact Sr|].
    rewrite (keyword_skip _ _ _ Kw). exact (sub_end _ _ _ W Sr).
  - right. split; [|exact T]. intros rest Kw.
    assert (X := proj1 (keyword_starts k (span_marks s)) (ex_intro _ rest Kw)). congruence.
Qed.
