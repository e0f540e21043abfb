(** Proofs about the engine loop: progress, consistency, conditionals. *)
From Coq Require Import String Lia ZArith.
From Verif Require Import Base LocModel EvdModel NomModel AstModel ParseModel AstParseModel EngineModel
  EvdSpec DbSpec ParseSpec EvalSpec AstParseSpec EngineSpec DbProofs EvdProofs EvdProofs2 EvdProofs3 ParseProofs ParseProofs2
  ParseProofs3 ParseProofs4 ParseProofs5 SubstProofs EvalProofs EvalProofs2 EvalProofs3 EvalProofs4
  AstParseProofs AstParseProofs2 AstParseProofs3 SafeProofs SafeProofs2 SafeProofs3 SafeProofs4.
Local Open Scope nat_scope.

(** * Progress and consistency *)

Lemma engine_line_safe : forall fs fuel s w i, ascii_files fs -> world_good w -> state_ok s w -> gspan i -> 0 < sp_len i ->
  safe True (lgood w (sp_len i)) (engine_line fs fuel s w i).
Proof.
  intros fs fuel s w i Hfs G S Gi L. destruct (engine_safe fs Hfs fuel) as (He & Hp). unfold engine_line.
  apply line_step_safe; auto; [apply eval_empty|]. now apply read_with_safe.
Qed.

Lemma engine_line_ok : forall fs fuel s w i s1 w1 i1, ascii_files fs -> world_good w -> state_ok s w -> gspan i -> 0 < sp_len i ->
  engine_line fs fuel s w i = Ok (s1, w1, POk i1 tt) ->
  sp_len i1 < sp_len i /\ world_good w1 /\ grown w w1 /\ state_ok s1 w1 /\ gspan i1.
Proof.
  intros fs fuel s w i s1 w1 i1 Hfs G S Gi L E. pose proof (engine_line_safe fs fuel s w i Hfs G S Gi L) as H. rewrite E in H.
  destruct H as (A & B & C & D & F). auto.
Qed.

Lemma engine_lines_count : forall fs fuel n s w i s' w' i', ascii_files fs -> world_good w -> state_ok s w -> gspan i ->
  engine_lines fs fuel n s w i s' w' i' ->
  n + sp_len i' <= sp_len i /\ world_good w' /\ grown w w' /\ state_ok s' w' /\ gspan i'.
Proof.
  intros fs fuel n s w i s' w' i' Hfs G S Gi H.
  induction H as [s w i|n s w i s1 w1 i1 s2 w2 i2 L E H IH]; [split; [lia|]; split; [exact G|]; split; [apply grown_refl|]; split; [exact S|exact Gi]|].
  destruct (engine_line_ok _ _ _ _ _ _ _ _ Hfs G S Gi L E) as (A & B & C & D & F). destruct (IH B D F) as (P & Q & R & T & U).
  split; [lia|]. split; [exact Q|]. split; [eapply grown_trans; eauto|]. auto.
Qed.

Lemma loop_ends : forall ev rm fs w b, ascii_files fs -> total_evaluator ev -> total_reader rm -> world_good w -> wf_block b ->
  ends_well (process_step ev rm fs w b) (fun x => world_good (fst x) /\ grown w (fst x)).
Proof.
  intros ev rm fs w b Hfs (He & Hn) Hr G W.
  assert (H : safe False (processed w) (process_step ev rm fs w b)).
  { apply process_step_safe; [| | |exact Hfs|exact G|exact W].
    - intros w1 a G1 A1. exact (He w1 a G1 A1).
    - intros w1 a w2 b2 (l & N) E. exact (Hn w1 a w2 b2 l N E).
    - intros w1 nm t G1 A1. exact (Hr w1 nm t G1 A1). }
  unfold safe in H. unfold ends_well. destruct (process_step ev rm fs w b) as [x| |]; auto.
Qed.

Lemma world_text_good : forall w nm, world_good w -> world_good (set_names w (fst (intern_file_name (w_names w) nm))) /\
  grown w (set_names w (fst (intern_file_name (w_names w) nm))).
Proof.
  intros w nm G. destruct (intern_file_name (w_names w) nm) as [n id] eqn:E. cbn [fst].
  assert (V : n_vars n = n_vars (w_names w)).
  { unfold intern_file_name in E. destruct (get_or_intern nm (n_files (w_names w))); inversion E; reflexivity. }
  assert (R : grown w (set_names w n)).
  { split; [exists []; cbn; rewrite app_nil_r; exact V|]. split; [exact (proj1 (intern_grows _ _ _ _ E))|reflexivity]. }
  split; [exact (good_grown w _ G R eq_refl)|exact R].
Qed.

Lemma read_consistent : forall fs fuel w nm text w' r, ascii_files fs -> world_good w -> asciis text ->
  read_makefile fs fuel w nm (inr text) = Ok (w', r) -> world_good w' /\ grown w w'.
Proof.
  intros fs fuel w nm text w' r Hfs G A E. destruct (engine_safe fs Hfs fuel) as (_ & Hp).
  pose proof (read_with_safe True _ Hp w nm text G A) as H. cbn [read_makefile] in E. rewrite E in H. exact H.
Qed.

(** * Results of reading *)

Lemma process_step_mok : forall ev rm fs w b w' r, process_step ev rm fs w b = Ok (w', r) -> r = MOk.
Proof.
  intros ev rm fs w b w' r E. unfold process_step in E. apply bind_ok in E. destruct E as (x & _ & E).
  destruct x as [i o|ks|ks]; [| |discriminate]; apply bind_ok in E; destruct E as ([s w1] & _ & E); inversion E; reflexivity.
Qed.
Lemma process_mok : forall fs fuel w b w' r, process_fuel fs fuel w b = Ok (w', r) -> r = MOk.
Proof. intros fs [|fuel] w b w' r E; [discriminate|]. exact (process_step_mok _ _ _ _ _ _ _ E). Qed.
Lemma read_mok : forall fs fuel w nm inp w' r, read_makefile fs fuel w nm inp = Ok (w', r) ->
  r = match inp with inl k => MIOError k | inr _ => MOk end.
Proof.
  intros fs fuel w nm [k|t] w' r E; cbn [read_makefile] in E; [inversion E; reflexivity|].
  unfold read_makefile_with in E. destruct (intern_file_name (w_names w) nm) as [n id]. apply bind_ok in E.
  destruct E as (b & _ & E). exact (process_mok _ _ _ _ _ _ E).
Qed.

(** * What a line is *)

Lemma drop_while_id : forall {A} (ch : A -> char) l, List.map ch (lstrip ch l) = lstrip id (List.map ch l).
Proof.
  intros A ch. unfold lstrip. induction l as [|a l IH]; [reflexivity|]. cbn. unfold id in *. destruct (blank (ch a)); [exact IH|reflexivity].
Qed.

Lemma comment_which : forall i, gspan i ->
  (is_comment i /\ exists r, parse_comment_following_whitespace i = Ok (POk r tt) /\ gspan r /\ sp_len r < sp_len i) \/
  (~ is_comment i /\ no_hash_first i /\ exists ks, parse_comment_following_whitespace i = Ok (PError ks)).
Proof.
  intros i G. assert (T : exists j q, makefile_whitespace i = Ok (POk j q) /\ wf_span j /\ span_text j = lstrip id (span_text i)).
  { destruct (whitespace_marks i (proj1 G)) as (j & q & E & Sj & Mj). exists j, q. split; [exact E|]. split; [apply (sub_gspan _ _ _ _ G Sj)|].
    rewrite (span_text_marks j), Mj, drop_while_id, <- span_text_marks. reflexivity. }
  destruct T as (j & q & Ew & Wj & Tj).
  destruct (comment_safe i G) as [(r & E & Gr & Lr)|(ks & E & N)].
  - left. split; [|eauto]. unfold parse_comment_following_whitespace, preceded in E. rewrite Ew in E. cbn [pbind bind] in E.
    unfold is_comment. rewrite <- Tj. destruct (span_marks j) as [|h t] eqn:M.
    + destruct (parse_comment_no j Wj) as (e & E2); [intros x y X; congruence|]. congruence.
    + destruct (N.eq_dec (fst h) c_hash) as [C|C].
      * exists (List.map fst t). rewrite span_text_marks, M. cbn. now rewrite C.
      * destruct (parse_comment_no j Wj) as (e & E2); [intros x y X; rewrite M in X; inversion X; subst; exact C|]. congruence.
  - right. split; [|eauto]. intros (t & C). rewrite <- Tj in C.
    unfold parse_comment_following_whitespace, preceded in E. rewrite Ew in E. cbn [pbind bind] in E.
    rewrite span_text_marks in C. destruct (span_marks j) as [|h u] eqn:M; [discriminate|]. cbn in C. inversion C as [[C1 C2]].
    destruct (comment_parts_total u) as (parts & v & Fp & Nv & Eu). destruct (logical_line_total mch v) as (ls & last & rest & L).
    destruct (parse_comment_ok j h parts v ls last rest Wj C1 Fp Nv) as (r & Er & _); [congruence|exact L|]. congruence.
Qed.

Lemma recipe_which : forall c i, gspan i -> ascii c ->
  ~ (exists t, span_text i = c :: t) -> exists ks, recipe_line c i = Ok (PError ks).
Proof.
  intros c i G A N. unfold recipe_line, add_return_error, grab_command_line, preceded.
  pose proof (pchar_ok i c (proj1 G) A) as P. destruct (span_text i) as [|d t] eqn:T.
  - rewrite P. cbn. eauto.
  - destruct (d =? c)%N eqn:D; [apply N.eqb_eq in D; subst; exfalso; apply N; eauto|]. rewrite P. cbn. eauto.
Qed.
Definition no_error {A} (r : presult A) : Prop := match r with PError _ => False | _ => True end.
Lemma parse_ast_no_error : forall s, wf_span s -> safe True no_error (parse_ast s).
Proof. intros s W. pose proof (parse_outcome_ok s W) as P. destruct (parse_ast s) as [[r a|ks|ks]| |]; cbn; auto. Qed.

Lemma recipe_loop_no_error : forall c, ascii c -> forall fuel i line, gspan i -> headed line ->
  safe True no_error (recipe_loop fuel c i line).
Proof.
  intros c A. induction fuel as [|fuel IH]; intros i line G H; [exact I|]. cbn [recipe_loop].
  assert (Fin : forall j b, headed b -> safe True no_error (let! (_j, a) := parse_ast (block_span b) in pok j a)).
  { intros j b Hb. unfold pbind. eapply safe_bind; [apply parse_ast_no_error, headed_span, Hb|].
    intros [r a|ks|ks] Q; try exact I. contradiction. }
  rewrite (ends_with_backslash_ok _ (headed_span line H)). cbn [bind].
  destruct (Nat.odd _) eqn:O; [|apply Fin; auto].
  assert (N : b_content line <> []).
  { intros Z. replace (span_marks (block_span line)) with (@nil (char * location)) in O; [discriminate|].
    unfold span_marks. cbn [block_span sp_contents sp_off sp_len]. rewrite Z. cbn. now rewrite firstn_nil. }
  assert (H1 : headed (block_push line cr_newline)) by (apply headed_push; auto; apply wf_cref_weak, newline_wf).
  eapply safe_bind; [apply safe_false, command_safe; eauto|]. intros [j out|ks|ks] K; [|apply Fin; auto|apply Fin; auto].
  destruct K as (Gj & Lj & Go). destruct out as [nl reason]. cbn [fst] in Go.
  eapply safe_bind; [apply safe_false, content_reference_w, Go|]. intros cr Wc.
  assert (H2 : headed (block_push (block_push line cr_newline) cr)).
  { apply headed_push; auto. unfold block_push. cbn. destruct (b_content line); discriminate. }
  destruct reason; [apply Fin; auto| |]; (apply IH; auto).
Qed.

Lemma recipe_is : forall c i t, gspan i -> ascii c -> span_text i = c :: t -> safe True no_error (recipe_line c i).
Proof.
  intros c i t G A T. unfold recipe_line, add_return_error, grab_command_line, preceded.
  pose proof (pchar_ok i c (proj1 G) A) as P. rewrite T, N.eqb_refl in P. destruct P as (r & P & Sr & _). rewrite P. cbn [pbind bind].
  assert (Gr := sub_gspan _ _ _ _ G Sr). pose proof (grab_line_ok r (proj1 Gr)) as Q.
  destruct (grab (span_text r)) as [[n reason] k]. destruct Q as (j & l & E & Sj & Sl & _). rewrite E. cbn [bind pbind fst snd].
  assert (Gl := sub_gspan _ _ _ _ Gr Sl). assert (Gj := sub_gspan _ _ _ _ Gr Sj).
  assert (Lp : safe True no_error (let* line := to_new_block l in recipe_loop (S (sp_len j)) c j line)).
  { eapply safe_bind; [apply safe_false, to_new_block_safe, Gl|]. intros b (Wb & _). apply recipe_loop_no_error; auto. now apply headed_wf. }
  destruct reason; [|exact Lp|exact Lp].
  unfold pbind. eapply safe_bind; [apply parse_ast_no_error, Gl|]. intros [q a|ks|ks] Q; try exact I. contradiction.
Qed.

(** * What the engine does with a line *)

Section Cases.
  Context (ev : world -> ast -> res (world * block)) (rm : world -> str -> str -> res (world * mresult)) (fs : str -> file).

  Lemma run_ok : forall {A} s w i (r : presult A) cleanup next s1 w1 j,
    run_parser s w i r cleanup next = Ok (s1, w1, POk j tt) ->
    (exists p o, r = POk p o /\ cleanup o = Ok (s1, w1, HOk) /\ j = i) \/
    (exists ks, r = PError ks /\ next tt = Ok (s1, w1, POk j tt)).
  Proof.
    intros A s w i [p o|ks|ks] cleanup next s1 w1 j E; cbn [run_parser] in E; [left|right; eauto|discriminate].
    apply bind_ok in E. destruct E as ([[s2 w2] h] & E & K). destruct h; inversion K; subst. eauto.
  Qed.

  Inductive active_line (s : pstate) (w : world) (line : block) (s1 : pstate) (w1 : world) : Prop :=
  | AL_assign : forall w0 p va s2 w2, variable_parse_line ev w (block_span line) = Ok (w0, POk p va) ->
      close_rule s w0 = Ok (s2, w2) -> handle_global_variable_action s2 w2 va = Ok (s1, w1, HOk) -> active_line s w line s1 w1
  | AL_directive : forall w0 ks p d s2 w2, variable_parse_line ev w (block_span line) = Ok (w0, PError ks) ->
      directive_parse_line (block_span line) = Ok (POk p d) ->
      close_rule s w0 = Ok (s2, w2) -> handle_directive_action ev rm fs s2 w2 d = Ok (s1, w1, HOk) -> active_line s w line s1 w1
  | AL_rule : forall w0 ks ks2 c w2 p ta s3 w3, variable_parse_line ev w (block_span line) = Ok (w0, PError ks) ->
      directive_parse_line (block_span line) = Ok (PError ks2) -> first_char (block_span line) = Ok c ->
      target_parse_line ev w0 (block_span line) = Ok (w2, POk p ta) ->
      close_rule s w2 = Ok (s3, w3) -> handle_target_action s3 w3 ta = Ok (s1, w1, HOk) -> active_line s w line s1 w1
  | AL_nothing : forall w0 ks ks2 c ks3, variable_parse_line ev w (block_span line) = Ok (w0, PError ks) ->
      directive_parse_line (block_span line) = Ok (PError ks2) -> first_char (block_span line) = Ok c ->
      target_parse_line ev w0 (block_span line) = Ok (w1, PError ks3) -> s1 = s -> active_line s w line s1 w1.

  Lemma active_cases : forall s w i line s1 w1 j, parse_active_line ev rm fs s w i line = Ok (s1, w1, POk j tt) ->
    j = i /\ active_line s w line s1 w1.
  Proof.
    intros s w i line s1 w1 j E. unfold parse_active_line in E. apply bind_ok in E. destruct E as ([w0 r] & E0 & E).
    apply run_ok in E. destruct E as [(p & va & -> & E & ->)|(ks & -> & E)].
    { split; [reflexivity|]. apply bind_ok in E. destruct E as ([s2 w2] & C & E). eapply AL_assign; eauto. }
    apply bind_ok in E. destruct E as (r2 & E2 & E). apply run_ok in E. destruct E as [(p & d & -> & E & ->)|(ks2 & -> & E)].
    { split; [reflexivity|]. apply bind_ok in E. destruct E as ([s2 w2] & C & E). eapply AL_directive; eauto. }
    apply bind_ok in E. destruct E as (c & E3 & E).
    destruct (match c with Some c0 => (c0 =? w_cmd w0)%N | None => false end); [discriminate|].
    apply bind_ok in E. destruct E as ([w2 r3] & E4 & E). apply run_ok in E. destruct E as [(p & ta & -> & E & ->)|(ks3 & -> & E)].
    - split; [reflexivity|]. apply bind_ok in E. destruct E as ([s3 w3] & C & E). eapply AL_rule; eauto.
    - inversion E; subst. split; [reflexivity|]. eapply AL_nothing; eauto.
  Qed.

  Inductive line_does (s : pstate) (w : world) (i : span) (s1 : pstate) (w1 : world) (i1 : span) : Prop :=
  | LD_comment : is_comment i -> parse_comment_following_whitespace i = Ok (POk i1 tt) -> s1 = s -> w1 = w -> line_does s w i s1 w1 i1
  | LD_recipe : forall a, ~ is_comment i -> is_recipe s w i -> recipe_line (w_cmd w) i = Ok (POk i1 a) ->
      push_command_line s a = Ok s1 -> w1 = w -> line_does s w i s1 w1 i1
  | LD_define : forall dl, ~ is_comment i -> in_define s -> parse_define_line i = Ok (POk i1 dl) ->
      handle_define_line s w dl = Ok (s1, w1, HOk) -> line_does s w i s1 w1 i1
  | LD_blank : forall line, ~ is_comment i -> ~ is_recipe s w i -> ~ in_define s -> makefile_line i GNU true = Ok (POk i1 line) ->
      block_len line = 0 -> s1 = s -> w1 = w -> line_does s w i s1 w1 i1
  | LD_cond : forall line j c, ~ is_comment i -> ~ is_recipe s w i -> ~ in_define s -> makefile_line i GNU true = Ok (POk i1 line) ->
      0 < block_len line -> conditional_parse_line (block_span line) = Ok (POk j c) ->
      handle_conditional ev s w c = Ok (s1, w1, HOk) -> line_does s w i s1 w1 i1
  | LD_ignored : forall line ks, ~ is_comment i -> ~ is_recipe s w i -> ~ in_define s -> makefile_line i GNU true = Ok (POk i1 line) ->
      0 < block_len line -> conditional_parse_line (block_span line) = Ok (PError ks) ->
      ps_ignoring s = true -> s1 = s -> w1 = w -> line_does s w i s1 w1 i1
  | LD_active : forall line ks, ~ is_comment i -> ~ is_recipe s w i -> ~ in_define s -> makefile_line i GNU true = Ok (POk i1 line) ->
      0 < block_len line -> conditional_parse_line (block_span line) = Ok (PError ks) ->
      ps_ignoring s = false -> active_line s w line s1 w1 -> line_does s w i s1 w1 i1.

  Lemma collapsed_cases : forall s w i s1 w1 i1, ~ is_comment i -> ~ is_recipe s w i -> ~ in_define s ->
    parse_collapsed_line ev rm fs s w i = Ok (s1, w1, POk i1 tt) -> line_does s w i s1 w1 i1.
  Proof.
    intros s w i s1 w1 i1 Nc Nr Nd E. unfold parse_collapsed_line in E. apply bind_ok in E. destruct E as (r & E0 & E).
    destruct r as [i' line|ks|ks]; [|discriminate|discriminate].
    destruct (block_len line =? 0) eqn:Z.
    { apply Nat.eqb_eq in Z. inversion E; subst. eapply LD_blank; eauto. }
    apply Nat.eqb_neq in Z. apply bind_ok in E. destruct E as (r & E1 & E). apply run_ok in E.
    destruct E as [(p & c & -> & E & ->)|(ks & -> & E)].
    - eapply LD_cond; eauto; lia.
    - destruct (ps_ignoring s) eqn:Ig.
      + inversion E; subst. eapply LD_ignored; eauto; lia.
      + apply active_cases in E. destruct E as (-> & E). eapply LD_active; eauto; lia.
  Qed.

  Lemma line_cases : forall s w i s1 w1 i1, gspan i -> ascii (w_cmd w) ->
    parse_line ev rm fs s w i = Ok (s1, w1, POk i1 tt) -> line_does s w i s1 w1 i1.
  Proof.
    intros s w i s1 w1 i1 G A E. unfold parse_line in E. destruct (comment_which i G) as [(C & r & Ec & _)|(C & _ & ks & Ec)]; rewrite Ec in E; cbn [bind] in E.
    { cbn in E. inversion E; subst. now apply LD_comment. }
    cbn [run_parser] in E. destruct (ps_rule s) as [pr|] eqn:R.
    - apply bind_ok in E. destruct E as (r & E0 & E). apply run_ok in E. destruct E as [(p & a & -> & E & ->)|(ks2 & -> & E)].
      + apply bind_ok in E. destruct E as (s2 & E1 & E). inversion E; subst. cbn [rest_of].
        assert (D : (exists t, span_text i = w_cmd w1 :: t) \/ ~ exists t, span_text i = w_cmd w1 :: t).
        { destruct (span_text i) as [|c t]; [right; intros (t & T); discriminate|].
          destruct (N.eq_dec c (w_cmd w1)) as [->|N]; [left; eauto|right; intros (u & U); congruence]. }
        destruct D as [D|D]; [eapply LD_recipe; eauto; split; [congruence|exact D]|].
        destruct (recipe_which _ _ G A D) as (ks3 & X). congruence.
      + apply collapsed_cases; auto.
        * intros (_ & t & T). pose proof (recipe_is _ _ _ G A T) as Q. rewrite E0 in Q. exact Q.
        * intros (X & _). congruence.
    - destruct (ps_define s) as [d|] eqn:D.
      + apply bind_ok in E. destruct E as (r & E0 & E). apply run_ok in E. destruct E as [(p & dl & -> & E & ->)|(ks2 & -> & E)]; [|discriminate].
        eapply LD_define; eauto. split; [exact R|congruence].
      + apply collapsed_cases; auto; [intros (X & _); congruence|intros (_ & X); congruence].
  Qed.
End Cases.

(** * Conditional nesting *)

Lemma close_keeps : forall s w s' w', close_rule s w = Ok (s', w') ->
  ps_conds s' = ps_conds s /\ ps_ignoring s' = ps_ignoring s /\ ps_define s' = ps_define s /\ ps_rule s' = None.
Proof.
  intros s w s' w' E. unfold close_rule in E. destruct (ps_rule s) as [r|].
  - apply bind_ok in E. destruct E as ([n d] & _ & E). inversion E; subst. cbn. auto.
  - inversion E; subst. cbn. auto.
Qed.

Lemma global_keeps : forall s w va s' w' h, handle_global_variable_action s w va = Ok (s', w', h) ->
  ps_conds s' = ps_conds s /\ ps_ignoring s' = ps_ignoring s /\ ps_rule s' = ps_rule s /\ db_rules (w_db w') = db_rules (w_db w).
Proof.
  intros s w va s' w' h E. unfold handle_global_variable_action in E.
  destruct (_ || _); [discriminate|]. apply bind_ok in E. destruct E as (s2 & E0 & E). inversion E; subst.
  assert (K : ps_conds s' = ps_conds s /\ ps_ignoring s' = ps_ignoring s /\ ps_rule s' = ps_rule s).
  { destruct (m_define (va_mods va)).
    - apply bind_ok in E0. destruct E0 as (u & _ & E0). inversion E0; subst. cbn. auto.
    - inversion E0; subst. auto. }
  destruct K as (A & B & C). split; [exact A|]. split; [exact B|]. split; [exact C|].
  cbn. destruct (va_action va); cbn; [reflexivity|]. reflexivity.
Qed.

Lemma target_keeps : forall s w ta s' w' h, handle_target_action s w ta = Ok (s', w', h) ->
  ps_conds s' = ps_conds s /\ ps_ignoring s' = ps_ignoring s /\ ps_define s' = ps_define s /\ w' = w.
Proof.
  intros s w ta s' w' h E. destruct ta as [|ts ds dc c|ts va]; cbn [handle_target_action] in E; [inversion E; subst; auto| |discriminate].
  apply bind_ok in E. destruct E as (s2 & E0 & E). inversion E; subst. destruct c; [|inversion E0; subst; cbn; auto].
  unfold push_command_line in E0. apply bind_ok in E0. destruct E0 as (r & _ & E0). inversion E0; subst. cbn. auto.
Qed.

Lemma directive_keeps : forall ev rm fs s w d s' w' h, handle_directive_action ev rm fs s w d = Ok (s', w', h) -> s' = s.
Proof.
  intros ev rm fs s w d s' w' h E. destruct d; cbn [handle_directive_action] in E; try discriminate;
    (apply bind_ok in E; destruct E as ([w2 r] & _ & E); inversion E; reflexivity).
Qed.

Lemma define_keeps : forall s w dl s' w' h, handle_define_line s w dl = Ok (s', w', h) ->
  ps_conds s' = ps_conds s /\ ps_ignoring s' = ps_ignoring s /\ ps_rule s' = ps_rule s.
Proof.
  intros s w dl s' w' h E. unfold handle_define_line in E. apply bind_ok in E. destruct E as (d & _ & E).
  destruct (dl_action dl); [inversion E; subst; cbn; auto|inversion E; subst; cbn; auto|].
  apply bind_ok in E. destruct E as (n & _ & E). destruct (n =? 0); inversion E; subst; cbn; auto.
Qed.

Lemma active_keeps : forall ev rm fs s w line s1 w1, active_line ev rm fs s w line s1 w1 ->
  ps_conds s1 = ps_conds s /\ ps_ignoring s1 = ps_ignoring s.
Proof.
  intros ev rm fs s w line s1 w1 [w0 p va s2 w2 E0 C H|w0 ks p d s2 w2 E0 E1 C H|w0 ks ks2 c w2 p ta s3 w3 E0 E1 E2 E3 C H|w0 ks ks2 c ks3 E0 E1 E2 E3 ->]; auto;
    apply close_keeps in C; destruct C as (A & B & _).
  - apply global_keeps in H. destruct H as (A' & B' & _). split; congruence.
  - apply directive_keeps in H. subst. auto.
  - apply target_keeps in H. destruct H as (A' & B' & _). split; congruence.
Qed.

Lemma not_taken_stack : forall cs, existsb (fun c => negb (cs_executing c)) cs =
  not_taken (List.map (fun c => (cs_executing c, cs_seen_else c)) cs).
Proof. unfold not_taken. induction cs as [|c cs IH]; [reflexivity|]. cbn. now rewrite IH. Qed.

Definition next_ignoring (ig : bool) (e : cond_event) (st : list (bool * bool)) : bool :=
  match e with EvEndif => ig | _ => not_taken st end.

Lemma comparison_ok : forall fs fuel w a b w1 x w2 y s1 s2, ascii_files fs -> world_good w -> ast_ok a -> ast_ok b ->
  eval_fuel fs fuel w a = Ok (w1, x) -> eval_fuel fs fuel w1 b = Ok (w2, y) ->
  block_into_string x = Ok s1 -> block_into_string y = Ok s2 ->
  comparison_holds (eval_fuel fs fuel) w a b (str_eqb (trim s1) (trim s2)).
Proof.
  intros fs fuel w a b w1 x w2 y s1 s2 Hfs G A B E1 E2 S1 S2. destruct (engine_safe fs Hfs fuel) as (He & _).
  pose proof (He w a G A) as H1. rewrite E1 in H1. destruct H1 as (G1 & _ & W1). cbn [fst snd] in *.
  pose proof (He w1 b G1 B) as H2. rewrite E2 in H2. destruct H2 as (G2 & _ & W2). cbn [fst snd] in *.
  exists w1, x, w2, y. split; [exact E1|]. split; [exact E2|].
  pose proof (into_string_safe x W1) as T1. rewrite S1 in T1. pose proof (into_string_safe y W2) as T2. rewrite S2 in T2. cbn in T1, T2. subst.
  destruct (list_eq_dec _ _ _) as [X|X].
  - rewrite X. apply str_eqb_refl.
  - destruct (str_eqb _ _) eqn:Y; [|reflexivity]. apply str_eqb_eq in Y. contradiction.
Qed.

Lemma handle_event : forall fs fuel s w c s1 w1, ascii_files fs -> world_good w -> cond_ok c ->
  handle_conditional (eval_fuel fs fuel) s w c = Ok (s1, w1, HOk) ->
  exists e, event_of (eval_fuel fs fuel) w c e /\ enter (stack s) e = Some (stack s1) /\
    ps_ignoring s1 = next_ignoring (ps_ignoring s) e (stack s1) /\ ps_rule s1 = ps_rule s /\ ps_define s1 = ps_define s.
Proof.
  intros fs fuel s w c s1 w1 Hfs G C E. destruct c as [a|a|a b|a b|f|]; cbn [handle_conditional] in E; try discriminate.
  - apply bind_ok in E. destruct E as ([wa x] & Ea & E). apply bind_ok in E. destruct E as ([wb y] & Eb & E).
    apply bind_ok in E. destruct E as (s3 & Es & E). apply bind_ok in E. destruct E as (s4 & Et & E). inversion E; subst.
    exists (EvIf (str_eqb (trim s3) (trim s4))). split; [|split; [reflexivity|]; split; [exact (not_taken_stack (_ :: ps_conds s))|auto]].
    eexists. split; [|reflexivity]. destruct C. eapply comparison_ok; eauto.
  - apply bind_ok in E. destruct E as ([wa x] & Ea & E). apply bind_ok in E. destruct E as ([wb y] & Eb & E).
    apply bind_ok in E. destruct E as (s3 & Es & E). apply bind_ok in E. destruct E as (s4 & Et & E). inversion E; subst.
    exists (EvIf (negb (str_eqb (trim s3) (trim s4)))). split; [|split; [reflexivity|]; split; [exact (not_taken_stack (_ :: ps_conds s))|auto]].
    eexists. split; [|reflexivity]. destruct C. eapply comparison_ok; eauto.
  - destruct f as [f|]; [discriminate|]. destruct (ps_conds s) as [|[ex se] cs] eqn:Cs; [discriminate|]. destruct se; [discriminate|].
    inversion E; subst. exists EvElse. split; [reflexivity|]. unfold stack. rewrite Cs. split; [reflexivity|]. split; [|auto].
    exact (not_taken_stack (CondState (negb ex) true :: cs)).
  - destruct (ps_conds s) as [|c cs] eqn:Cs; [discriminate|]. inversion E; subst. exists EvEndif. split; [reflexivity|].
    unfold stack. rewrite Cs. cbn. auto.
Qed.

Lemma directive_step : forall fs fuel s w i c s1 w1 i1, ascii_files fs -> world_good w -> gspan i ->
  engine_line fs fuel s w i = Ok (s1, w1, POk i1 tt) -> directive_line s w i c ->
  handle_conditional (eval_fuel fs fuel) s w c = Ok (s1, w1, HOk) /\ cond_ok c.
Proof.
  intros fs fuel s w i c s1 w1 i1 Hfs G Gi E (Nc & Nr & Nd & r & line & j & El & Ec).
  assert (Pos : 0 < block_len line /\ wf_block line).
  { destruct (line_safe GNU true i Gi) as (r' & b' & X & _ & Wb & _). rewrite El in X. inversion X; subst. split; [|exact Wb].
    pose proof (conditional_keyword_safe (block_span b') (block_gspan b' Wb)) as K.
    unfold conditional_parse_line in Ec. cbn [conditional_line_fuel] in Ec.
    destruct (conditional_keyword (block_span b')) as [[q t|ks|ks]| |]; cbn [pbind bind] in Ec; try discriminate.
    cbn in K. rewrite <- block_len_span. apply K. }
  destruct Pos as (Pos & Wl).
  assert (Co : cond_ok c).
  { pose proof (conditional_safe (block_span line) (block_gspan line Wl)) as K. rewrite Ec in K. apply K. }
  split; [|exact Co]. apply line_cases in E; [|exact Gi|apply G].
  destruct E as [C _ _ _|a C R _ _ _|dl C D _ _|l2 C R D E2 Z -> ->|l2 j2 c2 C R D E2 Z E3 H|l2 ks C R D E2 Z E3 Ig -> ->|l2 ks C R D E2 Z E3 Ig A];
    try contradiction; rewrite El in E2; inversion E2; subst; try congruence; lia.
Qed.

Lemma other_step : forall fs fuel s w i s1 w1 i1, ascii_files fs -> world_good w -> gspan i ->
  engine_line fs fuel s w i = Ok (s1, w1, POk i1 tt) -> (forall c, ~ directive_line s w i c) ->
  ps_conds s1 = ps_conds s /\ ps_ignoring s1 = ps_ignoring s.
Proof.
  intros fs fuel s w i s1 w1 i1 Hfs G Gi E N. apply line_cases in E; [|exact Gi|apply G].
  destruct E as [C _ -> ->|a C R _ P _|dl C D _ H|l2 C R D E2 Z -> ->|l2 j2 c2 C R D E2 Z E3 H|l2 ks C R D E2 Z E3 Ig -> ->|l2 ks C R D E2 Z E3 Ig A]; auto.
  - unfold push_command_line in P. apply bind_ok in P. destruct P as (r & _ & P). inversion P; subst. auto.
  - apply define_keeps in H. destruct H as (A & B & _). auto.
  - exfalso. apply (N c2). split; [exact C|]. split; [exact R|]. split; [exact D|]. exists i1, l2, j2. auto.
  - now apply active_keeps in A.
Qed.

Lemma event_det : forall ev w c e e', event_of ev w c e -> event_of ev w c e' -> e = e'.
Proof.
  intros ev w c e e' H H'.
  assert (K : forall a b r r', comparison_holds ev w a b r -> comparison_holds ev w a b r' -> r = r').
  { intros a b r r' (w1 & x & w2 & y & A & B & ->) (w1' & x' & w2' & y' & A' & B' & ->).
    rewrite A in A'. inversion A'; subst. rewrite B in B'. inversion B'; subst. reflexivity. }
  destruct c as [a|a|a b|a b|[f|]|]; cbn in *; try contradiction; try congruence;
    destruct H as (r & H & ->), H' as (r' & H' & ->); now rewrite (K _ _ _ _ H H').
Qed.

Lemma meets_kept : forall fs fuel s w i h s' w' i', ascii_files fs -> world_good w -> state_ok s w -> gspan i ->
  meets fs fuel s w i h s' w' i' -> kept (stack s) (ps_ignoring s) h = Some (stack s', ps_ignoring s').
Proof.
  intros fs fuel s w i h s' w' i' Hfs G S Gi M.
  induction M as [s w i|s w i s1 w1 i1 h s2 w2 i2 L E N M IH|s w i c e s1 w1 i1 h s2 w2 i2 L E D V M IH]; [reflexivity| |];
    destruct (engine_line_ok _ _ _ _ _ _ _ _ Hfs G S Gi L E) as (_ & G1 & _ & S1 & Gi1); specialize (IH G1 S1 Gi1).
  - destruct (other_step _ _ _ _ _ _ _ _ Hfs G Gi E N) as (A & B). unfold stack in *. rewrite A, B in IH. exact IH.
  - destruct (directive_step _ _ _ _ _ _ _ _ _ Hfs G Gi E D) as (H & Co).
    destruct (handle_event _ _ _ _ _ _ _ Hfs G Co H) as (e' & V' & En & Ig & _). rewrite <- (event_det _ _ _ _ _ V V') in *.
    cbn [kept]. rewrite En. unfold next_ignoring in Ig. rewrite <- Ig. exact IH.
Qed.

Lemma kept_enclosing : forall h st ig st' ig', kept st ig h = Some (st', ig') -> enclosing st h = Some st'.
Proof.
  induction h as [|e h IH]; cbn; intros st ig st' ig' E; [now inversion E|]. destruct (enter st e) as [st1|]; [|discriminate]. eauto.
Qed.
Lemma kept_right : forall h st st' ig', ends_taken st h -> kept st (not_taken st) h = Some (st', ig') -> ig' = not_taken st'.
Proof.
  induction h as [|e h IH]; cbn [ends_taken kept]; intros st st' ig' T E; [now inversion E|].
  destruct T as (T1 & T2). destruct (enter st e) as [st1|] eqn:En; [|discriminate].
  assert (K : match e with EvEndif => not_taken st | _ => not_taken st1 end = not_taken st1).
  { destruct e; auto. destruct st as [|[[|] b] st0]; [discriminate| |contradiction]. inversion En; subst. reflexivity. }
  rewrite K in E. eauto.
Qed.
Lemma kept_app : forall h h' st ig, kept st ig (h ++ h') = match kept st ig h with Some (st1, ig1) => kept st1 ig1 h' | None => None end.
Proof. induction h as [|e h IH]; intros h' st ig; cbn; [reflexivity|]. destruct (enter st e); auto. Qed.
Lemma kept_last : forall h e st ig st' ig', e <> EvEndif -> kept st ig (h ++ [e]) = Some (st', ig') -> ig' = not_taken st'.
Proof.
  intros h e st ig st' ig' N E. rewrite kept_app in E. destruct (kept st ig h) as [[st1 ig1]|]; [|discriminate]. cbn in E.
  destruct (enter st1 e); [|discriminate]. inversion E; subst. destruct e; congruence.
Qed.

Lemma directive_dec : forall s w i, gspan i -> (exists c, directive_line s w i c) \/ (forall c, ~ directive_line s w i c).
Proof.
  intros s w i G. destruct (comment_which i G) as [(C & _)|(C & _)]; [right; intros c (X & _); contradiction|].
  assert (D : is_recipe s w i \/ ~ is_recipe s w i).
  { unfold is_recipe. destruct (ps_rule s) as [r|]; [|right; intros (X & _); congruence].
    destruct (span_text i) as [|c t]; [right; intros (_ & t & T); discriminate|].
    destruct (N.eq_dec c (w_cmd w)) as [->|N]; [left; split; [discriminate|eauto]|right; intros (_ & u & U); congruence]. }
  destruct D as [D|D]; [right; intros c (_ & X & _); contradiction|].
  assert (F : in_define s \/ ~ in_define s).
  { unfold in_define. destruct (ps_rule s); [right; intros (X & _); discriminate|]. destruct (ps_define s); [left; split; congruence|right; intros (_ & X); congruence]. }
  destruct F as [F|F]; [right; intros c (_ & _ & X & _); contradiction|].
  destruct (line_safe GNU true i G) as (r & b & E & _). destruct (conditional_parse_line (block_span b)) as [[j c|ks|ks]| |] eqn:Ec.
  1: left; exists c; split; [exact C|]; split; [exact D|]; split; [exact F|]; exists r, b, j; auto.
  all: right; intros c (_ & _ & _ & r' & l' & j' & X & Y); congruence.
Qed.

Lemma history_exists : forall fs fuel n s w i s' w' i', ascii_files fs -> world_good w -> state_ok s w -> gspan i ->
  engine_lines fs fuel n s w i s' w' i' -> exists h, meets fs fuel s w i h s' w' i'.
Proof.
  intros fs fuel n s w i s' w' i' Hfs G S Gi H. induction H as [s w i|n s w i s1 w1 i1 s2 w2 i2 L E H IH]; [exists []; constructor|].
  destruct (engine_line_ok _ _ _ _ _ _ _ _ Hfs G S Gi L E) as (_ & G1 & _ & S1 & Gi1). destruct (IH G1 S1 Gi1) as (h & M).
  destruct (directive_dec s w i Gi) as [(c & D)|D].
  - destruct (directive_step _ _ _ _ _ _ _ _ _ Hfs G Gi E D) as (K & Co). destruct (handle_event _ _ _ _ _ _ _ Hfs G Co K) as (e & V & _).
    exists (e :: h). eapply ME_cond; eauto.
  - exists h. eapply ME_other; eauto.
Qed.
