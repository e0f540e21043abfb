(** Text-level makefile semantics: rule lines as a whole. *)
From Coq Require Import String ZArith.
From Verif Require Import Base LocModel EvdModel NomModel AstModel ParseModel AstParseModel EngineModel
  EvdSpec DbSpec ParseSpec EvalSpec AstParseSpec EngineSpec MakeSpec
  EvdProofs EvdProofs3 ParseProofs ParseProofs2 ParseProofs3 ParseProofs4 ParseProofs5 EvalProofs2 EvalProofs3 EvalProofs4 FuelProofs
  DbProofs EvdProofs2 AstParseProofs AstParseProofs2 AstParseProofs3 SubstProofs SafeProofs SafeProofs2 SafeProofs3 SafeProofs4
  EngineProofs EngineProofs2 EngineProofs3 MakeProofs MakeProofs2 MakeProofs3 MakeProofs4 MakeProofs6 MakeProofs7 MakeProofs8.
Local Open Scope nat_scope.

(** The line is cut at the first semicolon. *)
Lemma command_cut : forall b u head cmd, wf_block b -> tidy_block b -> block_marks b = u -> ~ has fst c_hash u ->
  with_command u head cmd -> free [semicolon; c_bslash] head ->
  exists pre r semip ps, makefile_take_until_unquote (block_span b) is_semi_or_hash = Ok (pre, r) /\
    (match r with
      | Some (stopchar, post) =>
          let* c := first_char stopchar in
          Ok (match c with
              | Some c => if (c =? c_hash)%N then None else Some post
              | None => Some post
              end)
      | None => Ok None
      end = Ok semip) /\
    (match semip with
      | Some s => let* b := to_new_block s in Ok (Some b)
      | None => Ok None
      end = Ok ps) /\
    wf_block pre /\ tidy_block pre /\ block_marks pre = head /\ command_block cmd ps.
Proof.
  intros b u head cmd W F M N C FR.
  destruct (take_until_unquote_ok (block_span b) is_semi_or_hash (block_span_wf b W) eq_refl eq_refl) as (pre & r & E & Wp & Post).
  rewrite (block_span_marks b W), M in Post. change mch with (@fst char location) in Post.
  assert (NB : ~ has fst c_bslash head) by (eapply free_has; [exact FR|cbn; tauto]).
  assert (NH : ~ has fst c_hash head).
  { intros (a & I & Q). apply N. exists a. split; [|exact Q]. destruct cmd as [|k [|? ?]]; cbn in C.
    - rewrite C. exact I.
    - destruct C as (c & -> & _). apply in_or_app. now left.
    - contradiction. }
  assert (NS : forall a, In a head -> is_semi_or_hash (fst a) = false).
  { intros a I. unfold is_semi_or_hash. apply orb_false_iff. split; apply N.eqb_neq; intros Q.
    - apply (FR a I). rewrite Q. now left.
    - apply NH. exists a. split; [exact I|exact Q]. }
  assert (Fp : tidy_block pre).
  { split; [exact (unquote_flat (block_span b) is_semi_or_hash pre r (proj1 F) eq_refl E)|].
    assert (H : forall a, In a head -> is_semi_or_hash (fst a) = false /\ fst a <> c_bslash).
    { intros a I. split; [exact (NS a I)|]. intros Q. apply NB. exists a. auto. }
    destruct cmd as [|k [|? ?]]; cbn [with_command] in C; [| |contradiction].
    - eapply (unquote_parted (block_span b) is_semi_or_hash head [] pre r (block_span_wf b W) (proj2 F) eq_refl); [|exact H|exact Logic.I|exact E].
      rewrite (block_span_marks b W), M, C. symmetry. apply app_nil_r.
    - destruct C as (c & Eu & Ec). eapply (unquote_parted (block_span b) is_semi_or_hash head (c :: k) pre r (block_span_wf b W) (proj2 F) eq_refl); [|exact H| |exact E].
      + rewrite (block_span_marks b W), M. exact Eu.
      + rewrite Ec. reflexivity. }
  destruct cmd as [|k [|? ?]]; cbn [with_command] in C.
  - rewrite C, (unquote_free is_semi_or_hash head NB NS) in Post. destruct Post as (Mp & ->). rewrite app_nil_r in Mp.
    exists pre, None, None, None. repeat (split; [first [exact E|reflexivity|exact Wp|exact Fp|exact Mp]|]). exact Logic.I.
  - destruct C as (c & Eu & Ec). rewrite Eu, (unquote_first is_semi_or_hash head c k NB NS) in Post; [|rewrite Ec; reflexivity|rewrite Ec; discriminate].
    destruct Post as (Mp & s & post & j & -> & Ws & Ms & Mpost & Sub & _).
    destruct (to_new_block_ok post) as (bk & Ek & Wk & Mk & _). { destruct (sub_keeps _ _ _ _ Sub); assumption. }
    exists pre, (Some (s, post)), (Some post), (Some bk). split; [exact E|]. split.
    { rewrite (first_char_ok s Ws), span_text_marks, Ms. cbn [List.map hd_error bind]. rewrite Ec. reflexivity. }
    split; [rewrite Ek; reflexivity|]. split; [exact Wp|]. split; [exact Fp|]. split; [exact Mp|].
    split; [exact Wk|]. split; [|rewrite Mk; exact Mpost].
    destruct (sub_keeps _ _ _ _ Sub) as (Wpo & _ & X & _). apply (new_block_tidied post bk Wpo); [|exact Ek]. apply X. exact F.
  - contradiction.
Qed.

Lemma after_colons_unique : forall after d1 d2 x y, after_colons after d1 x -> after_colons after d2 y -> x = y.
Proof.
  intros after [|] [|] x y H1 H2; cbn in H1, H2.
  - destruct H1 as (c & -> & _), H2 as (c' & E & _). inversion E; reflexivity.
  - destruct H1 as (c & -> & Q), H2 as (_ & H). exfalso. apply H. exists c, x. auto.
  - destruct H2 as (c & -> & Q), H1 as (_ & H). exfalso. apply H. exists c, y. auto.
  - destruct H1 as (<- & _), H2 as (<- & _). reflexivity.
Qed.

Lemma word_strip : forall w e tail, word_text w -> w <> [] -> free [semicolon] w -> lstrip fst (w ++ e :: tail) = w ++ e :: tail.
Proof.
  intros w e tail W N F. destruct w as [|c w]; [congruence|]. apply solid_strip. exists c, (w ++ e :: tail). split; [reflexivity|].
  pose proof (word_head _ c w W F eq_refl) as H. destruct (blank (fst c)) eqn:B; [|reflexivity].
  exfalso. apply H. unfold blank in B. apply orb_true_iff in B as [B|B]; apply N.eqb_eq in B; rewrite B; cbn; tauto.
Qed.

Lemma target_line_ok : forall fs D w s l u u' r, ascii_files fs -> world_good w -> env_rep D (world_env w) ->
  wf_span s -> single s -> span_marks s = l -> ~ has fst c_hash l -> logical_line fst l [] u u' -> rule_line D u r ->
  exists w' rest ts ds c enough, (forall fuel, enough <= fuel -> target_parse_line (eval_fuel fs fuel) w s = Ok (w', POk rest (TNewRule ts ds (tr_double r) c))) /\
    same_but_names w w' /\ List.map block_marks ts = tr_targets r /\ List.map block_marks ds = tr_deps r /\ Forall2 (depends_on w') (tr_reads r) ds /\ command_ast (tr_recipe r) c.
Proof.
  intros fs D w s l u u' r FS G R W S M N L (head & ms & after & rest & deps & m & WC & EX & FR & NC & TB & AC & NE & WC2 & NA & BN & SD & NT & ET & ED & ER).
  destruct (inner_line s l u u' W S M N L) as (r0 & b & E & Wb & Fb & Mb).
  assert (Nu : ~ has fst c_hash u).
  { intros (a & I & Q). apply N. exists a. split; [|exact Q]. inversion L; subst; [exact I|]. apply in_or_app. now left. }
  destruct (command_cut b u head (tr_recipe r) Wb Fb Mb Nu WC FR) as (pre & rr & semip & ps & E1 & E2 & E3 & Wp & Fp & Mp & CB).
  assert (NCh : ~ begins_char colon head).
  { intros (a & v & -> & Q). apply NC. destruct (tr_recipe r) as [|k [|? ?]]; cbn in WC.
    - rewrite WC. exists a, v. auto.
    - destruct WC as (c & -> & _). eexists a, _. cbn. split; [reflexivity|exact Q].
    - contradiction. }
  assert (LS : lstrip fst (span_marks (block_span pre)) = head).
  { rewrite (block_span_marks pre Wp), Mp. destruct (targets_first _ _ _ _ TB NCh) as (w0 & e & tail & -> & Nw & Ww & _). apply word_strip; auto.
    intros a I J. apply (FR a); [apply in_or_app; now left|]. cbn in J |- *. tauto. }
  assert (AO : after_ok after).
  { intros d x H. rewrite (after_colons_unique _ _ _ _ _ H AC). exact NE. }
  destruct (loop_ok fs D FS head ms after TB FR AO w (block_span pre) ps block_empty G R (block_span_wf pre Wp) Fp LS block_empty_wf)
    as (rn & cap & reason & En & HR & NEOL & _ & Hn).
  { intros (a & [] & _). }
  destruct (Hn (Datatypes.S (Datatypes.S (sp_len rn))) ltac:(lia)) as (w1 & r' & buf & ac & e1 & El & SB & Wbuf & Nbuf & Names & Wa & Ma & K & After).
  assert (G1 : world_good w1) by exact (sbn_good _ _ SB G).
  assert (R1 : env_rep D (world_env w1)). { eapply env_rep_ext; [exact R|]. apply sbn_env; [exact SB|exact (proj1 G)]. }
  destruct K as (Wr & _ & Fr & Pr & _).
  destruct (finish_ok fs D w1 r0 buf ac r' ps after (tr_double r) deps (tr_recipe r) rest m FS G1 R1 Wbuf Nbuf Wa Ma Wr (Fr Fp)) as (w2 & ts & ds & c & e2 & Ef & SB2 & Mt & Md & DO & CA); auto.
  { rewrite Pr. exact Wp. }
  exists w2, r0, ts, ds, c, (Nat.max e1 e2). split; [|split; [exact (sbn_trans _ _ _ SB SB2)|split; [|split; [|split; [|exact CA]]]]].
  - intros fuel Lf. unfold target_parse_line, wbind. rewrite E. cbn [bind]. rewrite E1. cbn [bind]. rewrite E2. cbn [bind]. rewrite E3. cbn [bind].
    rewrite En. cbn [bind].
    specialize (HR NCh). rewrite El by lia. cbn [bind]. rewrite Ef by lia.
    destruct reason; try reflexivity; try congruence; exfalso; apply HR; cbn; tauto.
  - rewrite Mt, Names, ET. reflexivity.
  - rewrite Md, ED. reflexivity.
  - rewrite ER, <- Md. clear -DO. induction DO; constructor; auto.
Qed.

Lemma map_marks : forall (bs : list block) ts, List.map block_marks bs = ts -> Forall2 (fun t b => block_marks b = t) ts bs.
Proof. intros bs ts <-. induction bs; constructor; auto. Qed.

Lemma rule_step : forall fs st s w i t l rest u u' r, ascii_files fs -> sim st s w -> world_good w -> state_ok s w ->
  at_text i t -> ~ is_comment_text t -> directly st t -> plain_line t l rest -> solid l ->
    m_ignoring st = false -> unconditional l -> begins_none (modifier_words ++ directive_words) l -> no_assignment l ->
    logical_line fst l [] u u' -> rule_line (m_defs st) u r ->
  gets_to fs s w i (with_rule (closed st) (Some r)) rest.
Proof.
  intros fs st s w i t l rest u u' r FS SI G SO A NC DR P So IG BC BN NA LL RL.
  pose proof (plain_text _ _ _ P) as LT. destruct (line_at i t l rest A LT) as (rr & b & E & Ar & W & F & M).
  pose proof (line_start_with fs st s w i t rr b SI A NC DR E) as EL.
  pose proof (plain_single i t l rest rr b A P E) as SB. pose proof (block_span_wf b W) as WS.
  assert (MS : span_marks (block_span b) = l) by (rewrite (block_span_marks b W); exact M).
  assert (BM : begins_none modifier_words l) by (intros k v I; apply BN; apply in_or_app; now left).
  assert (BD : begins_none directive_words l) by (intros k v I; apply BN; apply in_or_app; now right).
  destruct (conditional_none (block_span b) WS F) as (kc & Ec); [rewrite MS; exact So|rewrite MS; exact BC|].
  assert (LS : lstrip fst (span_marks (block_span b)) = l) by (rewrite MS; apply solid_strip; exact So).
  destruct (directive_none (block_span b) WS) as (kd & Ed); [rewrite MS; exact BD|].
  assert (EV : forall ev, exists e, variable_parse_line ev w (block_span b) = Ok (w, PError e)).
  { intros ev. apply variable_none; [exact WS|rewrite LS; exact NA|rewrite LS; exact BM]. }
  destruct (target_line_ok fs (m_defs st) w (block_span b) l u u' r FS G (sim_env _ _ _ SI) WS SB MS (plain_no_hash _ _ _ P) LL RL)
    as (w1 & r1 & ts & ds & c & en & ET & S1 & Mt & Md & DO & CA).
  destruct (close_sim st s w1 (sim_same _ _ _ _ SI (proj1 G) S1) (sbn_good _ _ S1 G) (state_grown _ _ _ SO (sbn_grown _ _ S1)))
    as (s2 & w2 & C & SI2 & _ & _ & _ & G2 & EE & NE).
  set (p := ProtoRule ts ds (match c with Some a => [a] | None => [] end) (if tr_double r then RtDoubleColon else RtStandard)).
  exists (PState (ps_conds s2) (ps_ignoring s2) (Some p) (ps_define s2)), w2, rr, en. split; [|split; [exact Ar|]].
  - intros fuel Lf. rewrite EL, (block_len_marks b W), M. destruct So as (x & v & El & Bx). rewrite El. cbn [List.length Nat.eqb].
    rewrite Ec. cbn [bind run_parser]. rewrite (sim_ignoring _ _ _ SI), IG. unfold parse_active_line.
    destruct (EV (eval_fuel fs fuel)) as (ev & Ev). rewrite Ev. cbn [bind run_parser]. rewrite Ed. cbn [bind run_parser].
    rewrite (first_char_ok _ WS), span_text_marks, MS, El. cbn [List.map hd_error bind]. rewrite (sim_cmd _ _ _ SI).
    assert (Q : (fst x =? c_tab)%N = false).
    { apply N.eqb_neq. intros Q. rewrite Q in Bx. discriminate. }
    rewrite Q, (ET fuel Lf). cbn [bind run_parser]. rewrite C. cbn [bind handle_target_action].
    destruct c; reflexivity.
  - destruct SI2 as [I1 I2 I3 I4 I5 I6 I7 I8]. constructor; auto. cbn. unfold rule_rep. cbn.
    split; [apply map_marks, Mt|]. split; [apply map_marks, Md|]. split; [eapply depends_all; [intros y id Hy; rewrite NE; exact Hy|exact DO]|]. split; [|reflexivity].
    destruct (tr_recipe r) as [|k [|? ?]], c as [a|]; cbn in CA; try contradiction; auto.
Qed.
