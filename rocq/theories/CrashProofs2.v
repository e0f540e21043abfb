(** Makefiles that end the program: directives and rules. *)
From Coq Require Import String ZArith.
From Verif Require Import Base LocModel EvdModel NomModel AstModel ParseModel AstParseModel EngineModel
  EvdSpec DbSpec ParseSpec EvalSpec AstParseSpec EngineSpec MakeSpec CrashSpec
  EvdProofs EvdProofs3 ParseProofs ParseProofs2 ParseProofs3 ParseProofs4 ParseProofs5 EvalProofs2 EvalProofs3 EvalProofs4 FuelProofs
  DbProofs EvdProofs2 AstParseProofs AstParseProofs2 AstParseProofs3 SubstProofs SafeProofs SafeProofs2 SafeProofs3 SafeProofs4
  EngineProofs EngineProofs2 EngineProofs3 MakeProofs MakeProofs2 MakeProofs3 MakeProofs4 MakeProofs6 MakeProofs7 MakeProofs8 MakeProofs9 MakeProofs10 MakeProofs11 MakeProofs12 CrashProofs.
Local Open Scope nat_scope.

(** * Directives *)
Lemma directive_picks : forall s k f u, wf_span s -> tidy s -> In (k, f) directive_table -> keyword k (span_marks s) u -> expression u ->
  exists r a, directive_parse_line s = Ok (POk r (f a)).
Proof.
  intros s k f u W F I Kw X.
  assert (Q : directive_parse_line = palt (List.map (fun kf => pmap (snd kf) (preceded (tag_no_case (lit (fst kf))) parse_ast)) directive_table)) by reflexivity.
  rewrite Q. destruct (directive_pick directive_table s k f u W F) as (r & a & E & _); eauto.
  - repeat (constructor; [split; [reflexivity|apply lit_ascii; reflexivity]|]). constructor.
  - intros k' f' I' ->. cbn in I. cbn in I'.
    repeat (destruct I as [I|I]; [injection I as <- <-; repeat (destruct I' as [I'|I']; [first [discriminate I'|injection I' as <-; reflexivity]|]); destruct I'|]); destruct I.
  - intros k' f' I' H. cbn in I. cbn in I'.
    repeat (destruct I as [I|I]; [injection I as <- <-; repeat (destruct I' as [I'|I']; [injection I' as <- _; first [reflexivity|exfalso; destruct H as [H|H]; discriminate H]|]); destruct I'|]); destruct I.
Qed.

Definition includes (d : directive) : bool := match d with DiInclude _ | DiSoftInclude _ => true | _ => false end.

Lemma directive_stops : forall fs s w r b k f u e, wf_span (block_span b) -> tidy (block_span b) ->
  (forall a, includes (f a) = false) -> In (k, f) directive_table -> keyword k (span_marks (block_span b)) u -> expression u ->
  forall fuel, variable_parse_line (eval_fuel fs fuel) w (block_span b) = Ok (w, PError e) ->
  rejects (parse_active_line (eval_fuel fs fuel) (read_makefile_with (process_fuel fs fuel)) fs s w r b).
Proof.
  intros fs s w r b k f u e W F NI I Kw X fuel V. destruct (directive_picks _ _ _ _ W F I Kw X) as (j & a & E).
  unfold parse_active_line. rewrite V. cbn [bind run_parser]. rewrite E. cbn [bind run_parser].
  pose proof (close_fuel s w) as C. destruct (close_rule s w) as [[s2 w2]| |]; cbn [bind]; [|exact Logic.I|congruence].
  specialize (NI a). destruct (f a); cbn in NI |- *; try discriminate NI; exact Logic.I.
Qed.

Lemma export_stops : forall fs st s w i t l u, sim st s w -> at_text i t -> acting_line st t l -> no_assignment l ->
  keyword "export" l u -> no_assignment (lstrip fst u) -> begins_none modifier_words (lstrip fst u) -> expression u -> stops_at fs s w i.
Proof.
  intros fs st s w i t l u SI A AL NA Kw NA2 BN X. destruct (active_stop fs st s w i t l SI A AL) as (r & b & W & F & M & WS & MS & E).
  destruct AL as ((_ & _ & _ & S) & _). assert (Ix : In ("export"%string, MExport) modifier_table) by (cbn; auto 10).
  destruct (modified_start b l _ _ u F WS MS S NA Ix Kw) as (s2 & W2 & F2 & M2 & L2 & V).
  exists 0. intros fuel _. rewrite E.
  eassert (V2 : variable_parse_line (eval_fuel fs fuel) w (block_span b) = Ok (w, PError _)).
  { rewrite V. cbn zeta. destruct (sp_len (block_span b)) as [|f]; [lia|]. cbn [variable_loop]. rewrite <- M2 in NA2, BN.
    destruct (no_assignment_at s2 W2 NA2) as (e & Ee & Ke). unfold parse_variable_assignment, wbind. rewrite Ee. cbn [bind].
    rewrite Ke. cbn [is_unterminated]. destruct (modifier_none s2 W2 BN) as (e' & Em). rewrite Em. cbn [bind]. reflexivity. }
  rewrite <- MS in Kw. eapply directive_stops; [exact WS|exact F| |cbn; left; reflexivity|exact Kw|exact X|exact V2]. reflexivity.
Qed.

Lemma others_stop : forall fs st s w i t l k u, sim st s w -> at_text i t -> acting_line st t l -> no_assignment l -> begins_none modifier_words l ->
  In k ["unexport"; "vpath"; "load"; "-load"]%string -> keyword k l u -> expression u -> stops_at fs s w i.
Proof.
  intros fs st s w i t l k u SI A AL NA BN I Kw X. destruct (active_stop fs st s w i t l SI A AL) as (r & b & W & F & M & WS & MS & E).
  destruct AL as ((_ & _ & _ & S) & _).
  assert (LS : lstrip fst (span_marks (block_span b)) = l) by (rewrite MS; apply solid_strip; exact S).
  exists 0. intros fuel _. rewrite E.
  destruct (variable_none (eval_fuel fs fuel) w (block_span b) WS) as (e & V); [rewrite LS; exact NA|rewrite LS; exact BN|].
  assert (exists f, In (k, f) directive_table /\ forall a, includes (f a) = false) as (f & If & Nf).
  { cbn in I. destruct I as [<-|[<-|[<-|[<-|[]]]]]; eexists; (split; [cbn; eauto 12|reflexivity]). }
  rewrite <- MS in Kw. eapply directive_stops; eauto.
Qed.

(** * Rules *)
Lemma line_reaches : forall fs D w s l u u' deps cmd, ascii_files fs -> world_good w -> env_rep D (world_env w) ->
  wf_span s -> single s -> span_marks s = l -> ~ has fst c_hash l -> logical_line fst l [] u u' -> after_targets D u deps cmd ->
  exists w1 r0 buf ac r' ps after double enough, (forall fuel, enough <= fuel -> target_parse_line (eval_fuel fs fuel) w s = target_finish (eval_fuel fs fuel) w1 r0 buf (Some ac) r' ps) /\
    same_but_names w w1 /\ wf_block buf /\ ~ has fst c_bslash (block_marks buf) /\ wf_block ac /\ (block_marks ac = [] \/ exists c, block_marks ac = [c] /\ fst c = colon) /\
    wf_span r' /\ tidy r' /\ wf_block (sp_parent r') /\ block_marks ac ++ span_marks r' = after /\ after_colons after double deps /\ command_block cmd ps.
Proof.
  intros fs D w s l u u' deps cmd FS G R W S M N L (head & ms & after & double & WC & FR & NC & TB & AC & NE).
  destruct (inner_line s l u u' W S M N L) as (r0 & b & E & Wb & Fb & Mb).
  assert (Nu : ~ has fst c_hash u).
  { intros (a & I & Q). apply N. exists a. split; [|exact Q]. inversion L; subst; [exact I|]. apply in_or_app. now left. }
  destruct (command_cut b u head cmd Wb Fb Mb Nu WC FR) as (pre & rr & semip & ps & E1 & E2 & E3 & Wp & Fp & Mp & CB).
  assert (NCh : ~ begins_char colon head).
  { intros (a & v & -> & Q). apply NC. destruct cmd as [|k [|? ?]]; cbn in WC.
    - rewrite WC. exists a, v. auto.
    - destruct WC as (c & -> & _). eexists a, _. cbn. split; [reflexivity|exact Q].
    - contradiction. }
  assert (LS : lstrip fst (span_marks (block_span pre)) = head).
  { rewrite (block_span_marks pre Wp), Mp. destruct (targets_first _ _ _ _ TB NCh) as (w0 & e & tail & -> & Nw & Ww & _). apply word_strip; auto.
    intros a I J. apply (FR a); [apply in_or_app; now left|]. cbn in J |- *. tauto. }
  assert (AO : after_ok after).
  { intros d x H. rewrite (after_colons_unique _ _ _ _ _ H AC). exact NE. }
  destruct (loop_ok fs D FS head ms after TB FR AO w (block_span pre) ps block_empty G R (block_span_wf pre Wp) Fp LS block_empty_wf)
    as (rn & cap & reason & En & HR & NEOL & _ & Hn).
  { intros (a & [] & _). }
  destruct (Hn (Datatypes.S (Datatypes.S (sp_len rn))) ltac:(lia)) as (w1 & r' & buf & ac & e1 & El & SB & Wbuf & Nbuf & Names & Wa & Ma & K & After).
  destruct K as (Wr & _ & Fr & Pr & _).
  exists w1, r0, buf, ac, r', ps, after, double, e1. split.
  - intros fuel Lf. unfold target_parse_line, wbind. rewrite E. cbn [bind]. rewrite E1. cbn [bind]. rewrite E2. cbn [bind]. rewrite E3. cbn [bind].
    rewrite En. cbn [bind]. specialize (HR NCh). rewrite El by lia. cbn [bind].
    destruct reason; try reflexivity; try congruence; exfalso; apply HR; cbn; tauto.
  - assert (Wpp : wf_block (sp_parent r')) by (rewrite Pr; exact Wp). auto 15.
Qed.

(** The text after the colons as [target_finish] sees it. *)
Lemma finish_start : forall buf ac ln ps after double deps cmd,
  wf_block buf -> ~ has fst c_bslash (block_marks buf) -> wf_block ac -> (block_marks ac = [] \/ exists c, block_marks ac = [c] /\ fst c = colon) ->
  wf_span ln -> tidy ln -> wf_block (sp_parent ln) -> block_marks ac ++ span_marks ln = after -> after_colons after double deps -> command_block cmd ps ->
  exists ts slice, wf_span slice /\ flattish slice /\ span_marks slice = deps ++ tail_text cmd /\
    forall ev w rest0, target_finish ev w rest0 buf (Some ac) ln ps =
      let* '(w, r) := variable_parse_line ev w slice in
      match r with
      | POk _ action => wret w (POk rest0 (TTargetVariable ts action))
      | _ =>
          let* post_semi_slice :=
            if List.length deps <? sp_len slice then
              let* s := slice_from slice (List.length deps + 1) in Ok (Some s)
            else Ok None in
          expand_segment ev w (slice_to slice (List.length deps)) (fun w pre_semi_buffer =>
          let* '(pre_semi_buffer, post_semi_buffer) :=
            match post_semi_slice with
            | None =>
                let* '(pre, r) := makefile_take_until_unquote (block_span pre_semi_buffer) is_semi in
                match r with
                | Some (_, post) => let* b := to_new_block post in Ok (pre, Some b)
                | None => Ok (pre, None)
                end
            | Some s => let* b := to_new_block s in Ok (pre_semi_buffer, Some b)
            end in
          wbind w (match post_semi_buffer with
                   | Some content => let! (i, a) := parse_ast (block_span content) in pok i (Some a)
                   | None => pok rest0 None
                   end) (fun _ command =>
          let '(l, boom) := span_indices (block_span pre_semi_buffer) in
          let* c := second_colon l boom 0 in
          match c with
          | Some _ => Panic
          | None =>
              let* deps := parse_file_seq (block_span pre_semi_buffer) false [c_colon] in
              wret w (POk rest0 (TNewRule ts deps double command))
          end))
      end.
Proof.
  intros buf ac ln ps after double deps cmd Wb Nb Wa Ca Wl Fl Wp Ma AC CB.
  destruct (parse_file_seq_plain (block_span buf) false [] (block_span_wf buf Wb)) as (ts & Et & _ & Mt).
  { intros []. } { rewrite (block_span_marks buf Wb). exact Nb. }
  destruct (after_built ac ln cmd ps Wa Wl Fl Wp CB) as (b1 & b2 & b3 & more & E1 & E2 & E3 & W2 & M2 & W3 & M3 & C3 & (L3 & P3) & S1 & N1).
  rewrite Ma in M2, M3. pose proof (block_span_wf b3 W3) as W3s.
  assert (P2 : block_len b2 = List.length after) by (rewrite (block_len_marks b2 W2), M2; reflexivity).
  assert (X : exists slice n, (let* r := tag [c_colon] (block_span b3) in
      match r with
      | POk i _ => let* n := usub (block_len b2) 1 in Ok (i, true, n)
      | _ => Ok (block_span b3, false, block_len b2)
      end) = Ok (slice, double, n) /\ wf_span slice /\ span_marks slice = deps ++ tail_text cmd /\ n = List.length deps /\ flattish slice).
  { pose proof (tag_ok (block_span b3) [c_colon] W3s ltac:(repeat constructor)) as T. rewrite span_text_marks, (block_span_marks b3 W3), M3 in T.
    unfold after_colons in AC. destruct double.
    - destruct AC as (c & -> & Cc). cbn [app List.map starts_with] in T. change (mch c) with (fst c) in T. rewrite Cc in T. cbn [N.eqb Pos.eqb andb starts_with c_colon] in T.
      destruct T as (r & p & T & Sr & _ & _). rewrite T. cbn [bind]. rewrite P2. cbn [List.length].
      exists r, (List.length deps). split; [|split; [exact (sub_wf _ _ _ _ Sr)|split; [|split; [reflexivity|]]]].
      + unfold usub. cbn [Nat.ltb Nat.leb]. rewrite Nat.sub_1_r. cbn. reflexivity.
      + rewrite (sub_end _ _ _ W3s Sr), (block_span_marks b3 W3), M3. reflexivity.
      + destruct Ca as [Za|(c' & Za & _)].
        * left. eapply within_tidy; [exact (sub_within _ _ _ _ Sr)|]. unfold tidy, flat. cbn [block_span sp_contents]. rewrite C3, (N1 Za). split; [exact L3|exact P3].
        * eapply (tag_flattish b3 (b_content b1) more [c_colon] r p C3); [|exact L3|exact P3|exact T]. rewrite S1, Za. reflexivity.
    - destruct AC as (E & NC). assert (Za : block_marks ac = []).
      { destruct Ca as [Za|(c' & Za & Hc)]; [exact Za|]. exfalso. apply NC. exists c', (span_marks ln). rewrite <- Ma, Za. auto. }
      assert (starts_with [c_colon] (List.map mch (after ++ tail_text cmd)) = false) as Q.
      { destruct after as [|a after].
        - destruct cmd as [|k [|? ?]]; reflexivity.
        - cbn -[N.eqb]. rewrite andb_true_r. apply N.eqb_neq. intros Q. apply NC. exists a, after. auto. }
      rewrite Q in T. rewrite T. cbn [bind]. exists (block_span b3), (block_len b2). split; [reflexivity|]. split; [exact W3s|].
      split; [rewrite (block_span_marks b3 W3), M3, E; reflexivity|]. split; [rewrite P2, E; reflexivity|].
      left. unfold tidy, flat. cbn [block_span sp_contents]. rewrite C3, (N1 Za). split; [exact L3|exact P3]. }
  destruct X as (slice & n & ET & Wsl & Msl & -> & Fsl).
  exists ts, slice. split; [exact Wsl|]. split; [exact Fsl|]. split; [exact Msl|].
  intros ev w rest0. unfold target_finish. rewrite Et. cbn [bind unwrap]. rewrite E1. cbn [bind]. rewrite E2. cbn [bind]. rewrite E3. cbn [bind].
  apply bind_inv in ET as (tr & ETa & ETb). rewrite ETa. cbn [bind]. rewrite ETb. cbn [bind]. reflexivity.
Qed.

(** A rule line whose target parser ends the program, fails or gives a target variable. *)
Definition ends (r : res (world * presult target_action)) : Prop :=
  match r with Panic => True | Ok (_, POk _ (TTargetVariable _ _)) => True | Ok (_, PFailure _) => True | _ => False end.

Lemma rule_start : forall fs st s w i t u, sim st s w -> world_good w -> at_text i t -> rule_like st t u ->
  exists b l u', wf_span (block_span b) /\ single (block_span b) /\ span_marks (block_span b) = l /\ ~ has fst c_hash l /\ logical_line fst l [] u u' /\
    ((exists enough, forall fuel, enough <= fuel -> ends (target_parse_line (eval_fuel fs fuel) w (block_span b))) -> stops_at fs s w i).
Proof.
  intros fs st s w i t u SI G A (l & rest & u' & NC & DR & P & So & IG & BC & BN & NA & LL).
  pose proof (plain_text _ _ _ P) as LT. destruct (line_at i t l rest A LT) as (rr & b & E & Ar & W & F & M).
  pose proof (line_start_with fs st s w i t rr b SI A NC DR E) as EL.
  pose proof (plain_single i t l rest rr b A P E) as SB. pose proof (block_span_wf b W) as WS.
  assert (MS : span_marks (block_span b) = l) by (rewrite (block_span_marks b W); exact M).
  assert (BM : begins_none modifier_words l) by (intros k v I; apply BN; apply in_or_app; now left).
  assert (BD : begins_none directive_words l) by (intros k v I; apply BN; apply in_or_app; now right).
  destruct (conditional_none (block_span b) WS F) as (kc & Ec); [rewrite MS; exact So|rewrite MS; exact BC|].
  assert (LS : lstrip fst (span_marks (block_span b)) = l) by (rewrite MS; apply solid_strip; exact So).
  destruct (directive_none (block_span b) WS) as (kd & Ed); [rewrite MS; exact BD|].
  assert (EV : forall ev, exists e, variable_parse_line ev w (block_span b) = Ok (w, PError e)).
  { intros ev. apply variable_none; [exact WS|rewrite LS; exact NA|rewrite LS; exact BM]. }
  exists b, l, u'. split; [exact WS|]. split; [exact SB|]. split; [exact MS|]. split; [exact (plain_no_hash _ _ _ P)|]. split; [exact LL|].
  intros (en & H). exists en. intros fuel Lf. specialize (H fuel Lf).
  rewrite EL, (block_len_marks b W), M. destruct So as (x & v & El & Bx). rewrite El. cbn [List.length Nat.eqb].
  rewrite Ec. cbn [bind run_parser]. rewrite (sim_ignoring _ _ _ SI), IG. unfold parse_active_line.
  destruct (EV (eval_fuel fs fuel)) as (ev & Ev). rewrite Ev. cbn [bind run_parser]. rewrite Ed. cbn [bind run_parser].
  rewrite (first_char_ok _ WS), span_text_marks, MS, El. cbn [List.map hd_error bind]. rewrite (sim_cmd _ _ _ SI).
  assert (Q : (fst x =? c_tab)%N = false).
  { apply N.eqb_neq. intros Q. rewrite Q in Bx. discriminate. }
  rewrite Q. destruct (target_parse_line (eval_fuel fs fuel) w (block_span b)) as [[w1 [r1 [| |tv ta]|ks|ks]]| |]; try contradiction; [|exact Logic.I|exact Logic.I].
  cbn [bind run_parser]. pose proof (close_fuel s w1) as C. destruct (close_rule s w1) as [[s2 w2]| |]; cbn [bind]; [exact Logic.I|exact Logic.I|congruence].
Qed.

Lemma assigns_nonempty : forall l name k v, assigns l name k v -> l <> [].
Proof.
  intros l name k v (bl & op & post & -> & _ & _ & I & _) E. apply app_eq_nil in E as (_ & E). apply app_eq_nil in E as (_ & E). apply app_eq_nil in E as (-> & _).
  cbn in I. repeat (destruct I as [I|I]; [discriminate I|]). destruct I.
Qed.

Lemma target_variable_stops : forall fs st s w i t u deps cmd name nm op v, ascii_files fs -> sim st s w -> world_good w -> at_text i t ->
  rule_like st t u -> after_targets (m_defs st) u deps cmd ->
  assigns (lstrip fst (rejoined deps cmd)) name op v -> stands_for (m_defs st) name nm -> storable (m_defs st) op v -> stops_at fs s w i.
Proof.
  intros fs st s w i t u deps cmd name nm op v FS SI G A RL AT AS SN ST.
  destruct (rule_start fs st s w i t u SI G A RL) as (b & l & u' & W & SB & M & NH & LL & H). apply H. clear H RL A.
  destruct (line_reaches fs (m_defs st) w (block_span b) l u u' deps cmd FS G (sim_env _ _ _ SI) W SB M NH LL AT)
    as (w1 & r0 & buf & ac & r' & ps & after & double & e1 & E & S1 & Wbuf & Nbuf & Wa & Ma & Wr & Fr & Wp & After & AC & CB).
  destruct (finish_start buf ac r' ps after double deps cmd Wbuf Nbuf Wa Ma Wr Fr Wp After AC CB) as (ts & slice & Wsl & Fsl & Msl & EF).
  change (span_marks slice = rejoined deps cmd) in Msl.
  destruct (whitespace_keeps slice Wsl) as (s0 & q & E0 & K0 & M0). rewrite Msl in M0.
  assert (NZ : (sp_len s0 =? 0) = false).
  { apply Nat.eqb_neq. rewrite <- (span_marks_len s0 (proj1 K0)), M0. intros Z. apply length_zero_iff_nil in Z. exact (assigns_nonempty _ _ _ _ AS Z). }
  assert (F0 : tidy s0).
  { destruct Fsl as [F|Z]; [exact (proj1 (proj2 (proj2 K0)) F)|]. exfalso. apply (assigns_nonempty _ _ _ _ AS).
    rewrite <- (span_marks_len slice Wsl), Msl in Z. apply length_zero_iff_nil in Z. rewrite Z. reflexivity. }
  assert (G1 : world_good w1) by exact (sbn_good _ _ S1 G).
  assert (R1 : env_rep (m_defs st) (world_env w1)). { eapply env_rep_ext; [exact (sim_env _ _ _ SI)|]. apply sbn_env; [exact S1|exact (proj1 G)]. }
  rewrite <- M0 in AS.
  destruct (assignment_outcome fs (m_defs st) w1 s0 name nm op v no_modifiers (proj1 K0) F0 G1 R1 AS SN ST) as (e2 & H).
  exists (Nat.max e1 e2). intros fuel L. rewrite E, EF by lia. destruct (H fuel ltac:(lia)) as (H1 & _). clear H.
  unfold variable_parse_line, wbind. rewrite E0. cbn [bind]. rewrite NZ. cbn [variable_loop].
  destruct (parse_variable_assignment (eval_fuel fs fuel) no_modifiers w1 s0) as [[w2 [j va|ks|ks]]| |]; try contradiction; exact Logic.I.
Qed.

Lemma second_colon_some : forall t : text, ~ has fst c_bslash t -> has fst colon t -> forall k,
  exists n, second_colon (combine (seq k (List.length t)) (List.map fst t)) false 0 = Ok (Some n).
Proof.
  induction t as [|a t IH]; intros NB (x & I & Q) k; [destruct I|]. cbn [List.length seq List.map combine second_colon].
  assert (NB' : ~ has fst c_bslash t). { intros (y & J & P). apply NB. exists y. split; [now right|exact P]. }
  destruct (N.eqb_spec (fst a) c_bslash) as [E|_]; [exfalso; apply NB; exists a; split; [now left|exact E]|].
  destruct (N.eqb_spec (fst a) c_colon) as [E|NE]; [cbn; eauto|]. apply IH; auto.
  destruct I as [->|I]; [exfalso; apply NE; exact Q|]. exists x. auto.
Qed.

Lemma static_stops : forall fs st s w i t u deps cmd rest m, ascii_files fs -> sim st s w -> world_good w -> at_text i t ->
  rule_like st t u -> after_targets (m_defs st) u deps cmd -> Forall expression cmd ->
  with_command rest deps cmd -> no_assignment (lstrip fst rest) -> begins_none modifier_words (lstrip fst rest) ->
  stands_for (m_defs st) deps m -> free [semicolon; c_bslash] m -> has fst colon m -> stops_at fs s w i.
Proof.
  intros fs st s w i t u deps cmd rest m FS SI G A RL AT EX WC NA NM S NT HC.
  destruct (rule_start fs st s w i t u SI G A RL) as (b & l & u' & W & SB0 & M & NH & LL & H). apply H. clear H RL A.
  destruct (line_reaches fs (m_defs st) w (block_span b) l u u' deps cmd FS G (sim_env _ _ _ SI) W SB0 M NH LL AT)
    as (w1 & r0 & buf & ac & r' & ps & after & double & e1 & E & S1 & Wbuf & Nbuf & Wa & Ma & Wr & Fr & Wp & After & AC & CB).
  destruct (finish_start buf ac r' ps after double deps cmd Wbuf Nbuf Wa Ma Wr Fr Wp After AC CB) as (ts & slice & Wsl & Fsl & Msl & EF).
  assert (G1 : world_good w1) by exact (sbn_good _ _ S1 G).
  assert (R1 : env_rep (m_defs st) (world_env w1)). { eapply env_rep_ext; [exact (sim_env _ _ _ SI)|]. apply sbn_env; [exact S1|exact (proj1 G)]. }
  assert (Lsl : sp_len slice = List.length deps + List.length (tail_text cmd)) by (rewrite <- (span_marks_len slice Wsl), Msl, app_length; reflexivity).
  assert (CH : chars (lstrip fst rest) = chars (lstrip fst (span_marks slice))) by (apply lstrip_chars; rewrite Msl; apply with_command_chars, WC).
  assert (NA' := no_assignment_chars _ _ CH NA). assert (NM' := begins_none_chars _ _ _ CH NM).
  pose proof (slice_to_sub slice (List.length deps) Wsl ltac:(lia)) as Spre.
  assert (Mpre : span_marks (slice_to slice (List.length deps)) = deps) by (eapply sub_prefix; [exact Wsl|exact Spre|exact Msl|reflexivity]).
  assert (Fpre : flattish (slice_to slice (List.length deps))).
  { destruct Fsl as [F|Z]; [left; exact F|right]. cbn. lia. }
  rewrite <- Mpre in S. destruct (segment_flattish fs (m_defs st) w1 _ m FS G1 R1 (sub_wf _ _ _ _ Spre) Fpre S) as (w' & nb & en & Ev & Mn & Wn & SB & _).
  assert (HB : ~ has fst c_bslash m) by (eapply free_has; [exact NT|cbn; tauto]).
  assert (Y : exists pb qb, wf_block pb /\ block_marks pb = m /\ command_block cmd qb /\
    (let* post_semi_slice := (if List.length deps <? sp_len slice then let* s := slice_from slice (List.length deps + 1) in Ok (Some s) else Ok None) in
     match post_semi_slice with
     | None =>
         let* '(pre, r) := makefile_take_until_unquote (block_span nb) is_semi in
         match r with
         | Some (_, post) => let* b := to_new_block post in Ok (pre, Some b)
         | None => Ok (pre, None)
         end
     | Some s => let* b := to_new_block s in Ok (nb, Some b)
     end) = Ok (pb, qb)).
  { destruct cmd as [|k [|? ?]]; [| |destruct ps; contradiction].
    - cbn [tail_text List.length] in Lsl. assert (Q : (List.length deps <? sp_len slice) = false) by (apply Nat.ltb_ge; lia). rewrite Q. cbn [bind].
      destruct (take_until_unquote_ok (block_span nb) is_semi (block_span_wf nb Wn) eq_refl eq_refl) as (p & r & Eu & Wpb & Post).
      rewrite (block_span_marks nb Wn), Mn in Post. change mch with (@fst char location) in Post. rewrite (unquote_free is_semi m HB) in Post.
      + destruct Post as (Mp & ->). rewrite app_nil_r in Mp. rewrite Eu. cbn [bind]. exists p, None. split; [exact Wpb|]. split; [exact Mp|]. split; [exact Logic.I|reflexivity].
      + intros a I. apply N.eqb_neq. intros Z. apply (NT a I). rewrite Z. cbn; tauto.
    - cbn [tail_text List.length] in Lsl. assert (Q : (List.length deps <? sp_len slice) = true) by (apply Nat.ltb_lt; lia). rewrite Q.
      destruct (slice_from_sub slice (List.length deps + 1) Wsl ltac:(lia)) as (s' & Es & Ss). rewrite Es. cbn [bind].
      destruct (to_new_block_ok s' (sub_wf _ _ _ _ Ss)) as (bb & Eb & Wbb & Mb & _). rewrite Eb. cbn [bind].
      exists nb, (Some bb). split; [exact Wn|]. split; [exact Mn|]. split; [|reflexivity]. split; [exact Wbb|]. split.
      + destruct Fsl as [F|Z]; [|lia]. apply (new_block_tidied s' bb (sub_wf _ _ _ _ Ss) (within_tidy _ _ (sub_within _ _ _ _ Ss) F) Eb).
      + rewrite Mb. eapply (sub_suffix slice (List.length deps + 1) s' (deps ++ [made c_semi]) k Wsl Ss); [rewrite Msl, <- app_assoc; reflexivity|].
        rewrite app_length. reflexivity. }
  destruct Y as (pb & qb & Wpb & Mpb & CB2 & EY).
  assert (Z : exists r a, (match qb with
                 | Some content => let! (i, a) := parse_ast (block_span content) in pok i (Some a)
                 | None => pok r0 None
                 end) = Ok (POk r a)).
  { destruct cmd as [|k [|? ?]], qb as [content|]; try contradiction.
    - exists r0, None. reflexivity.
    - destruct CB2 as (Wc & Fc & Mc). inversion EX as [|? ? X1 _]; subst.
      destruct (parse_at (block_span content) (block_span_wf content Wc) Fc) as (r & a & Ep & Ra & _ & A).
      { rewrite (block_span_marks content Wc). exact X1. }
      rewrite Ep. cbn [pbind bind pok]. exists r, (Some a). reflexivity. }
  destruct Z as (r & a & EZ).
  exists (Nat.max e1 en). intros fuel L. rewrite E, EF by lia.
  destruct (variable_none (eval_fuel fs fuel) w1 slice Wsl NA' NM') as (e & Ee). rewrite Ee. cbn [bind].
  apply bind_inv in EY as (pss & EYa & EYb). rewrite EYa. cbn [bind]. rewrite (Ev fuel _ _ ltac:(lia)). rewrite EYb. cbn [bind].
  unfold wbind. rewrite EZ. cbn [bind]. rewrite (AstParseProofs2.indices_marks (block_span pb) (block_span_wf pb Wpb)), (block_span_marks pb Wpb), Mpb.
  destruct (second_colon_some m HB HC 0) as (n & ->). exact Logic.I.
Qed.
