(** Text-level makefile semantics: lines without effect. *)
From Coq Require Import String ZArith.
From Verif Require Import Base LocModel EvdModel NomModel AstModel ParseModel AstParseModel EngineModel
  EvdSpec DbSpec ParseSpec EvalSpec AstParseSpec EngineSpec MakeSpec
  EvdProofs EvdProofs3 ParseProofs ParseProofs2 ParseProofs4 ParseProofs5 EvalProofs2 EvalProofs3 EvalProofs4 FuelProofs
  DbProofs EvdProofs2 AstParseProofs AstParseProofs2 AstParseProofs3 SafeProofs SafeProofs2 SafeProofs3 SafeProofs4
  EngineProofs EngineProofs2 EngineProofs3 MakeProofs MakeProofs2 MakeProofs3 MakeProofs4 MakeProofs6 MakeProofs7 MakeProofs8 MakeProofs9.
Local Open Scope nat_scope.

(** A word at the end of the text. *)
Lemma scan_end : forall w, word_text w -> free [c_bslash] w -> forall h fuel stop reason prev, (stop = h \/ w <> []) ->
  List.length w < fuel ->
  exists r, mword_scan fuel (num h w) false stop reason prev = Ok (h + List.length w, r) /\ In r [reason; MwStatic; MwVariable].
Proof.
  intros w WT. induction WT as [|c t NC WT IH|x c t Ex NC WT IH|x b t inner rest Ex Eb G WT IH]; intros F h fuel stop reason prev ST L;
    (destruct fuel as [|fuel]; [cbn in L; lia|]).
  - cbn. destruct ST as [->|]; [|congruence]. exists reason. split; [f_equal; f_equal; lia|auto].
  - rewrite num_cons. cbn [mword_scan].
    assert (Q : forall d, In d [c_space; c_tab; equals; colon; dollar] -> (fst c =? d)%N = false).
    { intros d I. apply N.eqb_neq. intros E. apply NC. rewrite E. exact I. }
    rewrite (Q c_space), (Q c_tab), (Q c_eq), (Q c_colon), (Q c_dollar) by (cbn; tauto). cbn [orb].
    assert ((fst c =? c_bslash)%N = false) as Q2. { apply N.eqb_neq. intros E. apply (F c (or_introl eq_refl)). now left. }
    rewrite Q2.
    assert (F' : free [c_bslash] t) by (intros a I; apply F; now right).
    assert (R : forall st, (st = Datatypes.S h \/ t <> []) -> exists r, mword_scan fuel (num (Datatypes.S h) t) false st reason (fst c) =
        Ok (h + Datatypes.S (List.length t), r) /\ In r [reason; MwStatic; MwVariable]).
    { intros st Hst. destruct (IH F' (Datatypes.S h) fuel st reason (fst c) Hst) as (r & E & I); [cbn in L; lia|]. exists r. split; [|exact I].
      rewrite E. f_equal. f_equal. lia. }
    cbn [List.length]. destruct ((fst c =? 63) || (fst c =? 43))%N; [|apply R; left; lia].
    destruct t as [|d t].
    + cbn [num combine seq List.map List.length peek bind]. apply R. left. lia.
    + rewrite num_cons. cbn [peek bind].
      assert ((fst d =? c_eq)%N = false) as ->.
      { apply N.eqb_neq. intros E. inversion WT as [|d' t' ND _ E1|x d' t' Ex _ _ E1|x b t' inner rest Ex _ _ _ E1]; subst.
        - apply ND. rewrite E. cbn. tauto.
        - rewrite Ex in E. discriminate.
        - rewrite Ex in E. discriminate. }
      rewrite <- num_cons. apply R. right. discriminate.
  - rewrite num_cons. cbn [mword_scan]. rewrite Ex. cbn [orb]. change (dollar =? c_space)%N with false. change (dollar =? c_tab)%N with false.
    change (dollar =? c_eq)%N with false. change (dollar =? c_colon)%N with false. change (dollar =? c_dollar)%N with true. cbn [orb].
    rewrite num_cons. cbn [peek bind tl].
    assert (F' : free [c_bslash] t) by (intros a I; apply F; right; now right).
    assert (R : forall re p, In re [reason; MwVariable] -> exists r, mword_scan fuel (num (Datatypes.S (Datatypes.S h)) t) false (Datatypes.S h + 1) re p =
        Ok (h + Datatypes.S (Datatypes.S (List.length t)), r) /\ In r [reason; MwStatic; MwVariable]).
    { intros re p Ire. destruct (IH F' (Datatypes.S (Datatypes.S h)) fuel (Datatypes.S h + 1) re p) as (r & E & I); [left; lia|cbn in L; lia|]. exists r. split.
      - rewrite E. f_equal. f_equal. lia.
      - cbn in I, Ire |- *. intuition (subst; auto). }
    cbn [List.length].
    destruct (fst c =? c_dollar)%N; [apply R; now left|].
    assert ((fst c =? c_lparen)%N = false) as -> by (apply N.eqb_neq; intros E; apply NC; rewrite E; now left).
    assert ((fst c =? c_lbrace)%N = false) as -> by (apply N.eqb_neq; intros E; apply NC; rewrite E; right; now left).
    apply R. right. now left.
  - rewrite num_cons. cbn [mword_scan]. rewrite Ex. cbn [orb]. change (dollar =? c_space)%N with false. change (dollar =? c_tab)%N with false.
    change (dollar =? c_eq)%N with false. change (dollar =? c_colon)%N with false. change (dollar =? c_dollar)%N with true. cbn [orb].
    rewrite num_cons. cbn [peek bind tl]. rewrite Eb. change (open_paren =? c_dollar)%N with false. change (open_paren =? c_lparen)%N with true. cbn match.
    destruct G as (O & A & y & Ey & ->).
    assert (O' : forall p q, inner = p ++ q -> count close_paren p <= 0 + count open_paren p) by (intros p q E; exact (O p q E)).
    assert (A' : 0 + count open_paren inner = count close_paren inner) by exact A.
    change c_lparen with open_paren. change c_rparen with close_paren.
    rewrite (skip_group inner 0 (Datatypes.S (Datatypes.S h)) (Datatypes.S h + 1) y rest Ey O' A'). cbn [bind].
    assert (F' : free [c_bslash] rest) by (intros a I; apply F; right; right; apply in_or_app; right; now right).
    destruct (IH F' (Datatypes.S (Datatypes.S h) + List.length inner + 1) fuel (Datatypes.S (Datatypes.S h) + List.length inner + 1) MwVariable close_paren (or_introl eq_refl)) as (r & E & I).
    { cbn [List.length app] in L. rewrite app_length in L. cbn [List.length app] in L. lia. }
    exists r. split.
    + rewrite E. f_equal. f_equal. cbn [List.length]. rewrite app_length. cbn [List.length]. lia.
    + cbn in I |- *. intuition (subst; auto).
Qed.

Lemma starts_shorter : forall k a b, starts_with k (a ++ b) = false -> starts_with k a = false.
Proof.
  intros k a b H. destruct (starts_with k a) eqn:Q; [|reflexivity]. apply starts_with_iff in Q as (u & ->).
  rewrite <- H. symmetry. apply starts_with_iff. exists (u ++ b). symmetry. apply app_assoc.
Qed.

(** The word at the end, or no word. *)
Lemma mword_end_word : forall s w, wf_span s -> lstrip fst (span_marks s) = w -> word_text w -> free [semicolon; c_bslash] w ->
  exists r cap reason, next_mword s = Ok (POk r (cap, reason)) /\ In reason [MwStatic; MwVariable] /\ moves s cap w /\ moves s r [].
Proof.
  intros s w W M WT F. unfold next_mword. destruct (whitespace_keeps s W) as (i & q & E & K & Mi). rewrite E. cbn [pbind bind].
  rewrite M in Mi. pose proof (proj1 K) as Wi.
  match goal with |- context [palt ?l i] => change l with (List.map tag_as mword_tags) end.
  assert (F1 : free [semicolon] w). { intros a I J. apply (F a I). cbn in J |- *. tauto. }
  assert (F2 : free [c_bslash] w). { intros a I J. apply (F a I). cbn in J |- *. tauto. }
  assert (NT : forall k r, In (k, r) mword_tags -> starts_with k (chars w) = false).
  { intros k r I. destruct w as [|c w].
    - cbn in I. repeat (destruct I as [I|I]; [injection I as <- _; reflexivity|]). contradiction.
    - apply (starts_shorter k (chars (c :: w)) [c_space]).
      pose proof (word_no_tag (c :: w) (made c_space) [] WT F1 ltac:(discriminate) (or_introl eq_refl) k r I) as X.
      unfold chars in X |- *. rewrite map_app in X. exact X. }
  rewrite (tag_as_none i _ Wi Mi NT). cbn [bind].
  rewrite (indices_marks i Wi). fold (num 0 (span_marks i)). rewrite Mi.
  destruct (scan_end w WT F2 0 (Datatypes.S (List.length (num 0 w))) 0 MwStatic 0%N (or_introl eq_refl)) as (reason & Sc & I).
  { rewrite num_length. lia. }
  rewrite Sc. cbn [bind].
  assert (L : 0 + List.length w <= sp_len i). { rewrite <- (span_marks_len i Wi), Mi. lia. }
  destruct (take_split_sub i _ Wi L) as (r & cap & Et & Sr & Sc2). rewrite Et. cbn [bind pok].
  exists r, cap, reason. split; [reflexivity|]. split; [cbn in I |- *; intuition (subst; auto)|].
  split; (split; [eapply keeps_trans; [exact K|eapply sub_keeps; eassumption]|]).
  - eapply (sub_prefix i _ cap w [] Wi Sc2); [rewrite app_nil_r; exact Mi|reflexivity].
  - eapply (sub_suffix i _ r w [] Wi Sr); [rewrite app_nil_r; exact Mi|reflexivity].
Qed.

Lemma word_strips : forall w t, word_text w -> w <> [] -> free [semicolon] w -> lstrip fst (w ++ t) = w ++ t.
Proof.
  intros w t W N F. destruct w as [|c w]; [congruence|]. apply solid_strip. exists c, (w ++ t). split; [reflexivity|].
  pose proof (word_head _ c w W F eq_refl) as H. destruct (blank (fst c)) eqn:B; [|reflexivity].
  exfalso. apply H. unfold blank in B. apply orb_true_iff in B as [B|B]; apply N.eqb_eq in B; rewrite B; cbn; tauto.
Qed.

(** A word and what follows it. *)
Lemma mword_any : forall s w t, wf_span s -> lstrip fst (span_marks s) = w ++ t -> word_text w -> free [semicolon; c_bslash] w -> w <> [] ->
  match t with [] => True | b :: _ => blank (fst b) = true end ->
  exists r cap reason, next_mword s = Ok (POk r (cap, reason)) /\ In reason [MwStatic; MwVariable] /\ moves s cap w /\ moves s r t.
Proof.
  intros s w t W M WT F N B. destruct t as [|b t].
  - rewrite app_nil_r in M. apply mword_end_word; auto.
  - destruct (mword_word s w b t W M WT F N (or_introl B)) as (r & cap & reason & E & I & Mc & Mr).
    assert (Cb : (fst b =? colon)%N = false). { apply N.eqb_neq. intros Q. rewrite Q in B. discriminate. }
    rewrite Cb in Mc, Mr. exists r, cap, reason. auto.
Qed.

Section Idle.
  Context (fs : str -> file) (D : defs) (FS : ascii_files fs).

  Lemma void_round : forall w s line post_semi buf, world_good w -> env_rep D (world_env w) -> wf_span s -> tidy s -> stands_for D (span_marks s) [] ->
    forall n, 0 < n -> exists w' enough, (forall fuel, enough <= fuel -> target_loop (eval_fuel fs fuel) n w line s post_semi buf = Ok (w', POk line TsConsumed)) /\
      same_but_names w w'.
  Proof.
    intros w s line post_semi buf G R W F S n Ln. destruct n as [|n]; [lia|].
    destruct (round_ok fs D FS w s [] G R W F S) as (w1 & nc & e1 & E1 & M1 & Wn & SB1 & G1 & R1); [intros a []|].
    exists w1, e1. split; [|exact SB1]. intros fuel Lf. rewrite E1 by exact Lf. unfold round. rewrite (block_len_marks nc Wn), M1. reflexivity.
  Qed.

  Lemma idle_loop : forall t, idle_words D t -> free [semicolon; c_bslash] t ->
    forall w line post_semi buf, world_good w -> env_rep D (world_env w) -> wf_span line -> tidy line -> lstrip fst (span_marks line) = t -> wf_block buf ->
    exists r cap reason, next_mword line = Ok (POk r (cap, reason)) /\ In reason [MwStatic; MwVariable] /\ (t = [] \/ sp_len r < sp_len line) /\
    forall n, match t with [] => 0 | _ => sp_len r + 1 end < n -> exists w' r' enough,
      (forall fuel, enough <= fuel -> target_loop (eval_fuel fs fuel) n w r cap post_semi buf = Ok (w', POk r' TsConsumed)) /\ same_but_names w w'.
  Proof.
    intros t T. induction T as [|w0 t WT Nw S B|w0 t m WT Nw S NT Nm B T IH]; intros FR w line post_semi buf G R W F L Wb.
    - destruct (mword_end_word line [] W L WT_nil FR) as (r & cap & reason & E & I & (Kc & Mc) & (Kr & Mr)).
      exists r, cap, reason. split; [exact E|]. split; [exact I|]. split; [now left|]. intros n Ln.
      destruct (void_round w cap r post_semi buf G R (proj1 Kc) (proj1 (proj2 (proj2 Kc)) F)) with (n := n) as (w' & en & X); [rewrite Mc; constructor|exact Ln|].
      exists w', r, en. exact X.
    - assert (FRw : free [semicolon; c_bslash] w0). { eapply free_sub; [exact FR|]. intros a Ia. apply in_or_app. now left. }
      destruct (mword_any line w0 t W L WT FRw Nw B) as (r & cap & reason & E & I & (Kc & Mc) & (Kr & Mr)).
      exists r, cap, reason. split; [exact E|]. split; [exact I|]. split.
      { right. apply (consumed line r w0 t (proj1 Kr) W L Nw). rewrite Mr. lia. }
      intros n Ln. assert (0 < n) by lia.
      destruct (void_round w cap r post_semi buf G R (proj1 Kc) (proj1 (proj2 (proj2 Kc)) F)) with (n := n) as (w' & en & X); [rewrite Mc; exact S|assumption|].
      exists w', r, en. exact X.
    - assert (FRw : free [semicolon; c_bslash] w0). { eapply free_sub; [exact FR|]. intros a Ia. apply in_or_app. now left. }
      destruct (mword_any line w0 t W L WT FRw Nw B) as (r & cap & reason & E & I & (Kc & Mc) & (Kr & Mr)).
      rewrite <- Mc in S.
      destruct (round_ok fs D FS w cap m G R (proj1 Kc) (proj1 (proj2 (proj2 Kc)) F) S) as (w1 & nc & e1 & E1 & M1 & Wn & SB1 & G1 & R1).
      { intros a Ia J. apply (NT a Ia). cbn in J |- *. tauto. }
      destruct (colon_none nc Wn) as (b' & Ec & Wb' & Mb').
      { rewrite M1. intros a Ia J. apply (NT a Ia). cbn in J |- *. tauto. }
      destruct (push_word_ok buf b' Wb Wb') as (buf1 & Ep & Wbuf1 & _ & _).
      assert (FR' : free [semicolon; c_bslash] (lstrip fst t)).
      { eapply free_sub; [exact FR|]. destruct (lstrip_suffix fst t) as (pre & El & _). intros a Ia. apply in_or_app. right. rewrite El. apply in_or_app. now right. }
      destruct (IH FR' w1 r post_semi buf1 G1 R1 (proj1 Kr) (proj1 (proj2 (proj2 Kr)) F)) as (r2 & cap2 & re2 & E2 & I2 & L2 & IHn).
      { rewrite Mr. reflexivity. }
      { exact Wbuf1. }
      exists r, cap, reason. split; [exact E|]. split; [exact I|]. split.
      { right. apply (consumed line r w0 t (proj1 Kr) W L Nw). rewrite Mr. lia. }
      intros n Ln.
      assert (Ln' : sp_len r + 1 < n). { destruct w0; [congruence|]. exact Ln. }
      destruct n as [|n]; [lia|].
      destruct (IHn n) as (w' & r' & e2 & El & SB). { destruct L2 as [-> | L2]; [lia|]. destruct (lstrip fst t); lia. }
      exists w', r', (Nat.max e1 e2). split; [|exact (sbn_trans _ _ _ SB1 SB)].
      intros fuel Lf. rewrite E1 by lia. unfold round. rewrite (block_len_marks nc Wn), M1.
      destruct (List.length m =? 0) eqn:Z; [apply Nat.eqb_eq, length_zero_iff_nil in Z; congruence|].
      rewrite Ec. cbn [bind]. unfold wbind at 1. rewrite E2. cbn [bind]. rewrite Ep. cbn [bind].
      cbn in I2. destruct I2 as [<-|[<-|[]]]; apply El; lia.
  Qed.
End Idle.

Lemma idle_line_ok : forall fs D w s l u u', ascii_files fs -> world_good w -> env_rep D (world_env w) ->
  wf_span s -> single s -> span_marks s = l -> ~ has fst c_hash l -> no_assignment l -> logical_line fst l [] u u' -> idle_line D u ->
  exists w' rest enough, (forall fuel, enough <= fuel -> target_parse_line (eval_fuel fs fuel) w s = Ok (w', POk rest TNoAction)) /\ same_but_names w w'.
Proof.
  intros fs D w s l u u' FS G R W S M N NA L H.
  destruct (inner_line s l u u' W S M N L) as (r0 & b & E & Wb & Fb & Mb).
  assert (Nu : ~ has fst c_hash u).
  { intros (a & I & Q). apply N. exists a. split; [|exact Q]. inversion L; subst; [exact I|]. apply in_or_app. now left. }
  assert (exists z, l = u ++ z) as (z & Lz). { inversion L; subst; [exists []; symmetry; apply app_nil_r|eexists; reflexivity]. }
  destruct H as (head & cmd & WC & FR & H).
  destruct (command_cut b u head cmd Wb Fb Mb Nu WC FR) as (pre & rr & semip & ps & E1 & E2 & E3 & Wp & Fp & Mp & CB).
  assert (exists y, u = head ++ y) as (y & Uy).
  { destruct cmd as [|k [|? ?]]; cbn in WC; [exists []; rewrite app_nil_r; exact WC|destruct WC as (c & -> & _); eexists; reflexivity|contradiction]. }
  destruct H as [(c & after & Eu & C)|IW].
  - assert (LS : lstrip fst (span_marks (block_span pre)) = c :: after).
    { rewrite (block_span_marks pre Wp), Mp, Eu. apply solid_strip. exists c, after. split; [reflexivity|]. rewrite C. reflexivity. }
    destruct (mword_colon (block_span pre) c after (block_span_wf pre Wp) LS C) as (r & cap & reason & En & I & _).
    { intros double deps AC (e & d & -> & Q). destruct double; cbn in AC.
      - destruct AC as (c2 & -> & C2). apply (NA [] AsSimple (lstrip fst (d ++ y ++ z))).
        exists [], [c; c2; e], (d ++ y ++ z). rewrite Lz, Uy, Eu. split; [cbn; rewrite <- app_assoc; reflexivity|].
        split; [intros a []|]. split; [intros a []|]. split; [|reflexivity]. cbn [chars List.map]. rewrite C, C2, Q. cbn. tauto.
      - destruct AC as (-> & _). apply (NA [] AsSimple (lstrip fst (d ++ y ++ z))).
        exists [], [c; e], (d ++ y ++ z). rewrite Lz, Uy, Eu. split; [cbn; rewrite <- app_assoc; reflexivity|].
        split; [intros a []|]. split; [intros a []|]. split; [|reflexivity]. cbn [chars List.map]. rewrite C, Q. cbn. tauto. }
    exists w, r0, 0. split; [|apply sbn_refl].
    intros fuel _. unfold target_parse_line, wbind. rewrite E. cbn [bind]. rewrite E1. cbn [bind]. rewrite E2. cbn [bind]. rewrite E3. cbn [bind].
    rewrite En. cbn [bind]. destruct I as [<-|[<-|[]]]; reflexivity.
  - assert (LS : lstrip fst (span_marks (block_span pre)) = head).
    { rewrite (block_span_marks pre Wp), Mp. inversion IW; subst; [reflexivity| |]; (apply word_strips; auto;
      match goal with H : _ ++ _ = block_marks pre |- _ => rewrite <- H in FR end; intros a I J; apply (FR a); [apply in_or_app; now left|]; cbn in J |- *; tauto). }
    destruct (idle_loop fs D FS head IW FR w (block_span pre) ps block_empty G R (block_span_wf pre Wp) Fp LS block_empty_wf)
      as (r & cap & reason & En & I & _ & Hn).
    destruct (Hn (Datatypes.S (Datatypes.S (sp_len r)))) as (w' & r' & e1 & El & SB); [destruct head; lia|].
    exists w', r0, e1. split; [|exact SB].
    intros fuel Lf. unfold target_parse_line, wbind. rewrite E. cbn [bind]. rewrite E1. cbn [bind]. rewrite E2. cbn [bind]. rewrite E3. cbn [bind].
    rewrite En. cbn [bind]. rewrite El by exact Lf. cbn in I. destruct I as [<-|[<-|[]]]; reflexivity.
Qed.

Lemma idle_step : forall fs st s w i t l rest u u', ascii_files fs -> sim st s w -> world_good w -> state_ok s w ->
  at_text i t -> ~ is_comment_text t -> directly st t -> plain_line t l rest -> solid l ->
    m_ignoring st = false -> unconditional l -> begins_none (modifier_words ++ directive_words) l -> no_assignment l ->
    logical_line fst l [] u u' -> idle_line (m_defs st) u ->
  gets_to fs s w i (closed st) rest.
Proof.
  intros fs st s w i t l rest u u' FS SI G SO A NC DR P So IG BC BN NA LL RL.
  pose proof (plain_text _ _ _ P) as LT. destruct (line_at i t l rest A LT) as (rr & b & E & Ar & W & F & M).
  pose proof (line_start_with fs st s w i t rr b SI A NC DR E) as EL.
  pose proof (plain_single i t l rest rr b A P E) as SB. pose proof (block_span_wf b W) as WS.
  assert (MS : span_marks (block_span b) = l) by (rewrite (block_span_marks b W); exact M).
  assert (BM : begins_none modifier_words l) by (intros k v I; apply BN; apply in_or_app; now left).
  assert (BD : begins_none directive_words l) by (intros k v I; apply BN; apply in_or_app; now right).
  destruct (conditional_none (block_span b) WS F) as (kc & Ec); [rewrite MS; exact So|rewrite MS; exact BC|].
  assert (LS : lstrip fst (span_marks (block_span b)) = l) by (rewrite MS; apply solid_strip; exact So).
  destruct (directive_none (block_span b) WS) as (kd & Ed); [rewrite MS; exact BD|].
  assert (EV : forall ev, exists e, variable_parse_line ev w (block_span b) = Ok (w, PError e)).
  { intros ev. apply variable_none; [exact WS|rewrite LS; exact NA|rewrite LS; exact BM]. }
  destruct (idle_line_ok fs (m_defs st) w (block_span b) l u u' FS G (sim_env _ _ _ SI) WS SB MS (plain_no_hash _ _ _ P) NA LL RL)
    as (w1 & r1 & en & ET & S1).
  destruct (close_sim st s w1 (sim_same _ _ _ _ SI (proj1 G) S1) (sbn_good _ _ S1 G) (state_grown _ _ _ SO (sbn_grown _ _ S1)))
    as (s2 & w2 & C & SI2 & _ & _ & _ & G2 & EE & NE).
  exists s2, w2, rr, en. split; [|split; [exact Ar|exact SI2]].
  intros fuel Lf. rewrite EL, (block_len_marks b W), M. destruct So as (x & v & El & Bx). rewrite El. cbn [List.length Nat.eqb].
  rewrite Ec. cbn [bind run_parser]. rewrite (sim_ignoring _ _ _ SI), IG. unfold parse_active_line.
  destruct (EV (eval_fuel fs fuel)) as (ev & Ev). rewrite Ev. cbn [bind run_parser]. rewrite Ed. cbn [bind run_parser].
  rewrite (first_char_ok _ WS), span_text_marks, MS, El. cbn [List.map hd_error bind]. rewrite (sim_cmd _ _ _ SI).
  assert (Q : (fst x =? c_tab)%N = false).
  { apply N.eqb_neq. intros Q. rewrite Q in Bx. discriminate. }
  rewrite Q, (ET fuel Lf). cbn [bind run_parser]. rewrite C. reflexivity.
Qed.
