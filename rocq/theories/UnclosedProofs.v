(** Expressions that are not well-formed: which error they give. *)
From Coq Require Import String Lia.
From Verif Require Import Base LocModel EvdModel NomModel AstModel ParseModel AstParseModel EngineModel
  EvdSpec ParseSpec EvalSpec AstParseSpec MakeSpec CrashSpec EvdProofs EvdProofs2 EvdProofs3 ParseProofs ParseProofs2 AstParseProofs AstParseProofs2 AstParseProofs3
  EngineProofs3 MakeProofs3.
Local Open Scope nat_scope.

Lemma not_expression : forall s, wf_span s -> tidy s -> ~ expression (span_marks s) -> exists ks, parse_ast s = Ok (PFailure ks).
Proof.
  intros s W F X. pose proof (parse_outcome_ok s W) as O. pose proof (tidy_flat s F) as Fl.
  destruct (parse_ast s) as [[r a|ks|ks]| |]; try contradiction; [|eauto].
  exfalso. apply X. exists a. exact (proj1 (proj2 (reads_mono _ _ (fun f : False => match f with end))) _ _ (proj2 O)).
Qed.

Definition unterminated {A} (r : res (presult A)) : Prop := exists ks, r = Ok (PFailure ks) /\ is_unterminated (error_kind ks) = true.

Lemma unclosed_after : forall p u, ~ has fst dollar p -> unclosed (p ++ u) -> unclosed u.
Proof.
  induction p as [|a p IH]; intros u N U; [exact U|]. assert (fst a <> dollar) as Na by (intros E; apply N; exists a; cbn; auto).
  apply IH; [intros (x & I & E); apply N; exists x; cbn; auto|]. cbn in U. inversion U; subst; congruence.
Qed.
Lemma unclosed_dollar : forall t, unclosed t -> has fst dollar t.
Proof.
  intros t U. induction U as [d b o c t D|d b o c t i r D|d b o c t i r D|d c t D|c t N U (x & I & E)]; try (exists d; cbn; auto; fail).
  exists x. cbn. auto.
Qed.

(** * References *)
Lemma var_ref_steps : forall pa loc s c t, wf_span s -> flat s -> span_marks s = c :: t ->
  (forall o cl, opens (fst c) o cl -> exists r, sub s 1 (sp_len s - 1) r /\ span_marks r = t /\
     match advanced_var pa loc o cl r with Ok (PError _) => True | x => parse_var_ref pa loc s = x end) /\
  (~ In (fst c) [open_paren; close_brace] -> exists r a, parse_var_ref pa loc s = Ok (POk r a) /\ keeps s r /\ span_marks r = t).
Proof.
  intros pa loc s c t W Fl M. remember (parse_var_ref pa loc s) as v eqn:Ev. unfold parse_var_ref in Ev. cbn [palt] in Ev. unfold pmap at 1, peof in Ev.
  pose proof (span_marks_len s W) as Ls. rewrite M in Ls. cbn in Ls.
  destruct (Nat.eqb_spec (sp_len s) 0) as [Z|Z]; [lia|]. cbn [pbind bind perror] in Ev.
  assert (Mt : span_text s = fst c :: List.map fst t) by (rewrite span_text_marks, M; reflexivity).
  assert (T1 : forall n r p, sub s n (sp_len s - n) r -> n = 1 -> sub s 0 n p -> span_marks p = [c] /\ span_marks r = t).
  { intros n r p Sr -> Sp. rewrite (sub_marks_firstn _ _ _ _ Sp), (sub_end _ _ _ W Sr), M. auto. }
  pose proof (tag_ok s [c_dollar] W ltac:(repeat constructor)) as T. rewrite Mt in T. cbn [starts_with] in T.
  rewrite andb_true_r in T. change c_dollar with dollar in *.
  destruct (N.eqb_spec dollar (fst c)) as [Dc|Dc].
  { destruct T as (r & p & T & Sr & Sp & _). rewrite T in Ev. cbn [pbind bind] in Ev. destruct (T1 _ r p Sr eq_refl Sp) as (Mp & Mr).
    pose proof (first_segment_one p c (sub_wf _ _ _ _ Sp) Mp) as F.
    destruct (first_segment p); cbn [bind pok] in Ev; [|exfalso; apply F; eapply flat_sub; eauto|contradiction].
    split; [intros o cl Op; exfalso; rewrite <- Dc in Op; inversion Op|].
    intros _. eexists r, _. split; [exact Ev|]. split; [eapply sub_keeps; eauto|exact Mr]. }
  rewrite T in Ev. cbn [pbind bind] in Ev. clear T.
  unfold preceded in Ev. pose proof (pchar_ok s c_lparen W eq_refl) as T. rewrite Mt in T. change c_lparen with open_paren in *.
  destruct (N.eqb_spec (fst c) open_paren) as [Dp|Dp].
  { destruct T as (r1 & T & S1 & _). rewrite T in Ev. cbn [pbind bind] in Ev. split; [|intros X; exfalso; apply X; cbn; auto].
    intros o cl Op. rewrite Dp in Op. inversion Op; subst o cl. exists r1. split; [exact S1|]. split; [rewrite (sub_end _ _ _ W S1), M; reflexivity|].
    change c_rparen with close_paren in Ev. destruct (advanced_var pa loc open_paren close_paren r1) as [[| |]| |]; auto. }
  rewrite T in Ev. cbn [pbind bind] in Ev. clear T.
  pose proof (pchar_ok s c_rbrace W eq_refl) as T. rewrite Mt in T. change c_rbrace with close_brace in *.
  destruct (N.eqb_spec (fst c) close_brace) as [Db|Db].
  { destruct T as (r1 & T & S1 & _). rewrite T in Ev. cbn [pbind bind] in Ev. split; [|intros X; exfalso; apply X; cbn; auto].
    intros o cl Op. rewrite Db in Op. inversion Op; subst o cl. exists r1. split; [exact S1|]. split; [rewrite (sub_end _ _ _ W S1), M; reflexivity|].
    change c_lbrace with open_brace in Ev. destruct (advanced_var pa loc open_brace close_brace r1) as [[| |]| |]; auto. }
  rewrite T in Ev. cbn [pbind bind] in Ev. clear T.
  pose proof (ptake_ok s 1 W) as T. destruct (Nat.leb_spec 1 (sp_len s)); [|lia]. destruct T as (r & p & T & Sr & Sp). rewrite T in Ev.
  cbn [pbind bind] in Ev. destruct (T1 _ r p Sr eq_refl Sp) as (Mp & Mr).
  pose proof (first_segment_one p c (sub_wf _ _ _ _ Sp) Mp) as F.
  destruct (first_segment p); cbn [bind pok] in Ev; [|exfalso; apply F; eapply flat_sub; eauto|contradiction].
  split; [intros o cl Op; exfalso; inversion Op; congruence|].
  intros _. eexists r, _. split; [exact Ev|]. split; [eapply sub_keeps; eauto|exact Mr].
Qed.

Lemma group_steps : forall fuel loc o c s, wf_span s -> sp_len s <= fuel -> o <> c ->
  ((forall inner rest, ~ group o c (span_marks s) inner rest) -> unterminated (advanced_var (parse_ast_fuel fuel) loc o c s)) /\
  (forall inner rest, group o c (span_marks s) inner rest -> (forall k, In k function_names -> ~ begins_with k inner) ->
     exists n r, keeps s n /\ sp_len n < fuel /\ span_marks n = inner /\ keeps s r /\ span_marks r = rest /\
       advanced_var (parse_ast_fuel fuel) loc o c s = (let! (_j, parsed) := parse_ast_fuel fuel n in pok r (AVar loc parsed))).
Proof.
  intros fuel loc o c s W L N. unfold advanced_var. rewrite (indices_marks s W). cbn [fst snd].
  pose proof (find_balance_ok o c N (span_marks s) 0 0) as B. pose proof (span_marks_len s W) as Ls.
  destruct (find_balance _ _ _ _ _) as [[i|]| |]; try contradiction; cbn [bind].
  2: { split; [intros _; eexists; split; reflexivity|]. intros inner rest G. exfalso. eapply opened_no_group; eauto. }
  destruct B as (inner & x & rest & E & X & -> & O & Q). cbn [plus] in *.
  assert (G : group o c (span_marks s) inner rest) by (split; [exact O|]; split; [exact Q|]; exists x; auto).
  split; [intros H; exfalso; exact (H _ _ G)|]. intros i2 r2 G2 Nk. destruct (group_unique _ _ _ _ _ _ _ N G G2) as (<- & <-).
  assert (Li : List.length inner + 1 <= sp_len s) by (rewrite <- Ls, E, app_length; cbn; lia).
  destruct (take_split_sub s _ W Li) as (r & p & T & Sr & Sp). rewrite T. cbn [bind].
  assert (sp_len p = List.length inner + 1) as Lp by apply Sp. rewrite Lp, usub_ok by lia. cbn [bind].
  replace (List.length inner + 1 - 1) with (List.length inner) by lia.
  assert (Sn : sub p 0 (List.length inner) (slice_to p (List.length inner))) by (apply slice_to_sub; [apply Sp|lia]).
  set (nn := slice_to p (List.length inner)) in *. pose proof (sub_sub _ _ _ _ _ _ _ Sp Sn) as Snn. cbn [plus] in Snn.
  assert (Mn : span_marks nn = inner).
  { rewrite (sub_marks_firstn _ _ _ _ Snn), E. cbn [skipn]. rewrite firstn_app, firstn_all, Nat.sub_diag, firstn_O. apply app_nil_r. }
  assert (Mr : span_marks r = rest).
  { rewrite (sub_end _ _ _ W Sr), E. rewrite skipn_app.
    replace (List.length inner + 1 - List.length inner) with 1 by lia. rewrite skipn_all2 by lia. reflexivity. }
  pose proof (sub_keeps _ _ _ _ Snn) as Kn. assert (Ln : sp_len nn < fuel).
  { destruct Snn as (_ & _ & Z & _). rewrite Z. lia. }
  exists nn, r. split; [exact Kn|]. split; [exact Ln|]. split; [exact Mn|]. split; [eapply sub_keeps; eauto|]. split; [exact Mr|].
  destruct (function_call_good False (parse_ast_fuel fuel) fuel) with (loc := loc) (s := nn) as [((k & Ik & Bk) & _)|(_ & ->)];
    [|exact (proj1 Kn)|intros []|exact Ln|exfalso; rewrite Mn in Bk; eapply Nk; eauto|reflexivity].
  intros s0 W0 T0 L0. apply parse_ast_fuel_good; assumption.
Qed.

(** * Expressions *)
Lemma unclosed_fails : forall fuel s, wf_span s -> flat s -> sp_len s < fuel -> unclosed (span_marks s) -> unterminated (parse_ast_fuel fuel s).
Proof.
  induction fuel as [|fuel IH]; intros s W Fl L U; [lia|]. cbn [parse_ast_fuel]. unfold parse_ast_step.
  pose proof (location_cases s W) as LC. destruct (span_location s) as [l| |]; [|exfalso; exact (LC Fl)|contradiction]. cbn [bind]. subst l.
  assert (LOOP : forall n s acc, wf_span s -> flat s -> sp_len s < n -> sp_len s <= fuel -> unclosed (span_marks s) -> unterminated (parse_ast_loop (parse_ast_fuel fuel) n s acc)).
  { clear s W Fl L U. induction n as [|n IHn]; intros s acc W Fl L B U; [lia|]. cbn [parse_ast_loop].
    assert (P : 0 <? sp_len s = true).
    { apply Nat.ltb_lt. rewrite <- (span_marks_len s W). destruct U; cbn; lia. }
    rewrite P. pose proof (until_dollar_good s W) as D. destruct (until_dollar s) as [[r (start, [l|])|ks|ks]| |]; try contradiction; cbn [pbind bind fst snd].
    2: { exfalso. apply D. apply unclosed_dollar, U. }
    destruct D as (Kr & Kst & Lr & Nd & d & D & <- & Ms). rewrite Ms in U. apply unclosed_after in U; [|exact Nd].
    pose proof (constants_cases start (proj1 Kst)) as C. destruct (constants_of start) as [cs| |]; cbn [bind];
      [|exfalso; apply C, Kst, Fl|contradiction]. clear C.
    assert (Fr : flat r) by (apply Kr, Fl).
    assert (NEXT : forall r2 a, parse_var_ref (parse_ast_fuel fuel) (snd d) r = Ok (POk r2 a) -> keeps r r2 -> unclosed (span_marks r2) ->
      unterminated (pbind (parse_var_ref (parse_ast_fuel fuel) (snd d) r) (fun i child => parse_ast_loop (parse_ast_fuel fuel) n i (acc ++ cs ++ [child])))).
    { intros r2 a -> K2 U2. cbn [pbind bind]. destruct K2 as (W2 & L2 & _ & _ & F2). apply IHn; auto; lia. }
    assert (GROUP : forall b o c t, span_marks r = b :: t -> opens (fst b) o c -> exists r1, keeps r r1 /\ span_marks r1 = t /\ sp_len r1 <= fuel /\ o <> c /\
      match advanced_var (parse_ast_fuel fuel) (snd d) o c r1 with Ok (PError _) => True | x => parse_var_ref (parse_ast_fuel fuel) (snd d) r = x end).
    { intros b o c t M Op. destruct (proj1 (var_ref_steps (parse_ast_fuel fuel) (snd d) r b t (proj1 Kr) Fr M) o c Op) as (r1 & S1 & M1 & E).
      pose proof (sub_keeps _ _ _ _ S1) as K1. exists r1. split; [exact K1|]. split; [exact M1|]. split; [destruct K1; lia|]. split; [apply (opens_ne _ _ _ Op)|exact E]. }
    inversion U as [d' b o c t D' Op NG EQ|d' b o c t inner rest D' Op G Nk Ui EQ|d' b o c t inner rest D' Op G Nk X Ur EQ|d' c t D' Nc Ut EQ|c t N' Ut EQ]; subst.
    - destruct (GROUP b o c t ltac:(congruence) Op) as (r1 & K1 & M1 & L1 & Ne & E). rewrite <- M1 in NG.
      destruct (proj1 (group_steps fuel (snd d) o c r1 (proj1 K1) L1 Ne) NG) as (ks & F & Q). rewrite F in E. rewrite E. exists ks. auto.
    - destruct (GROUP b o c t ltac:(congruence) Op) as (r1 & K1 & M1 & L1 & Ne & E). rewrite <- M1 in G.
      destruct (proj2 (group_steps fuel (snd d) o c r1 (proj1 K1) L1 Ne) _ _ G Nk) as (nn & r2 & Kn & Ln & Mn & K2 & M2 & F). rewrite F in E. rewrite <- Mn in Ui.
      destruct (IH nn (proj1 Kn)) as (ks & Ek & Q); [apply Kn, K1, Fr|exact Ln|exact Ui|]. rewrite Ek in E. cbn [pbind bind] in E. rewrite E. exists ks. auto.
    - destruct (GROUP b o c t ltac:(congruence) Op) as (r1 & K1 & M1 & L1 & Ne & E). rewrite <- M1 in G.
      destruct (proj2 (group_steps fuel (snd d) o c r1 (proj1 K1) L1 Ne) _ _ G Nk) as (nn & r2 & Kn & Ln & Mn & K2 & M2 & F). rewrite F in E.
      pose proof (parse_ast_fuel_good False fuel nn (proj1 Kn) ltac:(intros []) Ln) as PG. destruct X as (a & X). rewrite <- Mn in X.
      assert (Fn : flat nn) by (apply Kn, K1, Fr).
      destruct (parse_ast_fuel fuel nn) as [[r3 a3|ks|ks]| |]; cbn [pbind bind pok] in E; try contradiction.
      + eapply NEXT; [exact E|exact (keeps_trans _ _ _ K1 K2)|rewrite M2; exact Ur].
      + exfalso. exact (proj2 PG _ X).
    - destruct (proj2 (var_ref_steps (parse_ast_fuel fuel) (snd d) r c t (proj1 Kr) Fr ltac:(congruence)) Nc) as (r2 & a & E & K2 & M2).
      eapply NEXT; [exact E|exact K2|rewrite M2; exact Ut].
    - congruence. }
  destruct (LOOP (S (sp_len s)) s [] W Fl ltac:(lia) ltac:(lia) U) as (ks & E & Q).
  destruct (span_marks s) as [|m t] eqn:M; [inversion U|]. cbn [hd_error option_map]. rewrite E. exists ks. auto.
Qed.

Lemma unclosed_at : forall s, wf_span s -> tidy s -> unclosed (span_marks s) -> exists ks, parse_ast s = Ok (PFailure ks) /\ is_unterminated (error_kind ks) = true.
Proof. intros s W F U. apply unclosed_fails; [exact W|exact (tidy_flat s F)|lia|exact U]. Qed.
