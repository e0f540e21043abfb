(** Proofs about makefiles written out from statements: the whole, and reading it. *)
From Coq Require Import String.
From Verif Require Import Base LocModel EvdModel AstModel EngineModel EvdSpec DbSpec ParseModel ParseSpec EvalSpec AstParseSpec EngineSpec MakeSpec CrashSpec
  EvdProofs2 ParseProofs EvalProofs4 MakeProofs5 MakeRun WriteSpec WriteProofs WriteProofs2 WriteLong WriteProofs3 WriteProofs4 WriteProofs5 WriteProofs9.
Local Open Scope nat_scope.

Lemma file_chars : forall id t, chars (file_text id t) = t.
Proof. intros id t. unfold file_text. apply located_chars. Qed.
Lemma written_ascii : forall ss t, written ss t -> every well_formed ss -> asciis t.
Proof.
  intros ss t W F. apply all_formed_tidy in F. assert (A : asciis (show_all ss)) by (eapply Forall_impl; [|exact F]; intros c [A _]; exact A).
  destruct W as [|p l Ap _ Fl]; [exact A|]. constructor; [reflexivity|]. apply Forall_app. split; [exact Ap|]. apply Forall_app. split.
  - eapply Forall_impl; [|exact Fl]. intros c [O| ->]; [apply ordinary_printable in O; unfold printable in O; unfold ascii; lia|reflexivity].
  - apply Forall_app. split; [repeat constructor|exact A].
Qed.

Ltac printables := cbn; repeat (apply Forall_cons; [unfold printable; lia|]); apply Forall_nil.

Section Run.
Variable fs : str -> file.

Definition acted (live : bool) (s : wstate) (txt : str) (s' : wstate) : Prop := forall st (t : text) u, rel s st -> not_taken (m_conds st) = negb live ->
  ~ has fst c_hash t -> unbroken t -> chars t = txt ++ u ->
  exists st' t', leads fs st t st' t' /\ rel s' st' /\ m_conds st' = m_conds st /\ chars t' = u /\ ~ has fst c_hash t'.
Lemma acted_app : forall live s a s1 b s2, acted live s a s1 -> acted live s1 b s2 -> acted live s (a ++ b) s2.
Proof.
  intros live s a s1 b s2 A B st t u R Nt H U E. rewrite <- app_assoc in E.
  destruct (A st t _ R Nt H U E) as (st1 & t1 & L1 & R1 & C1 & E1 & H1).
  destruct (B st1 t1 u R1) as (st2 & t2 & L2 & R2 & C2 & E2 & H2); auto; [congruence|eapply leads_unbroken; eauto|].
  exists st2, t2. split; [eapply leads_trans; eauto|]. split; [exact R2|]. split; [congruence|auto].
Qed.

(** The comment at the beginning of a file. *)
Lemma header_leads : forall st (tt : text) p l txt, asciis p -> (p = [] \/ exists q, p = q ++ [c_hash]) -> Forall (fun c => ordinary c \/ c = dollar) l ->
  Forall tidy txt -> chars tt = c_hash :: p ++ l ++ nl ++ txt -> exists t', leads fs st tt st t' /\ chars t' = txt.
Proof.
  intros st tt p l txt Ap Ep Fl F E.
  apply chars_cons in E as (h & t1 & -> & Fh & E). apply chars_split in E as (tp & t2 & -> & E1 & E). apply chars_split in E as (tl & t3 & -> & E2 & E).
  cbn [nl app] in E. apply chars_cons in E as (n & t4 & -> & Fn & E). exists t4. split; [|exact E].
  assert (Pl : Forall printable (chars tl)).
  { rewrite E2. eapply Forall_impl; [|exact Fl]. intros c [O| ->]; [apply ordinary_printable; exact O|unfold printable; lia]. }
  apply leads_line; [discriminate|]. apply ST_comment.
  exists h, tp, (tl ++ n :: t4), [], tl. split; [|split; [exact Fh|split; [|split]]].
  - unfold lstrip. cbn [drop_while]. rewrite Fh. reflexivity.
  - destruct Ep as [-> |[q ->]]; [apply chars_nil in E1 as ->; exact Logic.I|]. apply chars_split in E1 as (tq & th & -> & _ & E1).
    apply chars_cons in E1 as (a & z & -> & Fa & E1). apply chars_nil in E1 as ->. rewrite rev_app_distr. exact Fa.
  - intros (a & I & Fa). apply in_app_or in I as [I|[<-|I]].
    + assert (J : In (fst a) (chars tl)) by (apply in_map; exact I). rewrite Forall_forall in Pl. apply Pl in J. unfold printable, c_hash in *. lia.
    + rewrite Fn in Fa. discriminate.
    + assert (J : In (fst a) (chars t4)) by (apply in_map; exact I). rewrite E in J. rewrite Forall_forall in F. apply F in J. destruct J as [_ J]. apply J. exact Fa.
  - apply LL_last; [apply not_has|apply no_backslash|exact Fn]; (eapply Forall_impl; [|exact Pl]); intros c Z; unfold printable, c_nl, c_bslash in *; lia.
Qed.

(** A whole file. *)
Lemma written_run : forall ss t s s' st id, written ss t -> every well_formed ss -> acted true s (show_all ss) s' -> rel s st -> m_conds st = [] ->
  m_rule st = None -> exists st', runs fs st (file_text id t) st' /\ rel s' st' /\ m_conds st' = [].
Proof.
  intros ss t s s' st id W F A R C Mr. apply all_formed_tidy in F.
  assert (G : forall tt : text, unbroken tt -> chars tt = show_all ss -> exists st', runs fs st tt st' /\ rel s' st' /\ m_conds st' = []).
  { intros tt U E. destruct (A st tt [] R) as (st' & t' & L & R' & C' & E' & _).
    - rewrite C. reflexivity.
    - apply not_has. rewrite E. eapply Forall_impl; [|exact F]. intros c [_ Q]. exact Q.
    - exact U.
    - rewrite app_nil_r. exact E.
    - apply chars_nil in E' as ->. exists st'. split; [apply L; constructor|]. split; [exact R'|congruence]. }
  destruct W as [|p l Ap Ep Fl]; [apply G; [apply file_unbroken|apply file_chars]|].
  destruct (header_leads st _ p l (show_all ss) Ap Ep Fl F (file_chars id _)) as (t4 & L & E).
  destruct (G t4 (leads_unbroken _ _ _ _ _ L (file_unbroken id _)) E) as (st' & Ru & Q). exists st'. split; [apply L; exact Ru|exact Q].
Qed.

(** * Includes *)
Definition taken_in (soft : bool) (s : wstate) (names : list str) (s' : wstate) : Prop := forall st, rel s st -> w_open s = None -> w_deaf s = false ->
  exists st', takes_in fs soft st names st' /\ rel s' st' /\ m_conds st' = m_conds st.
Lemma include_at : forall s st (t : text) u soft e d, rel s st -> w_deaf s = false -> ~ has fst c_hash t -> unbroken t ->
  chars t = show_stmt (SInclude soft e) ++ u -> made_of dep_char e -> says (w_env s) e d -> (forall c, In c d -> ~ In c [0; 92]%N) ->
  exists l t', (~ is_comment_text t /\ directly st t /\ line_text t l t' /\ solid l /\ m_ignoring st = false /\
    unconditional l /\ begins_none modifier_words l /\ no_assignment l /\ include_line (m_defs st) l soft (words d)) /\ chars t' = u /\ ~ has fst c_hash t'.
Proof.
  intros s st t u soft e d R Df H U E M S Cd. cbn [show_stmt] in E. rewrite <- !app_assoc in E.
  set (kw := lit (if soft then "-include" else "include")).
  assert (Ek : exists c k, kw = c :: k /\ Forall printable (c :: k) /\ c <> c_space /\ c <> c_tab).
  { subst kw. destruct soft; eexists; eexists; (split; [reflexivity|]); (split; [printables|]); split; discriminate. }
  destruct Ek as (c & k & Ek & Pk & Ns & Nt).
  assert (Eq : c :: k ++ c_space :: show e = kw ++ c_space :: show e) by (rewrite Ek; reflexivity).
  assert (E' : chars t = (c :: k ++ c_space :: show e) ++ nl ++ u).
  { rewrite Eq, E. subst kw. destruct soft; cbn; reflexivity. }
  destruct (take_line t c (k ++ c_space :: show e) u E') as (tl & t' & E1 & E2 & [L P Lo Co Hh] & So); auto.
  { change (c :: k ++ c_space :: show e) with ((c :: k) ++ c_space :: show e). apply Forall_app. split; [exact Pk|].
    constructor; [unfold printable, c_space; lia|apply deps_printable; exact M]. }
  rewrite Eq in E1. destruct (chars_split _ _ _ E1) as (w & r & -> & Ew & Er). destruct (chars_cons _ _ _ Er) as (sp & te & -> & Fs & Ee).
  destruct (says_both _ _ (re_env _ _ R)) as [SB _]. destruct (SB _ _ S (deps_ok _ M) te Ee (unbroken_tail _ _ (unbroken_after _ _ (plain_unbroken _ _ _ P U)))) as (m & Sm & Cm).
  exists (w ++ sp :: te), t'. split; [|auto]. split; [exact Co|]. split; [eapply direct; [exact R|exact E'|exact Nt]|]. split; [exact L|]. split; [exact So|].
  assert (Bn : begins_none (conditional_words ++ modifier_words) (w ++ sp :: te)).
  { intros kk z I (w' & Q & K). apply (f_equal chars) in Q. rewrite E1, chars_app in Q. apply (f_equal (List.map ascii_lower)) in Q. rewrite !map_app, K in Q.
    subst kw. cbn in I. destruct soft; repeat (destruct I as [<-|I]; [cbn in Q; discriminate|]); destruct I. }
  split; [rewrite (re_deaf _ _ R); exact Df|]. split; [apply none_unconditional; intros kk z I; apply Bn, in_or_app; now left|].
  split; [intros kk z I; apply Bn, in_or_app; now right|]. split.
  - apply no_equals. rewrite E1, in_app_iff. intros [I|[I|I]]; [subst kw; destruct soft; cbn in I; lia|discriminate|].
    pose proof (deps_show _ M) as J. rewrite Forall_forall in J. destruct (J _ I) as [W|K]; [unfold word_char in W; lia|cbn in K; lia].
  - exists (if soft then "-include" else "include")%string, (sp :: te), (sp :: m). split; [destruct soft; cbn; tauto|].
    split; [exists w; split; [reflexivity|]; rewrite Ew; subst kw; destruct soft; reflexivity|].
    split; [apply SF_plain; [rewrite Fs; discriminate|exact Sm]|]. split.
    + intros (a & [<-|I] & Fa); [rewrite Fs in Fa; discriminate|]. apply (Cd (fst a)); [rewrite <- Cm; apply in_map; exact I|]. rewrite Fa. cbn. tauto.
    + unfold names_in. cbn [split_at]. rewrite Fs. change (is_whitespace c_space || (c_space =? 0)%N || false) with true. cbn match. cbn [word_and].
      symmetry. apply (names_words m d Cm Cd).
Qed.
Lemma include_run : forall s st (t : text) u soft e d s', rel s st -> w_deaf s = false -> ~ has fst c_hash t -> unbroken t ->
  chars t = show_stmt (SInclude soft e) ++ u -> made_of dep_char e -> says (w_env s) e d -> (forall c, In c d -> ~ In c [0; 92]%N) ->
  taken_in soft (finish s) (words d) s' ->
  exists st' t', leads fs st t st' t' /\ rel s' st' /\ m_conds st' = m_conds st /\ chars t' = u /\ ~ has fst c_hash t'.
Proof.
  intros s st t u soft e d s' R Df H U E M S Cd T.
  destruct (finish_rel _ _ R) as (R' & C1 & C3 & C4 & C5 & C6 & C7).
  destruct (T (closed st) R' C6) as (st' & Ti & R2 & C2); [congruence|].
  destruct (include_at s st t u soft e d R Df H U E M S Cd) as (l & t' & (A1 & A2 & A3 & A4 & A5 & A6 & A7 & A8 & A9) & B).
  exists st', t'. split; [|split; [exact R2|split; [congruence|exact B]]].
  split; [intros fin Hf; eapply RU_include; eauto|split; [intros Hc; eapply CR_past; eauto|eapply line_left; exact A3]].
Qed.

(** * All statements *)
Lemma formed_cons : forall c cs, every well_formed (c :: cs) -> well_formed c /\ every well_formed cs.
Proof. intros c cs H. exact H. Qed.
Lemma branch : forall (live b : bool) x conds, not_taken conds = negb live -> not_taken ((b, x) :: conds) = negb (live && b).
Proof. intros live b x conds H. unfold not_taken in *. cbn [existsb fst]. rewrite H. destruct live, b; reflexivity. Qed.

Lemma acts_run : (forall live s c s', acts fs live s c s' -> well_formed c -> acted live s (show_stmt c) s') /\
  (forall live s cs s', acts_all fs live s cs s' -> every well_formed cs -> acted live s (show_all cs) s') /\
  (forall soft s names s', includes fs soft s names s' -> taken_in soft s names s').
Proof.
  apply (acts_both fs (fun live s c s' _ => well_formed c -> acted live s (show_stmt c) s') (fun live s cs s' _ => every well_formed cs -> acted live s (show_all cs) s')
    (fun soft s names s' _ => taken_in soft s names s')).
  - intros live s W st t u R Nt H U E. destruct (blank_run fs s st t u R H E) as (t' & L & E' & H'). exists st, t'. auto 10.
  - intros live s c s' Df I W st t u R Nt H U E. eapply ignores_run; eauto.
  - intros live s x o e v Df G [N V] st t u R Nt H U E. eapply assign_run; eauto.
  - intros live s x o e n v Df Sx G [N V] st t u R Nt H U E. eapply assign_to_run; eauto.
  - intros live s x o down e es v Df G W st t u R Nt H U E. eapply long_run; eauto.
  - intros live s x body Df [N F] st t u R Nt H U E. eapply define_run; eauto.
  - intros live s ts double deps recipe d Df S C (NE & F & V & Re) st t u R Nt H U E. eapply rule_run; eauto.
  - intros live s ts double deps cmd recipe ms d Df Ss So Sa S C (NE & F & V & Vc & Re) st t u R Nt H U E. eapply rule_for_run; eauto.
  - intros live s ws Df Wl st t u R Nt H U E. eapply words_run; eauto.
  - intros live s soft e d s' Df S C _ IH W st t u R Nt H U E. eapply include_run; eauto.
  - intros live s c s' Df A _ W st t u R Nt H U E. eapply eval_run; eauto.
  - intros live s n a b m m' yes s' Sa Sb _ IH (Ca & Wy & _) st t u R Nt H U E.
    change (show_stmt (SIf n a b yes None)) with (if_text n a b ++ show_all yes ++ [] ++ lit "endif" ++ nl) in E.
    rewrite <- !app_assoc in E.
    destruct (if_line fs s st t _ n a b m m' R H U Ca Sa Sb E) as (t1 & L1 & E1 & H1). set (st1 := with_conds st _ _) in L1.
    pose proof (branch live (holds n m m') false _ Nt) as B.
    assert (R1 : rel (heard s (live && holds n m m')) st1) by (apply rel_conds; [exact R|exact B]).
    assert (U1 : unbroken t1) by (eapply leads_unbroken; eauto).
    destruct (IH Wy st1 t1 _ R1 B H1 U1 E1) as (st2 & t2 & L2 & R2 & C2 & E2 & H2). cbn in C2.
    destruct (endif_line fs s' st2 t2 u _ _ R2 H2 C2 E2) as (t3 & L3 & E3 & H3).
    exists (with_conds st2 (m_conds st) (m_ignoring st2)), t3. split; [eapply leads_trans; [exact L1|]; eapply leads_trans; eauto|].
    split; [apply rel_endif; exact R2|]. auto.
  - intros live s n a b m m' yes no s1 s2 Sa Sb _ IH _ IH' (Ca & Wy & Wn) st t u R Nt H U E.
    change (show_stmt (SIf n a b yes (Some no))) with (if_text n a b ++ show_all yes ++
      (lit "else" ++ nl ++ show_all no) ++ lit "endif" ++ nl) in E.
    rewrite <- !app_assoc in E.
    destruct (if_line fs s st t _ n a b m m' R H U Ca Sa Sb E) as (t1 & L1 & E1 & H1). set (st1 := with_conds st _ _) in L1.
    pose proof (branch live (holds n m m') false _ Nt) as B.
    assert (R1 : rel (heard s (live && holds n m m')) st1) by (apply rel_conds; [exact R|exact B]).
    assert (U1 : unbroken t1) by (eapply leads_unbroken; eauto).
    destruct (IH Wy st1 t1 _ R1 B H1 U1 E1) as (st2 & t2 & L2 & R2 & C2 & E2 & H2). cbn in C2.
    destruct (else_line fs s1 st2 t2 _ _ _ R2 H2 C2 E2) as (t3 & L3 & E3 & H3). set (st3 := with_conds st2 _ _) in L3.
    pose proof (branch live (negb (holds n m m')) true _ Nt) as B'.
    assert (R3 : rel (heard s1 (live && negb (holds n m m'))) st3) by (apply rel_conds; [exact R2|exact B']).
    assert (U3 : unbroken t3) by (eapply leads_unbroken; [exact L3|]; eapply leads_unbroken; [exact L2|exact U1]).
    destruct (IH' Wn st3 t3 _ R3 B' H3 U3 E3) as (st4 & t4 & L4 & R4 & C4 & E4 & H4). cbn in C4.
    destruct (endif_line fs s2 st4 t4 u _ _ R4 H4 C4 E4) as (t5 & L5 & E5 & H5).
    exists (with_conds st4 (m_conds st) (m_ignoring st4)), t5.
    split; [eapply leads_trans; [exact L1|]; eapply leads_trans; [exact L2|]; eapply leads_trans; [exact L3|]; eapply leads_trans; eauto|].
    split; [apply rel_endif; exact R4|]. auto.
  - intros live s _ st t u R Nt H U E. exists st, t. split; [apply leads_refl|auto 10].
  - intros live s c s1 cs s2 _ IHc _ IHs W. apply formed_cons in W as [W1 W2]. change (show_all (c :: cs)) with (show_stmt c ++ show_all cs). eapply acted_app; eauto.
  - intros soft s st R O Df. exists st. split; [constructor|auto].
  - intros soft s n ns t ss s1 s2 Fn W F _ IH _ IH' st R O Df.
    assert (Rf : rel (begun s) (fresh st n)).
    { destruct R as [Q1 Q2 Q3 Q4 Q5]. constructor; cbn; auto. }
    destruct (written_run ss t (begun s) s1 (fresh st n) (number st n) W F (IH F) Rf eq_refl eq_refl) as (st1 & Ru & R1 & _).
    assert (Rr : rel (begun s1) (resume st st1)).
    { destruct R as [Q1 Q2 Q3 Q4 Q5], R1 as [P1 P2 P3 P4 P5]. constructor; cbn; auto; [|congruence]. rewrite O in Q2. exact Q2. }
    destruct (IH' (resume st st1) Rr eq_refl eq_refl) as (st2 & T & R2 & C2).
    exists st2. split; [eapply TI_file; eauto|]. split; [exact R2|exact C2].
  - intros s n k ns s2 Fn _ IH st R O Df. destruct (IH st R O Df) as (st2 & T & Q). exists st2. split; [eapply TI_skip; eauto|exact Q].
Qed.

(** * What is expected happens, if it is described *)
Lemma heard_deaf : forall s, w_deaf s = true -> heard s false = s.
Proof. intros [] H. cbn in H. subst. reflexivity. Qed.
Lemma skips_acts : forall E, (forall c, skips E c -> forall s, w_env s = E -> w_deaf s = true -> acts fs false s c s) /\
  (forall cs, skips_all E cs -> forall s, w_env s = E -> w_deaf s = true -> acts_all fs false s cs s).
Proof.
  intros E. apply (skips_both E (fun c _ => forall s, w_env s = E -> w_deaf s = true -> acts fs false s c s) (fun cs _ => forall s, w_env s = E -> w_deaf s = true -> acts_all fs false s cs s)).
  - intros s _ _. constructor.
  - intros x o e s _ D. apply A_ignored; [exact D|constructor].
  - intros x o e s _ D. apply A_ignored; [exact D|constructor].
  - intros x o down e es s _ D. apply A_ignored; [exact D|constructor].
  - intros x body Q s _ D. apply A_ignored; [exact D|constructor; exact Q].
  - intros ts double deps s _ D. destruct (w_open s) as [[ts' r]|] eqn:O.
    + apply A_ignored; [exact D|]. pose proof (I_recipe s ts double deps [] ts' r O) as X. rewrite app_nil_r in X.
      replace (open_rule s ts' {| wr_deps := wr_deps r; wr_uses := wr_uses r; wr_recipe := wr_recipe r; wr_double := wr_double r |}) with s in X; [exact X|].
      destruct s, r. cbn in *. subst. reflexivity.
    + apply A_ignored; [exact D|]. apply I_rule; [exact O|constructor].
  - intros ts double deps cmd s _ D. destruct (w_open s) as [[ts' r]|] eqn:O.
    + apply A_ignored; [exact D|]. pose proof (I_recipe_for s ts double deps cmd [] ts' r O) as X. rewrite app_nil_r in X.
      replace (open_rule s ts' {| wr_deps := wr_deps r; wr_uses := wr_uses r; wr_recipe := wr_recipe r; wr_double := wr_double r |}) with s in X; [exact X|].
      destruct s, r. cbn in *. subst. reflexivity.
    + apply A_ignored; [exact D|]. apply I_rule_for; [exact O|constructor].
  - intros ws s _ D. apply A_ignored; [exact D|constructor].
  - intros soft e s _ D. apply A_ignored; [exact D|constructor].
  - intros c s _ D. apply A_ignored; [exact D|constructor].
  - intros n a b m m' yes Sa Sb _ IH s Es D. subst E. eapply A_if; [exact Sa|exact Sb|]. cbn [andb]. rewrite heard_deaf by exact D. apply IH; auto.
  - intros n a b m m' yes no Sa Sb _ IH _ IH' s Es D. subst E. eapply A_else; [exact Sa|exact Sb| |]; cbn [andb]; rewrite heard_deaf by exact D; [apply IH|apply IH']; auto.
  - intros s _ _. constructor.
  - intros c cs _ IH _ IH' s Es D. econstructor; [apply IH; auto|apply IH'; auto].
Qed.
Lemma heard_live : forall s, w_deaf s = false -> heard s true = s.
Proof. intros [] H. cbn in H. subst. reflexivity. Qed.
Lemma finish_deaf : forall s, w_deaf (finish s) = w_deaf s.
Proof. intros s. unfold finish. destruct (w_open s) as [[]|]; reflexivity. Qed.
Lemma does_acts : (forall s c s', does fs s c s' -> w_deaf s = false -> acts fs true s c s' /\ w_deaf s' = false) /\
  (forall s cs s', does_all fs s cs s' -> w_deaf s = false -> acts_all fs true s cs s' /\ w_deaf s' = false) /\
  (forall soft s names s', brings fs soft s names s' -> w_deaf s = false -> includes fs soft s names s' /\ w_deaf s' = false).
Proof.
  apply (does_both fs (fun s c s' _ => w_deaf s = false -> acts fs true s c s' /\ w_deaf s' = false) (fun s cs s' _ => w_deaf s = false -> acts_all fs true s cs s' /\ w_deaf s' = false)
    (fun soft s names s' _ => w_deaf s = false -> includes fs soft s names s' /\ w_deaf s' = false)).
  - intros s D. split; [constructor|exact D].
  - intros s x o e v G D. split; [apply A_assign; auto|]. rewrite <- D. apply finish_deaf.
  - intros s x o e n v Sx G D. split; [eapply A_assign_to; eauto|]. rewrite <- D. apply finish_deaf.
  - intros s x o down e es v G D. split; [apply A_long; auto|]. rewrite <- D. apply finish_deaf.
  - intros s x body D. split; [apply A_define; auto|]. rewrite <- D. apply finish_deaf.
  - intros s ts double deps recipe d S C D. split; [apply A_rule; auto|]. rewrite <- D. apply finish_deaf.
  - intros s ts double deps cmd recipe ms d Ss So Sa S C D. split; [apply A_rule_for; auto|]. rewrite <- D. apply finish_deaf.
  - intros s ws D. split; [apply A_words; auto|]. rewrite finish_deaf. exact D.
  - intros s soft e d s' S C _ IH D. destruct IH as [I D']; [rewrite finish_deaf; exact D|]. split; [eapply A_include; eauto|exact D'].
  - intros s x o e v G D. split; [|rewrite <- D; apply finish_deaf].
    replace (assign_to (finish s) x v) with (finish (WState (w_env (assign_to (finish (begun s)) x v)) (w_open s) (w_rules (assign_to (finish (begun s)) x v)) false)).
    + apply A_eval; [exact D|]. apply A_assign; [reflexivity|exact G].
    + destruct s as [en [[ts r]|] ru de]; cbn in D; subst de; reflexivity.
  - intros s n a b m m' yes s' Sa Sb Ho _ IH D. destruct (IH D) as [I D']. split; [|exact D']. eapply A_if; [exact Sa|exact Sb|]. rewrite Ho. cbn [andb].
    rewrite heard_live by exact D. exact I.
  - intros s n a b m m' yes no s' Sa Sb Ho Sk _ IH D. destruct (IH D) as [I D']. split; [|exact D'].
    eapply A_else; [exact Sa|exact Sb| |]; rewrite Ho; cbn [andb negb].
    + apply (proj2 (skips_acts (w_env s)) yes Sk); reflexivity.
    + replace (heard (heard s false) true) with s; [exact I|]. destruct s. cbn in D. subst. reflexivity.
  - intros s D. split; [constructor|exact D].
  - intros s c s1 cs s2 _ IH _ IH' D. destruct (IH D) as [A D1]. destruct (IH' D1) as [B D2]. split; [econstructor; eauto|exact D2].
  - intros soft s D. split; [constructor|exact D].
  - intros soft s n ns t ss s1 s2 Fn W F _ IH _ IH' D. destruct (IH eq_refl) as [A _]. destruct (IH' eq_refl) as [B D2]. split; [eapply IN_file; eauto|exact D2].
  - intros s n k ns s2 Fn _ IH D. destruct (IH D) as [A D2]. split; [eapply IN_skip; eauto|exact D2].
Qed.
End Run.

(** * Reading *)
Lemma shown_state : forall fs s st w, rel s st -> shows fs st w -> shows_state fs s w.
Proof.
  intros fs s st w R' (S1 & S2 & _ & _ & S3 & _).
  destruct (says_both _ _ (re_env _ _ R')) as [SB1 SB2].
  assert (Ev : forall a m P, evaluates_to fs w a m P -> expands_to fs w a (chars m)).
  { intros a m P (n & H'). exists n. intros fuel Hf. destruct (H' fuel Hf) as (w' & b & A & _ & B & _). eauto. }
  split; [|split].
  - intros x. rewrite <- S1. pose proof (re_env _ _ R' x) as Q. destruct (w_env s x), (m_defs st x); try contradiction Q; split; intros; congruence.
  - intros x v m Ex V. pose proof (re_env _ _ R' x) as Q. rewrite Ex in Q. destruct (m_defs st x) as [v'|] eqn:Dx; [|destruct Q].
    destruct (SB2 _ _ V _ Q) as (m' & V' & <-). destruct (S2 _ _ _ Dx V') as (a & A & B). exists a. split; [exact A|]. eapply Ev. exact B.
  - intros t. specialize (S3 t). pose proof (re_rules _ _ R' t) as Q. unfold shows_rule in S3. unfold shows_wrule.
    destruct (w_rules s t) as [r|], (m_rules st t) as [v|]; try contradiction Q; destruct (option_map view _) as [rv|]; try contradiction S3; auto.
    destruct S3 as (T1 & _ & T2 & T3), Q as (Q1 & _ & Q2 & Q3). split; [|split; [|rewrite T3, Q3; reflexivity]].
    + rewrite <- Q1, <- T1, map_map. apply map_ext. intros b. symmetry. apply block_marks_text.
    + pose proof (re_env _ _ R') as RE. clear - Q2 T2 RE Ev. revert T2. generalize (rv_recipe rv). induction Q2 as [|e t es ts Le Q2 IH]; intros l T; inversion T; subst; constructor; auto.
      intros m Sm. destruct (line_stands _ _ RE _ _ Le _ Sm) as (m' & S' & <-). eapply Ev. auto.
Qed.
Lemma depends_same : forall w P Q b, same_vars P Q -> depends_on w Q b -> depends_on w P b.
Proof.
  intros w P Q b H [A B]. split; [intros x X; apply A, H; exact X|]. intros id I. destruct (B id I) as (x & X & Y). exists x. split; [apply H; exact X|exact Y].
Qed.
Lemma tracked_state : forall fs s st w, rel s st -> shows fs st w -> tracks_state fs s w.
Proof.
  intros fs s st w R' (_ & S2 & _ & _ & S3 & _). pose proof (re_env _ _ R') as RE.
  destruct (says_both _ _ RE) as [SB1 SB2].
  assert (Ev : forall a m P Q, same_vars P Q -> evaluates_to fs w a m Q -> names_used fs w a P).
  { intros a m P Q H (n & H'). exists n. intros fuel Hf. destruct (H' fuel Hf) as (w' & b & A & _ & _ & B). exists w', b. split; [exact A|]. eapply depends_same; eassumption. }
  split.
  - intros t r Er. specialize (S3 t). pose proof (re_rules _ _ R' t) as Q. rewrite Er in Q. unfold shows_rule in S3.
    destruct (m_rules st t) as [v|]; [|contradiction Q]. destruct (option_map view _) as [rv|]; [|contradiction S3]. exists rv. split; [reflexivity|].
    destruct S3 as (T1 & TU & T2 & _), Q as (Q1 & QU & Q2 & _). split; [|split].
    + rewrite <- Q1, <- T1, map_map. apply map_ext. intros b. symmetry. apply block_marks_text.
    + clear - QU TU. revert TU. generalize (rv_deps rv). induction QU as [|P Q Ps Qs H QU IH]; intros l T; inversion T; subst; constructor; auto. eapply depends_same; eassumption.
    + clear - Q2 T2 SB1 Ev RE. revert T2. generalize (rv_recipe rv). induction Q2 as [|e t es ts Le Q2 IH]; intros l T; inversion T; subst; constructor; auto.
      intros m Sm. destruct (line_stands _ _ RE _ _ Le _ Sm) as (m' & S' & <-). destruct (line_text_of _ _ Le) as [Oe Et]. eapply Ev; [|eauto]. intros z. apply uses_iff; assumption.
  - intros x v m Ex V. pose proof (RE x) as Q. rewrite Ex in Q. destruct (m_defs st x) as [v'|] eqn:Dx; [|destruct Q].
    destruct (SB2 _ _ V _ Q) as (m' & V' & <-). destruct (S2 _ _ _ Dx V') as (a & A & B). exists a. split; [exact A|]. eapply Ev; [|exact B]. intros z. apply val_uses_iff; assumption.
Qed.
Lemma start_rel : forall st, m_defs st = no_defs -> m_rules st = (fun _ => None) -> m_rule st = None -> m_define st = None -> m_ignoring st = false -> rel w_start st.
Proof. intros [] D R O F I. cbn in *. subst. constructor; cbn; auto; intros y; exact Logic.I. Qed.
Theorem written_tracks : forall fs ss text s, ascii_files fs -> every well_formed ss -> written ss text -> acts_all fs true w_start ss s ->
  exists w, reads_to fs text (Ok (w, MOk)) /\ shows_state fs s w /\ tracks_state fs s w.
Proof.
  intros fs ss text s Af Wf Wr Do.
  destruct (written_run fs ss text w_start s m_begin 0%N Wr Wf (proj1 (proj2 (acts_run fs)) _ _ _ _ Do Wf) (start_rel m_begin eq_refl eq_refl eq_refl eq_refl eq_refl) eq_refl eq_refl) as (st & L & R' & _).
  destruct (makefile_runs fs text st Af (written_ascii _ _ Wr Wf) L) as (w & Re & Sh & _).
  exists w. split; [exact Re|]. split; [eapply shown_state|eapply tracked_state]; eassumption.
Qed.
Theorem written_reads : forall fs ss text s, ascii_files fs -> every well_formed ss -> written ss text -> acts_all fs true w_start ss s ->
  exists w, reads_to fs text (Ok (w, MOk)) /\ shows_state fs s w.
Proof. intros fs ss text s Af Wf Wr Do. destruct (written_tracks fs ss text s Af Wf Wr Do) as (w & A & B & _). eauto. Qed.

Theorem expected_reads : forall fs ss text s, ascii_files fs -> every well_formed ss -> written ss text -> does_all fs w_start ss s ->
  exists w, reads_to fs text (Ok (w, MOk)) /\ shows_state fs s w.
Proof. intros fs ss text s Af Wf Wr Do. eapply written_reads; eauto. apply (does_acts fs); [exact Do|reflexivity]. Qed.
