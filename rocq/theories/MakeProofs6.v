(** Text-level makefile semantics: words and the parts of a rule line. *)
From Coq Require Import String ZArith.
From Verif Require Import Base LocModel EvdModel NomModel AstModel ParseModel AstParseModel EngineModel
  EvdSpec DbSpec ParseSpec EvalSpec AstParseSpec EngineSpec MakeSpec
  EvdProofs EvdProofs3 ParseProofs ParseProofs2 ParseProofs4 ParseProofs5 EvalProofs2 EvalProofs3 EvalProofs4 FuelProofs
  DbProofs EvdProofs2 AstParseProofs AstParseProofs2 AstParseProofs3 SafeProofs SafeProofs2 SafeProofs3 SafeProofs4
  EngineProofs EngineProofs2 EngineProofs3 MakeProofs MakeProofs2 MakeProofs3 MakeProofs4.
Local Open Scope nat_scope.

(** * Lines that are not assignments or directives *)
Lemma assignment_error : forall s e, wf_span s -> parse_assignment_operator s = Ok (PError e) -> error_kind e = KNom.
Proof.
  intros s e W E. unfold parse_assignment_operator in E.
  destruct (take_till_marks s ends_name W) as (r1 & q1 & E1 & W1 & _). rewrite E1 in E. cbn [pbind bind] in E.
  destruct (whitespace_keeps r1 W1) as (r2 & q2 & E2 & K2 & _). rewrite E2 in E. cbn [pbind bind] in E.
  destruct (op_parse r2 (proj1 K2)) as [(op & k & post & r3 & _ & _ & P & W3 & _)|(_ & e' & P)].
  - rewrite P in E. cbn [pbind bind] in E. destruct (whitespace_keeps r3 W3) as (r4 & q4 & E4 & _). rewrite E4 in E. discriminate.
  - rewrite P in E. cbn [pbind bind] in E. injection E as <-. revert P.
    assert (G : forall l, palt l r2 = Ok (PError e') -> error_kind e' = @KNom \/ exists (p : parser assignment), In p l).
    { intros [|p l] H; [left; injection H as <-; reflexivity|right; exists p; now left]. }
    assert (A : forall (l : list (parser assignment)), palt l r2 = Ok (PError e') -> error_kind e' = KNom).
    { induction l as [|p l IH]; intros H; cbn in H; [injection H as <-; reflexivity|].
      apply bind_inv in H as (x & _ & H). destruct x; try discriminate; auto. }
    apply A.
Qed.

Lemma no_assignment_at : forall s, wf_span s -> no_assignment (span_marks s) ->
  exists e, parse_assignment_operator s = Ok (PError e) /\ error_kind e = KNom.
Proof.
  intros s W N. destruct (assignment_operator_no s W) as (e & E).
  - intros name bl op k post M Hn Hb I. apply (N name k (lstrip fst post)). exists bl, op, post. auto.
  - exists e. split; [exact E|]. exact (assignment_error s e W E).
Qed.

Definition modifier_table : list (string * modifier) :=
  [("define"%string, MDefine); ("export"%string, MExport); ("override"%string, MOverride); ("private"%string, MPrivate); ("undefine"%string, MUndefine)].
Lemma modifier_lower : Forall (fun kt : string * modifier => lowercase (fst kt)) modifier_table.
Proof. table_lower. Qed.

Lemma modifier_none : forall s, wf_span s -> begins_none modifier_words (span_marks s) -> exists e, modifier_keyword s = Ok (PError e).
Proof.
  intros s W N. assert (Q : modifier_keyword = terminated (words_parser modifier_table) makefile_whitespace) by reflexivity. rewrite Q.
  destruct (words_at modifier_table s W modifier_lower) as [(k & x & rest & r & I & Kw & _)|(_ & P)].
  - exfalso. exact (N k rest (in_map fst _ _ I) Kw).
  - unfold terminated. rewrite P. cbn. eauto.
Qed.

Lemma variable_none : forall ev w s, wf_span s -> no_assignment (lstrip fst (span_marks s)) -> begins_none modifier_words (lstrip fst (span_marks s)) ->
  exists e, variable_parse_line ev w s = Ok (w, PError e).
Proof.
  intros ev w s W A N. unfold variable_parse_line, wbind.
  destruct (whitespace_keeps s W) as (r & q & E & K & M). rewrite E. cbn [bind]. rewrite <- M in A, N.
  destruct (sp_len r =? 0); [eexists; reflexivity|]. cbn [variable_loop].
  destruct (no_assignment_at r (proj1 K) A) as (e & Ee & Ke). unfold parse_variable_assignment, wbind. rewrite Ee. cbn [bind].
  rewrite Ke. cbn [is_unterminated]. destruct (modifier_none r (proj1 K) N) as (e' & Em). rewrite Em. cbn [bind]. eexists; reflexivity.
Qed.

Lemma directive_none : forall s, wf_span s -> begins_none directive_words (span_marks s) -> exists e, directive_parse_line s = Ok (PError e).
Proof.
  intros s W N. unfold directive_parse_line.
  assert (T : forall k (f : ast -> directive), lowercase k -> In k directive_words -> pmap f (preceded (tag_no_case (lit k)) parse_ast) s = Ok (PError [KNom])).
  { intros k f L I. destruct (tag_no_case_at s k W L) as [(rest & Kw & _)|(_ & P)]; [exfalso; exact (N k rest I Kw)|].
    unfold pmap, preceded. rewrite P. reflexivity. }
  assert (LW : Forall lowercase directive_words). { repeat (constructor; [split; [reflexivity|apply lit_ascii; reflexivity]|]). constructor. }
  rewrite Forall_forall in LW.
  cbn [palt].
  rewrite (T "export"%string DiExport) by (first [apply LW|idtac]; cbn; tauto). cbn [bind].
  rewrite (T "unexport"%string DiUnexport) by (first [apply LW|idtac]; cbn; tauto). cbn [bind].
  rewrite (T "vpath"%string DiVPath) by (first [apply LW|idtac]; cbn; tauto). cbn [bind].
  rewrite (T "include"%string DiInclude) by (first [apply LW|idtac]; cbn; tauto). cbn [bind].
  rewrite (T "sinclude"%string DiSoftInclude) by (first [apply LW|idtac]; cbn; tauto). cbn [bind].
  rewrite (T "-include"%string DiSoftInclude) by (first [apply LW|idtac]; cbn; tauto). cbn [bind].
  rewrite (T "load"%string DiLoad) by (first [apply LW|idtac]; cbn; tauto). cbn [bind].
  rewrite (T "-load"%string DiSoftLoad) by (first [apply LW|idtac]; cbn; tauto). cbn [bind].
  eexists; reflexivity.
Qed.

(** Only the characters matter. *)
Lemma assigns_chars : forall l l' name k v, chars l = chars l' -> assigns l name k v -> exists name' v', assigns l' name' k v'.
Proof.
  intros l l' name k v E (bl & op & post & -> & Hn & Hb & I & _).
  set (n1 := List.length name) in *. set (n2 := List.length bl). set (n3 := List.length op).
  set (name' := firstn n1 l'). set (bl' := firstn n2 (skipn n1 l')). set (op' := firstn n3 (skipn n2 (skipn n1 l'))).
  set (post' := skipn n3 (skipn n2 (skipn n1 l'))).
  assert (S1 : chars name' = chars name /\ chars (skipn n1 l') = chars (bl ++ op ++ post)).
  { unfold name', chars in *. rewrite <- firstn_map, <- skipn_map, <- E, !map_app. unfold n1. rewrite <- (map_length fst name).
    rewrite firstn_app, firstn_all, Nat.sub_diag, skipn_app, skipn_all, Nat.sub_diag. cbn. rewrite app_nil_r. auto. }
  destruct S1 as (C1 & S1).
  assert (S2 : chars bl' = chars bl /\ chars (skipn n2 (skipn n1 l')) = chars (op ++ post)).
  { unfold bl', chars in *. rewrite <- firstn_map, <- (skipn_map fst n2), S1, !map_app. unfold n2. rewrite <- (map_length fst bl).
    rewrite firstn_app, firstn_all, Nat.sub_diag, skipn_app, skipn_all, Nat.sub_diag. cbn. rewrite app_nil_r. auto. }
  destruct S2 as (C2 & S2).
  assert (C3 : chars op' = chars op).
  { unfold op', chars in *. rewrite <- firstn_map, S2, !map_app. unfold n3. rewrite <- (map_length fst op).
    rewrite firstn_app, firstn_all, Nat.sub_diag. cbn. apply app_nil_r. }
  exists name', (lstrip fst post'), bl', op', post'. split; [|split; [|split; [|split; [rewrite C3; exact I|reflexivity]]]].
  - unfold name', bl', op', post'. rewrite !firstn_skipn. reflexivity.
  - intros a J. assert (In (fst a) (chars name)). { rewrite <- C1. unfold chars. apply in_map. exact J. }
    unfold chars in H. apply in_map_iff in H as (b & Eb & Ib). rewrite <- Eb. auto.
  - intros a J. assert (In (fst a) (chars bl)). { rewrite <- C2. unfold chars. apply in_map. exact J. }
    unfold chars in H. apply in_map_iff in H as (b & Eb & Ib). rewrite <- Eb. auto.
Qed.
Lemma no_assignment_chars : forall l l', chars l = chars l' -> no_assignment l -> no_assignment l'.
Proof. intros l l' E N name k v A. destruct (assigns_chars l' l name k v (eq_sym E) A) as (n' & v' & X). exact (N n' k v' X). Qed.
Lemma begins_none_chars : forall ks l l', chars l = chars l' -> begins_none ks l -> begins_none ks l'.
Proof.
  intros ks l l' E N k rest I Kw. assert (X := proj1 (keyword_starts k l') (ex_intro _ rest Kw)). rewrite <- E in X.
  destruct (proj2 (keyword_starts k l) X) as (r & Y). exact (N k r I Y).
Qed.
Lemma lstrip_chars : forall l l' : text, chars l = chars l' -> chars (lstrip fst l) = chars (lstrip fst l').
Proof.
  induction l as [|a l IH]; intros [|b l'] E; try discriminate; [reflexivity|]. cbn in E. injection E as Ea E. unfold lstrip. cbn. rewrite Ea.
  destruct (blank (fst b)); [apply IH; exact E|]. cbn. rewrite Ea. f_equal. exact E.
Qed.

(** * Scanning a word *)
Definition num (h : nat) (t : text) : list (nat * char) := combine (seq h (List.length t)) (List.map fst t).
Lemma num_cons : forall h a t, num h (a :: t) = (h, fst a) :: num (Datatypes.S h) t.
Proof. reflexivity. Qed.
Lemma num_length : forall t h, List.length (num h t) = List.length t.
Proof. intros t h. unfold num. rewrite combine_length, seq_length, map_length. lia. Qed.

Lemma skip_group : forall a k h stop x rest, fst x = close_paren ->
  (forall p q, a = p ++ q -> count close_paren p <= k + count open_paren p) ->
  k + count open_paren a = count close_paren a ->
  skip_braces open_paren close_paren (Datatypes.S k) stop (num h (a ++ x :: rest)) false
    = Ok (h + List.length a + 1, num (h + List.length a + 1) rest).
Proof.
  induction a as [|y a IH]; intros k h stop x rest X O C.
  - cbn in C. assert (k = 0) by lia. subst k. cbn [app]. rewrite num_cons. cbn [skip_braces]. rewrite X. cbn. f_equal. f_equal; [lia|]. f_equal. lia.
  - cbn [app]. rewrite num_cons. cbn [skip_braces List.length].
    assert (Step : forall k' st, (if (fst y =? close_paren)%N then 1 else 0) + k' = k + (if (fst y =? open_paren)%N then 1 else 0) ->
      skip_braces open_paren close_paren (Datatypes.S k') st (num (Datatypes.S h) (a ++ x :: rest)) false
        = Ok (h + Datatypes.S (List.length a) + 1, num (h + Datatypes.S (List.length a) + 1) rest)).
    { intros k' st K. rewrite IH; [f_equal; f_equal; [lia|f_equal; lia]|assumption| |].
      - intros p q ->. specialize (O (y :: p) q eq_refl). rewrite !count_cons in O. lia.
      - rewrite !count_cons in C. lia. }
    destruct (N.eqb_spec (fst y) open_paren) as [E|E].
    { apply Step. rewrite E. cbn. lia. }
    destruct (N.eqb_spec (fst y) close_paren) as [E2|E2].
    { pose proof (O [y] a eq_refl) as O1. rewrite !count_cons, E2 in O1. cbn in O1. destruct k as [|k]; [lia|]. apply Step. lia. }
    apply Step. lia.
Qed.

Definition word_end (e : placed) (tail : text) : Prop := blank (fst e) = true \/ (fst e = colon /\ ~ begins_char c_bslash tail).
Definition end_len (e : placed) : nat := if (fst e =? colon)%N then 1 else 0.

Lemma scan_word : forall w, word_text w -> free [c_bslash] w -> forall e tail h fuel stop reason prev, word_end e tail ->
  List.length (w ++ e :: tail) < fuel ->
  exists r, mword_scan fuel (num h (w ++ e :: tail)) false stop reason prev = Ok (h + List.length w + end_len e, r) /\ In r [reason; MwStatic; MwVariable].
Proof.
  intros w WT. induction WT as [|c t NC WT IH|x c t Ex NC WT IH|x b t inner rest Ex Eb G WT IH]; intros F e tail h fuel stop reason prev WE L;
    (destruct fuel as [|fuel]; [lia|]).
  - cbn [app]. rewrite num_cons. cbn [mword_scan]. unfold end_len. destruct WE as [B|(C & N)].
    + unfold blank in B. assert (fst e = c_space \/ fst e = c_tab) as Q by (destruct (N.eqb_spec (fst e) 32); [auto|]; right; apply N.eqb_eq; exact B).
      exists MwStatic. destruct Q as [-> | ->]; cbn; (split; [f_equal; f_equal; lia|auto]).
    + rewrite C. cbn. destruct tail as [|d tail].
      * cbn. exists reason. split; [f_equal; f_equal; lia|auto].
      * rewrite num_cons. cbn [peek bind]. assert ((fst d =? c_bslash)%N = false) as Q by (apply N.eqb_neq; intros Q; apply N; exists d, tail; auto).
        rewrite Q, Nat.add_comm. cbn. rewrite andb_false_r. cbn. exists reason. split; [f_equal; f_equal; lia|auto].
  - cbn [app] in *. rewrite num_cons. cbn [mword_scan].
    assert (Q : forall d, In d [c_space; c_tab; equals; colon; dollar] -> (fst c =? d)%N = false).
    { intros d I. apply N.eqb_neq. intros E. apply NC. rewrite E. exact I. }
    rewrite (Q c_space), (Q c_tab), (Q c_eq), (Q c_colon), (Q c_dollar) by (cbn; tauto). cbn [orb].
    assert ((fst c =? c_bslash)%N = false) as Q2. { apply N.eqb_neq. intros E. apply (F c (or_introl eq_refl)). now left. }
    rewrite Q2.
    assert (F' : free [c_bslash] t) by (intros a I; apply F; now right).
    assert (R : forall st, exists r, mword_scan fuel (num (Datatypes.S h) (t ++ e :: tail)) false st reason (fst c) =
        Ok (h + Datatypes.S (List.length t) + end_len e, r) /\ In r [reason; MwStatic; MwVariable]).
    { intros st. destruct (IH F' e tail (Datatypes.S h) fuel st reason (fst c) WE) as (r & E & I); [cbn in L; lia|]. exists r. split; [|exact I].
      rewrite E. f_equal. f_equal. lia. }
    cbn [List.length]. destruct ((fst c =? 63) || (fst c =? 43))%N; [|apply R].
    assert (NE : exists d u, t ++ e :: tail = d :: u /\ fst d <> c_eq).
    { destruct WT as [|d t ND WT|x d t Ex _ _|x b t inner rest Ex _ _ _].
      - exists e, tail. split; [reflexivity|]. destruct WE as [B|(C & _)]; [|rewrite C; discriminate]. intros E. rewrite E in B. discriminate.
      - eexists d, _. split; [reflexivity|]. intros E. apply ND. rewrite E. cbn. tauto.
      - eexists x, _. split; [reflexivity|]. rewrite Ex. discriminate.
      - eexists x, _. split; [reflexivity|]. rewrite Ex. discriminate. }
    destruct NE as (d & u & E & ND). specialize (R h). rewrite E in R |- *. rewrite num_cons. cbn [peek bind]. rewrite num_cons in R.
    apply N.eqb_neq in ND. rewrite ND. exact R.
  - cbn [app] in *. rewrite num_cons. cbn [mword_scan]. rewrite Ex. cbn [orb]. change (dollar =? c_space)%N with false. change (dollar =? c_tab)%N with false.
    change (dollar =? c_eq)%N with false. change (dollar =? c_colon)%N with false. change (dollar =? c_dollar)%N with true. cbn [orb].
    rewrite num_cons. cbn [peek bind tl].
    assert (F' : free [c_bslash] t) by (intros a I; apply F; right; now right).
    assert (R : forall st re p, In re [reason; MwVariable] -> exists r, mword_scan fuel (num (Datatypes.S (Datatypes.S h)) (t ++ e :: tail)) false st re p =
        Ok (h + Datatypes.S (Datatypes.S (List.length t)) + end_len e, r) /\ In r [reason; MwStatic; MwVariable]).
    { intros st re p Ire. destruct (IH F' e tail (Datatypes.S (Datatypes.S h)) fuel st re p WE) as (r & E & I); [cbn in L; lia|]. exists r. split.
      - rewrite E. f_equal. f_equal. lia.
      - cbn in I, Ire |- *. intuition (subst; auto). }
    cbn [List.length].
    destruct (fst c =? c_dollar)%N; [apply R; now left|].
    assert ((fst c =? c_lparen)%N = false) as -> by (apply N.eqb_neq; intros E; apply NC; rewrite E; now left).
    assert ((fst c =? c_lbrace)%N = false) as -> by (apply N.eqb_neq; intros E; apply NC; rewrite E; right; now left).
    apply R. right. now left.
  - cbn [app] in *. rewrite num_cons. cbn [mword_scan]. rewrite Ex. cbn [orb]. change (dollar =? c_space)%N with false. change (dollar =? c_tab)%N with false.
    change (dollar =? c_eq)%N with false. change (dollar =? c_colon)%N with false. change (dollar =? c_dollar)%N with true. cbn [orb].
    rewrite num_cons. cbn [peek bind tl]. rewrite Eb. change (open_paren =? c_dollar)%N with false. change (open_paren =? c_lparen)%N with true. cbn match.
    destruct G as (O & A & y & Ey & ->). rewrite <- app_assoc. cbn [app].
    assert (O' : forall p q, inner = p ++ q -> count close_paren p <= 0 + count open_paren p) by (intros p q E; exact (O p q E)).
    assert (A' : 0 + count open_paren inner = count close_paren inner) by exact A.
    change c_lparen with open_paren. change c_rparen with close_paren.
    rewrite (skip_group inner 0 (Datatypes.S (Datatypes.S h)) (Datatypes.S h + 1) y (rest ++ e :: tail) Ey O' A'). cbn [bind].
    assert (F' : free [c_bslash] rest) by (intros a I; apply F; right; right; apply in_or_app; right; now right).
    destruct (IH F' e tail (Datatypes.S (Datatypes.S h) + List.length inner + 1) fuel (Datatypes.S (Datatypes.S h) + List.length inner + 1) MwVariable close_paren WE) as (r & E & I).
    { cbn [List.length app] in L. rewrite <- app_assoc, app_length in L. cbn [List.length app] in L. lia. }
    exists r. split.
    + rewrite E. f_equal. f_equal. cbn [List.length]. rewrite app_length. cbn [List.length]. lia.
    + cbn in I |- *. intuition (subst; auto).
Qed.

(** * The next word *)
Lemma tag_as_none : forall s t, wf_span s -> span_marks s = t -> (forall k r, In (k, r) mword_tags -> starts_with k (chars t) = false) ->
  palt (List.map tag_as mword_tags) s = Ok (PError [KNom]).
Proof.
  intros s t W M N. assert (A : Forall (fun x : str * mword_end => asciis (fst x)) mword_tags) by (repeat constructor).
  revert N A. generalize mword_tags. induction l as [|[k r] l IH]; intros N A; [reflexivity|]. inversion A as [|? ? A1 A2]; subst.
  cbn [List.map palt]. unfold tag_as at 1. unfold pmap. pose proof (tag_ok s k W A1) as T. rewrite span_text_marks in T.
  change (List.map mch (span_marks s)) with (chars (span_marks s)) in T. rewrite (N k r (or_introl eq_refl)) in T.
  cbn [fst snd]. rewrite T. cbn [bind]. apply IH; [|exact A2]. intros k' r' I. apply (N k' r'). now right.
Qed.

Lemma sub_prefix : forall s n r (a b : text), wf_span s -> sub s 0 n r -> span_marks s = a ++ b -> List.length a = n -> span_marks r = a.
Proof.
  intros s n r a b W (_ & _ & _ & M & _) E L. rewrite M, E. cbn [skipn]. subst n. rewrite firstn_app, firstn_all, Nat.sub_diag. cbn. apply app_nil_r.
Qed.
Lemma sub_suffix : forall s n r (a b : text), wf_span s -> sub s n (sp_len s - n) r -> span_marks s = a ++ b -> List.length a = n -> span_marks r = b.
Proof.
  intros s n r a b W S E L. rewrite (sub_end _ _ _ W S), E. subst n. rewrite skipn_app, skipn_all, Nat.sub_diag. reflexivity.
Qed.

Lemma word_head : forall w c u, word_text w -> free [semicolon] w -> w = c :: u -> ~ In (fst c) [c_space; c_tab; equals; colon; semicolon].
Proof.
  intros w c u WT F E I. destruct WT as [|d t ND _|x d t Ex _ _|x b t inner rest Ex _ _ _]; [discriminate| | |]; injection E as E1 E2; subst.
  - cbn in I, ND. destruct I as [I|[I|[I|[I|[I|[]]]]]]; try (apply ND; rewrite <- I; tauto). apply (F c (or_introl eq_refl)). rewrite <- I. now left.
  - rewrite Ex in I. cbn in I. intuition discriminate.
  - rewrite Ex in I. cbn in I. intuition discriminate.
Qed.

Lemma word_no_tag : forall w e tail, word_text w -> free [semicolon] w -> w <> [] -> word_end e tail ->
  forall k r, In (k, r) mword_tags -> starts_with k (chars (w ++ e :: tail)) = false.
Proof.
  intros w e tail WT F N WE k r I. destruct w as [|c u]; [congruence|]. clear N.
  pose proof (word_head _ c u WT F eq_refl) as H.
  assert (NE : match u ++ e :: tail with d :: _ => ~ ((fst c = 43 \/ fst c = 63 \/ fst c = 33)%N /\ fst d = equals) | [] => True end).
  { inversion WT as [|c' t ND WT' E1|x d t Ex _ _ E1|x b t inner rest Ex _ _ _ E1]; subst.
    - inversion WT' as [|d t ND' _ E2|x d t Ex _ _ E2|x b t inner rest Ex _ _ _ E2]; subst; cbn [app]; intros (_ & Q).
      + destruct WE as [B|(C & _)]; [rewrite Q in B; discriminate|rewrite Q in C; discriminate].
      + apply ND'. rewrite Q. cbn; tauto.
      + rewrite Ex in Q. discriminate.
      + rewrite Ex in Q. discriminate.
    - cbn [app]. rewrite Ex. intros ([Q|[Q|Q]] & _); discriminate.
    - cbn [app]. rewrite Ex. intros ([Q|[Q|Q]] & _); discriminate. }
  destruct (starts_with k (chars ((c :: u) ++ e :: tail))) eqn:Q; [|reflexivity]. exfalso.
  cbn [app chars List.map] in Q. destruct (u ++ e :: tail) as [|d v] eqn:Eu; [destruct u; discriminate|]. clear Eu WE WT F.
  cbn in H. cbn in I. repeat (destruct I as [I|I]; [injection I as <- <-; cbn -[N.eqb] in Q; repeat rewrite andb_true_iff in Q|]); [.. | contradiction];
    repeat match goal with H : _ /\ _ |- _ => destruct H end;
    repeat match goal with H : (_ =? _)%N = true |- _ => apply N.eqb_eq in H end; try (apply H; auto 9; fail);
    (apply NE; split; [|congruence]; first [left; congruence|right; left; congruence|right; right; congruence]).
Qed.

Lemma mword_word : forall s w e tail, wf_span s -> lstrip fst (span_marks s) = w ++ e :: tail -> word_text w -> free [semicolon; c_bslash] w ->
  w <> [] -> word_end e tail ->
  exists r cap reason, next_mword s = Ok (POk r (cap, reason)) /\ In reason [MwStatic; MwVariable] /\
    moves s cap (if (fst e =? colon)%N then w ++ [e] else w) /\ moves s r (if (fst e =? colon)%N then tail else e :: tail).
Proof.
  intros s w e tail W M WT F N WE. unfold next_mword. destruct (whitespace_keeps s W) as (i & q & E & K & Mi). rewrite E. cbn [pbind bind].
  rewrite M in Mi. pose proof (proj1 K) as Wi.
  match goal with |- context [palt ?l i] => change l with (List.map tag_as mword_tags) end.
  assert (F1 : free [semicolon] w). { intros a I J. apply (F a I). cbn in J |- *. tauto. }
  assert (F2 : free [c_bslash] w). { intros a I J. apply (F a I). cbn in J |- *. tauto. }
  rewrite (tag_as_none i _ Wi Mi (word_no_tag w e tail WT F1 N WE)). cbn [bind].
  rewrite (indices_marks i Wi). fold (num 0 (span_marks i)). rewrite Mi.
  destruct (scan_word w WT F2 e tail 0 (Datatypes.S (List.length (num 0 (w ++ e :: tail)))) 0 MwStatic 0%N WE) as (reason & Sc & I).
  { rewrite num_length. lia. }
  rewrite Sc. cbn [bind].
  assert (L : 0 + List.length w + end_len e <= sp_len i).
  { rewrite <- (span_marks_len i Wi), Mi, app_length. unfold end_len. cbn. destruct (fst e =? colon)%N; lia. }
  destruct (take_split_sub i _ Wi L) as (r & cap & Et & Sr & Sc2). rewrite Et. cbn [bind pok].
  exists r, cap, reason. split; [reflexivity|]. split; [cbn in I |- *; intuition (subst; auto)|].
  unfold end_len in *. destruct (fst e =? colon)%N.
  - split; (split; [eapply keeps_trans; [exact K|eapply sub_keeps; eassumption]|]).
    + eapply (sub_prefix i _ cap (w ++ [e]) tail Wi Sc2); [rewrite Mi, <- app_assoc; reflexivity|rewrite app_length; cbn; lia].
    + eapply (sub_suffix i _ r (w ++ [e]) tail Wi Sr); [rewrite Mi, <- app_assoc; reflexivity|rewrite app_length; cbn; lia].
  - split; (split; [eapply keeps_trans; [exact K|eapply sub_keeps; eassumption]|]).
    + eapply (sub_prefix i _ cap w (e :: tail) Wi Sc2); [exact Mi|lia].
    + eapply (sub_suffix i _ r w (e :: tail) Wi Sr); [exact Mi|lia].
Qed.

Lemma mword_colon : forall s c after, wf_span s -> lstrip fst (span_marks s) = c :: after -> fst c = colon ->
  (forall double deps, after_colons after double deps -> ~ begins_char equals deps) ->
  exists r cap reason, next_mword s = Ok (POk r (cap, reason)) /\ In reason [MwColon; MwDColon] /\
    exists cs, moves s cap (c :: cs) /\ moves s r (skipn (List.length cs) after) /\ cs = firstn (List.length cs) after /\
      (cs = [] \/ exists c', cs = [c'] /\ fst c' = colon).
Proof.
  intros s c after W M C NE. unfold next_mword. destruct (whitespace_keeps s W) as (i & q & E & K & Mi). rewrite E. cbn [pbind bind].
  rewrite M in Mi. pose proof (proj1 K) as Wi.
  match goal with |- context [palt ?l i] => change l with (List.map tag_as mword_tags) end.
  assert (T : forall k, asciis k -> if starts_with k (chars (c :: after)) then exists r p, tag k i = Ok (POk r p) /\ moves s p (firstn (List.length k) (c :: after)) /\ moves s r (skipn (List.length k) (c :: after))
    else tag k i = Ok (PError [KNom])).
  { intros k A. pose proof (tag_ok i k Wi A) as T. rewrite span_text_marks, Mi in T. change (List.map mch (c :: after)) with (chars (c :: after)) in T.
    destruct (starts_with k (chars (c :: after))); [|exact T]. destruct T as (r & p & T & Sr & Sp & _). exists r, p. split; [exact T|].
    split; (split; [eapply keeps_trans; [exact K|eapply sub_keeps; eassumption]|]).
    - rewrite (proj1 (proj2 (proj2 (proj2 Sp)))), Mi. reflexivity.
    - rewrite (sub_end _ _ _ Wi Sr), Mi. reflexivity. }
  assert (N1 : starts_with (lit "=") (chars after) = false).
  { destruct after as [|d u]; [reflexivity|]. cbn -[N.eqb]. rewrite andb_true_r. apply not_true_is_false. intros Q. apply N.eqb_eq in Q.
    apply (NE false (d :: u)); [|exists d, u; auto]. split; [reflexivity|]. intros (a & v & H & Ha). injection H as <- <-. rewrite <- Q in Ha. discriminate. }
  assert (N2 : starts_with (lit ":=") (chars after) = false).
  { destruct after as [|d [|d2 u]]; [reflexivity|apply andb_false_r|]. cbn -[N.eqb]. rewrite andb_true_r. apply not_true_is_false. intros Q. apply andb_true_iff in Q as (Q1 & Q2).
    apply N.eqb_eq in Q1, Q2. apply (NE true (d2 :: u)); [exists d; auto|exists d2, u; auto]. }
  unfold mword_tags. cbn [List.map palt]. unfold tag_as, pmap. cbn [fst snd].
  assert (A : forall k r, In (k, r) mword_tags -> asciis k). { intros k r I. cbn in I. repeat (destruct I as [I|I]; [injection I as <- _; repeat constructor|]). contradiction. }
  pose proof (T (lit ";")) as T1. cbn [chars List.map lit] in T1.
  assert (Z : forall k r d kk, In (k, r) mword_tags -> k = d :: kk -> fst c <> d -> tag k i = Ok (PError [KNom])).
  { intros k r d kk I -> Nd. pose proof (T (d :: kk) (A _ _ I)) as X. cbn [chars List.map starts_with] in X. assert ((d =? fst c)%N = false) as Q by (apply N.eqb_neq; auto).
    rewrite Q in X. exact X. }
  rewrite (Z (lit ";") MwSemicolon _ _ ltac:(cbn; tauto) eq_refl) by (rewrite C; discriminate). cbn [bind].
  rewrite (Z (lit "=") MwVarAssign _ _ ltac:(cbn; tauto) eq_refl) by (rewrite C; discriminate). cbn [bind].
  assert (X : forall k, starts_with (58%N :: k) (chars (c :: after)) = starts_with k (chars after)). { intros k. cbn. rewrite C. reflexivity. }
  pose proof (T [58; 61]%N ltac:(repeat constructor)) as T3. rewrite X in T3. change (lit "=") with [61%N] in N1. rewrite N1 in T3.
  pose proof (T [58; 58; 61]%N ltac:(repeat constructor)) as T4. rewrite X in T4. change (lit ":=") with [58; 61]%N in N2. rewrite N2 in T4.
  pose proof (T [58; 58]%N ltac:(repeat constructor)) as T5. rewrite X in T5.
  pose proof (T [58]%N ltac:(repeat constructor)) as T6. rewrite X in T6.
  change (lit ":=") with [58; 61]%N. change (lit "::=") with [58; 58; 61]%N. change (lit "::") with [58; 58]%N. change (lit ":") with [58]%N.
  rewrite T3. cbn [bind]. rewrite T4. cbn [bind]. destruct (starts_with [58%N] (chars after)) eqn:Q.
  - destruct T5 as (r & p & T5 & Mp & Mr). rewrite T5. cbn [bind]. exists r, p, MwDColon. split; [reflexivity|]. split; [cbn; tauto|].
    destruct after as [|d u]; [discriminate|]. cbn -[N.eqb] in Q. rewrite andb_true_r in Q. apply N.eqb_eq in Q.
    exists [d]. split; [exact Mp|]. split; [exact Mr|]. split; [reflexivity|]. right. exists d. auto.
  - rewrite T5. cbn [bind]. change (starts_with [] (chars after)) with true in T6. cbn match in T6. destruct T6 as (r & p & T6 & Mp & Mr). rewrite T6. cbn [bind]. exists r, p, MwColon. split; [reflexivity|].
    split; [cbn; tauto|]. exists []. split; [exact Mp|]. split; [exact Mr|]. auto.
Qed.
