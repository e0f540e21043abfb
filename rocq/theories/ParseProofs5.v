(** Lemmas about assignment operators and the colon of a rule. *)
From Coq Require Import String.
From Verif Require Import Base LocModel EvdModel NomModel AstModel ParseModel AstParseModel EngineModel EvdSpec EvdProofs EvdProofs2 EvdProofs3
  ParseSpec ParseProofs ParseProofs2 ParseProofs3 ParseProofs4.
Open Scope string_scope.
Open Scope list_scope.
Notation length := List.length.

(** * Assignment operators *)
Definition operators : list (str * assignment) :=
  [(lit "=", AsRecursive); (lit ":=", AsSimple); (lit "::=", AsSimple);
   (lit "?=", AsConditional); (lit "!=", AsBang); (lit "+=", AsAppend)].

Lemma ends_name_iff : forall c, ascii c -> (ends_name c = true <-> name_end c).
Proof.
  intros c A. unfold ends_name, name_end, is_whitespace. rewrite orb_true_iff.
  split.
  - intros [H|H]; apply existsb_exists in H as (x & I & Q); apply N.eqb_eq in Q; subst x; [left|right].
    + unfold ascii in A. cbn in I. repeat (destruct I as [<-|I]; [try (cbn; tauto); exfalso; vm_compute in A; congruence|]). contradiction.
    + exact I.
  - intros [H|H]; [left|right]; apply existsb_exists; exists c; (split; [|apply N.eqb_refl]).
    + cbn in H |- *. tauto.
    + exact H.
Qed.

Definition namechar (a : char * location) : bool := negb (ends_name (fst a)).

Lemma take_till_marks : forall s p, wf_span s ->
  exists r q, take_till p s = Ok (POk r q) /\ wf_span r /\ wf_span q /\
    span_marks q = take_while (fun a => negb (p (mch a))) (span_marks s) /\
    span_marks r = drop_while (fun a => negb (p (mch a))) (span_marks s) /\
    sub s (run_of p (span_text s)) (sp_len s - run_of p (span_text s)) r /\
    sub s 0 (run_of p (span_text s)) q.
Proof.
  intros s p W. destruct (take_till_ok s p W) as (r & q & E & R & Q). exists r, q. ands; eauto using sub_wf.
  - rewrite (sub_marks_firstn _ _ _ _ Q), span_text_marks, skipn_O. clear.
    induction (span_marks s) as [|a l IH]; [reflexivity|]. cbn [List.map take_while]. unfold run_of. cbn [index_of].
    destruct (p (mch a)); cbn; auto. unfold run_of in IH. rewrite <- IH.
    destruct (index_of p (List.map mch l)); reflexivity.
  - rewrite (sub_end _ _ _ W R), span_text_marks. apply skipn_run.
Qed.

Lemma firstn_starts : forall t (l : list (char * location)), starts_with t (List.map mch l) = true ->
  List.map mch (firstn (length t) l) = t.
Proof.
  intros t l H. apply starts_with_iff in H as (post & E). rewrite <- firstn_map, E, firstn_app, Nat.sub_diag, firstn_all. cbn.
  apply app_nil_r.
Qed.

Lemma op_parse : forall s, wf_span s ->
  let p := palt [ pmap (fun _ => AsRecursive) (tag (lit "="));
           pmap (fun _ => AsSimple) (tag (lit "::="));
           pmap (fun _ => AsSimple) (tag (lit ":="));
           pmap (fun _ => AsConditional) (tag (lit "?="));
           pmap (fun _ => AsBang) (tag (lit "!="));
           pmap (fun _ => AsAppend) (tag (lit "+=")) ] in
  (exists op k post r, In (op, k) operators /\ List.map mch (span_marks s) = op ++ post /\
     p s = Ok (POk r k) /\ wf_span r /\ sub s (length op) (sp_len s - length op) r) \/
  ((forall op k post, In (op, k) operators -> List.map mch (span_marks s) <> op ++ post) /\ exists e, p s = Ok (PError e)).
Proof.
  intros s W p. rewrite <- span_text_marks.
  assert (T : forall t, asciis t ->
    (exists r post, span_text s = t ++ post /\ (exists p, tag t s = Ok (POk r p)) /\ wf_span r /\ sub s (length t) (sp_len s - length t) r) \/
    ((forall post, span_text s <> t ++ post) /\ tag t s = Ok (PError [KNom]))).
  { intros t A. pose proof (tag_ok s t W A) as H. destruct (starts_with t (span_text s)) eqn:Q.
    - destruct H as (r & q & H & R & _). apply starts_with_iff in Q as (post & Q). left. exists r, post. ands; eauto using sub_wf.
    - right. split; auto. intros post E. assert (starts_with t (span_text s) = true) by (apply starts_with_iff; eauto). congruence. }
  subst p. cbn [palt].
  assert (A : forall o, In o [lit "="; lit "::="; lit ":="; lit "?="; lit "!="; lit "+="] -> asciis o).
  { intros o I. cbn in I. repeat (destruct I as [<-|I]; [repeat constructor; vm_compute; reflexivity|]). contradiction. }
  destruct (T (lit "=")) as [(r & post & E & (q & P) & Wr & R)|(N1 & P1)]; [apply A; cbn; tauto| |].
  { left. exists (lit "="), AsRecursive, post, r. unfold pmap. rewrite P. ands; auto; cbn; tauto. }
  destruct (T (lit "::=")) as [(r & post & E & (q & P) & Wr & R)|(N2 & P2)]; [apply A; cbn; tauto| |].
  { left. exists (lit "::="), AsSimple, post, r. unfold pmap. rewrite P1, P. ands; auto. cbn; tauto. }
  destruct (T (lit ":=")) as [(r & post & E & (q & P) & Wr & R)|(N3 & P3)]; [apply A; cbn; tauto| |].
  { left. exists (lit ":="), AsSimple, post, r. unfold pmap. rewrite P1, P2, P. ands; auto. cbn; tauto. }
  destruct (T (lit "?=")) as [(r & post & E & (q & P) & Wr & R)|(N4 & P4)]; [apply A; cbn; tauto| |].
  { left. exists (lit "?="), AsConditional, post, r. unfold pmap. rewrite P1, P2, P3, P. ands; auto. cbn; tauto. }
  destruct (T (lit "!=")) as [(r & post & E & (q & P) & Wr & R)|(N5 & P5)]; [apply A; cbn; tauto| |].
  { left. exists (lit "!="), AsBang, post, r. unfold pmap. rewrite P1, P2, P3, P4, P. ands; auto. cbn; tauto. }
  destruct (T (lit "+=")) as [(r & post & E & (q & P) & Wr & R)|(N6 & P6)]; [apply A; cbn; tauto| |].
  { left. exists (lit "+="), AsAppend, post, r. unfold pmap. rewrite P1, P2, P3, P4, P5, P. ands; auto. cbn; tauto. }
  right. split.
  - intros op k post I. cbn in I. repeat (destruct I as [I|I]; [inversion I; subst; eauto|]). contradiction.
  - unfold pmap. rewrite P1, P2, P3, P4, P5, P6. eexists. reflexivity.
Qed.

Lemma assignment_operator_total : forall s, wf_span s ->
  let rest := lstrip mch (drop_while namechar (span_marks s)) in
  (exists op k r nm, In (List.map mch op, k) operators /\
     span_marks s = take_while namechar (span_marks s) ++ drop_while namechar (span_marks s) /\
     parse_assignment_operator s = Ok (POk r (nm, k)) /\ wf_span nm /\ wf_span r /\
     span_marks nm = take_while namechar (span_marks s) /\ exists post, rest = op ++ post /\ span_marks r = lstrip mch post /\
     exists a, sub s a (sp_len s - a) r) \/
  ((forall op k post, In (List.map mch op, k) operators -> rest <> op ++ post) /\ exists e, parse_assignment_operator s = Ok (PError e)).
Proof.
  intros s W rest. unfold parse_assignment_operator.
  destruct (take_till_marks s ends_name W) as (r1 & nm & E & W1 & Wn & Mn & M1 & R1 & _). rewrite E. cbn [pbind bind].
  destruct (whitespace_marks r1 W1) as (r2 & q & E2 & R2 & M2). rewrite E2. cbn [pbind bind]. rewrite M1 in M2.
  fold namechar in M2, Mn, M1. change (drop_while (fun a => negb (ends_name (mch a))) (span_marks s)) with (drop_while namechar (span_marks s)) in *.
  fold rest in M2. assert (W2 := sub_wf _ _ _ _ R2).
  assert (TD : forall l, l = take_while namechar l ++ drop_while namechar l).
  { induction l as [|a l IH]; auto. cbn. destruct (namechar a); auto. cbn. congruence. }
  destruct (op_parse r2 W2) as [(op & k & post & r3 & I & T & P & W3 & R3)|(N & e & P)].
  - left. destruct (whitespace_marks r3 W3) as (r4 & q4 & E4 & R4 & M4).
    rewrite P. cbn [pbind bind]. rewrite E4. cbn [pbind bind].
    rewrite M2 in T.
    exists (firstn (length op) rest), k, r4, nm. ands; eauto using sub_wf.
    + rewrite firstn_starts; auto. apply starts_with_iff. eauto.
    + exists (skipn (length op) rest). ands; auto.
      * symmetry. apply firstn_skipn.
      * rewrite M4, (sub_end _ _ _ W2 R3), M2. reflexivity.
      * assert (Q1 := sub_sub _ _ _ _ _ _ _ R1 R2). assert (Q2 := sub_sub _ _ _ _ _ _ _ Q1 R3). assert (Q3 := sub_sub _ _ _ _ _ _ _ Q2 R4).
        eexists. destruct Q3 as (x1 & x2 & x3 & x4 & x5 & x6).
        instantiate (1 := run_of ends_name (span_text s) + blanks (span_text r1) + length op + blanks (span_text r3)).
        destruct R1 as (_ & b1 & c1 & _). destruct R2 as (_ & b2 & c2 & _). destruct R3 as (_ & b3 & c3 & _). destruct R4 as (_ & b4 & c4 & _).
        replace (sp_len s - _) with (sp_len r4) by lia. rewrite c4. exact (conj x1 (conj x2 (conj x3 (conj x4 (conj x5 x6))))).
  - right. split.
    + intros op k post0 I Q. rewrite M2, Q, map_app in N. eapply N; eauto.
    + rewrite P. cbn. eauto.
Qed.

Lemma take_drop_while : forall {A} (p : A -> bool) l m, (forall a, In a l -> p a = true) ->
  match m with [] => True | b :: _ => p b = false end ->
  take_while p (l ++ m) = l /\ drop_while p (l ++ m) = m.
Proof.
  induction l as [|a l IH]; intros m H Hm; cbn.
  - destruct m as [|b m]; cbn; auto. rewrite Hm. auto.
  - rewrite (H a) by (left; auto). destruct (IH m) as (-> & ->); auto. intros x I. apply H. right. exact I.
Qed.

Lemma operator_head : forall op k (post : list (char * location)), In (List.map mch op, k) operators ->
  exists a op', op = a :: op' /\ namechar a = false /\ blank (fst a) = false.
Proof.
  intros op k post I. destruct op as [|a op'].
  - cbn in I. repeat (destruct I as [I|I]; [inversion I|]). contradiction.
  - exists a, op'. assert (X : In (fst a) [61; 58; 63; 33; 43]%N).
    { vm_compute in I. cbn. repeat (destruct I as [I|I]; [inversion I; tauto|]). contradiction. }
    ands; auto; unfold namechar; cbn in X; repeat (destruct X as [X|X]; [rewrite <- X; reflexivity|]); contradiction.
Qed.

Lemma app_inj_len : forall {A} (a b c d : list A), a ++ b = c ++ d -> length a = length c -> a = c /\ b = d.
Proof.
  induction a as [|x a IH]; intros b [|y c] d E L; try discriminate; auto.
  cbn in *. inversion E; subst. destruct (IH b c d) as (-> & ->); auto.
Qed.

(** Decomposition into name, blanks, operator and value. *)
Lemma assignment_operator_ok : forall s name bl op k post, wf_span s ->
  span_marks s = name ++ bl ++ op ++ post ->
  (forall a, In a name -> ~ name_end (fst a)) -> (forall a, In a bl -> blank (fst a) = true) ->
  In (List.map mch op, k) operators ->
  exists r nm, parse_assignment_operator s = Ok (POk r (nm, k)) /\ wf_span nm /\ wf_span r /\
    span_marks nm = name /\ span_marks r = lstrip mch post /\ exists a, sub s a (sp_len s - a) r.
Proof.
  intros s name bl op k post W M Hn Hb I.
  assert (As := wf_span_ascii s W). rewrite span_text_marks in As.
  assert (Asc : forall a, In a (span_marks s) -> ascii (fst a)).
  { intros a Ia. unfold asciis in As. rewrite Forall_forall in As. apply As. apply in_map. exact Ia. }
  destruct (operator_head op k post I) as (x & op' & Eo & Nx & Bx).
  assert (NN : forall a, In a name -> namechar a = true).
  { intros a Ia. unfold namechar. destruct (ends_name (fst a)) eqn:Q; auto. exfalso. apply (Hn a Ia). apply ends_name_iff; auto.
    apply Asc. rewrite M. apply in_or_app. auto. }
  assert (NB : forall a, blank (fst a) = true -> namechar a = false).
  { intros a B. unfold blank in B. unfold namechar. apply orb_true_iff in B as [B|B]; apply N.eqb_eq in B; rewrite B; reflexivity. }
  destruct (take_drop_while namechar name (bl ++ op ++ post)) as (T & D); auto.
  { destruct bl as [|b bl]; cbn; [rewrite Eo; exact Nx|]. apply NB, Hb. left. auto. }
  rewrite <- M in T, D.
  assert (Ls : lstrip mch (bl ++ op ++ post) = op ++ post).
  { apply (take_drop_while (fun a => blank (mch a))); auto. rewrite Eo. exact Bx. }
  destruct (assignment_operator_total s W) as [(op2 & k2 & r & nm & I2 & _ & P & Wn & Wr & Mn & post2 & Q & Mr & Sr)|(N & _)].
  - rewrite D, Ls in Q. rewrite T in Mn.
    assert (op2 = op /\ k2 = k /\ post2 = post) as (-> & -> & ->).
    { assert (QQ : List.map mch op ++ List.map mch post = List.map mch op2 ++ List.map mch post2) by (rewrite <- !map_app; congruence).
      assert (Z : List.map mch op = List.map mch op2 /\ k2 = k).
      { cbn in I, I2.
        repeat (destruct I as [I|I]; [
          inversion I as [[H1 H2]]; rewrite <- H1 in QQ;
          repeat (destruct I2 as [I2|I2]; [inversion I2 as [[H3 H4]]; rewrite <- H3 in QQ; cbn in QQ; try discriminate; split; congruence|]); contradiction|]). contradiction. }
      destruct Z as (Z & Zk).
      assert (length op = length op2) by (rewrite <- (map_length mch op), Z, map_length; reflexivity).
      destruct (app_inj_len _ _ _ _ Q H). auto. }
    exists r, nm. ands; auto.
  - exfalso. eapply N; eauto. rewrite D, Ls. reflexivity.
Qed.

Lemma assignment_operator_thm : forall s name bl op k post, wf_span s ->
  span_marks s = name ++ bl ++ op ++ post ->
  (forall a, In a name -> ~ name_end (fst a)) -> (forall a, In a bl -> blank (fst a) = true) ->
  In (List.map mch op, k) operators ->
  exists r nm, parse_assignment_operator s = Ok (POk r (nm, k)) /\ wf_span nm /\ wf_span r /\
    span_marks nm = name /\ span_marks r = lstrip mch post.
Proof.
  intros s name bl op k post W M Hn Hb I. destruct (assignment_operator_ok s name bl op k post W M Hn Hb I) as (r & nm & H).
  exists r, nm. tauto.
Qed.

(** No such decomposition: not an assignment. *)
Lemma assignment_operator_no : forall s, wf_span s ->
  (forall name bl op k post, span_marks s = name ++ bl ++ op ++ post ->
    (forall a, In a name -> ~ name_end (fst a)) -> (forall a, In a bl -> blank (fst a) = true) ->
    ~ In (List.map mch op, k) operators) ->
  exists e, parse_assignment_operator s = Ok (PError e).
Proof.
  intros s W H. destruct (assignment_operator_total s W) as [(op & k & r & nm & I & D & P & Wn & Wr & Mn & post & Q & Mr & Sr)|(N & E)]; auto.
  exfalso. destruct (lstrip_suffix mch (drop_while namechar (span_marks s))) as (pre & E & F).
  rewrite Q in E. apply (H (take_while namechar (span_marks s)) pre op k post); auto.
  - rewrite <- E. exact D.
  - assert (As := wf_span_ascii s W). rewrite span_text_marks in As. intros a Ia.
    assert (X : namechar a = true /\ In a (span_marks s)).
    { revert Ia. clear. induction (span_marks s) as [|b l IH]; cbn; [contradiction|].
      destruct (namechar b) eqn:B; cbn; [|contradiction]. intros [<-|I]; auto. apply IH in I. tauto. }
    destruct X as (X & Y). unfold namechar in X. intros Z. rewrite <- ends_name_iff in Z.
    + rewrite Z in X. discriminate.
    + unfold asciis in As. rewrite Forall_forall in As. apply As, in_map. exact Y.
  - intros a Ia. rewrite Forall_forall in F. auto.
Qed.

(** * The colon of a rule *)

Lemma block_span_marks : forall b, wf_block b -> span_marks (block_span b) = block_marks b.
Proof.
  intros b Wb. unfold span_marks, block_span. cbn [sp_off sp_len sp_contents]. rewrite skipn_O. apply firstn_all2.
  unfold block_marks. rewrite crefs_marks_len; auto.
Qed.

Lemma whitespace_paren : forall c, ascii c -> is_whitespace c || (c =? c_lparen)%N = space_or_paren c.
Proof.
  intros c A. unfold is_whitespace, space_or_paren, c_lparen. cbn [existsb].
  assert (H : forall n, (128 <= n)%N -> (c =? n)%N = false) by (intros n H; apply N.eqb_neq; unfold ascii in A; lia).
  rewrite (H 133%N), (H 160%N), (H 5760%N), (H 8192%N), (H 8193%N), (H 8194%N), (H 8195%N), (H 8196%N), (H 8197%N), (H 8198%N), (H 8199%N),
    (H 8200%N), (H 8201%N), (H 8202%N), (H 8232%N), (H 8233%N), (H 8239%N), (H 8287%N), (H 12288%N) by lia.
  rewrite ?orb_false_r, <- ?orb_assoc. reflexivity.
Qed.

Lemma is_drivespec_ok : forall pre post, wf_block pre -> wf_span post ->
  is_drivespec pre post = Ok (drive_swapped mch (block_marks pre) (span_marks post)).
Proof.
  intros pre post Wb W. unfold is_drivespec. rewrite (first_char_ok post W), span_text_marks. cbn [bind].
  unfold drive_swapped. destruct (span_marks post) as [|c t]; cbn [List.map hd_error]; [reflexivity|].
  assert (Lb : length (block_marks pre) = block_len pre) by (unfold block_marks; rewrite crefs_marks_len; auto).
  assert (Wp := block_span_wf pre Wb). assert (Mp := block_span_marks pre Wb).
  assert (Ap := wf_span_ascii _ Wp). rewrite span_text_marks, Mp in Ap.
  unfold any_slash, c_slash, c_bslash. rewrite <- negb_orb.
  destruct ((fst c =? 47) || (fst c =? 92))%N; cbn [negb andb].
  2:{ destruct (rev (block_marks pre)) as [|a [|b l]]; reflexivity. }
  rewrite <- (rev_length (block_marks pre)) in Lb.
  destruct (rev (block_marks pre)) as [|a [|b l]] eqn:R; cbn [length] in Lb; rewrite <- Lb; cbn [Nat.eqb].
  - reflexivity.
  - assert (E : block_marks pre = [a]) by (rewrite <- (rev_involutive (block_marks pre)), R; reflexivity).
    rewrite (first_char_ok _ Wp), span_text_marks, Mp, E. reflexivity.
  - assert (E : block_marks pre = rev l ++ [b; a]) by (rewrite <- (rev_involutive (block_marks pre)), R; cbn; rewrite <- app_assoc; reflexivity).
    destruct (slice_from_sub (block_span pre) (block_len pre - 2) Wp) as (p & Ep & Sp); [cbn; lia|].
    rewrite <- Lb in Ep. rewrite Ep. cbn [bind]. assert (Lp : sp_len p = 2).
    { destruct Sp as (_ & _ & X & _). rewrite X. cbn. lia. }
    rewrite Lp. cbn [Nat.eqb rassert bind]. unfold first_two.
    assert (Wps := sub_wf _ _ _ _ Sp). rewrite (span_chars_ok p Wps), span_text_marks, (sub_end _ _ _ Wp Sp), Mp, E.
    rewrite skipn_app. rewrite rev_length. replace (block_len pre - 2 - length l) with 0 by lia.
    rewrite skipn_all2 by (rewrite rev_length; lia). cbn [fst app skipn List.map bind].
    f_equal. rewrite whitespace_paren; [reflexivity|].
    unfold asciis in Ap. rewrite E, map_app in Ap. apply Forall_app in Ap as (_ & Ap). cbn in Ap. inversion Ap as [|? ? _ Ap2]; subst. inversion Ap2; auto.
Qed.

Lemma drivespec_loop_ok : forall t pre post, rule_colon mch (drive_swapped mch) t pre post ->
  forall fuel i content, wf_span i -> span_marks i = t -> sp_len i < fuel -> wf_block_w content ->
  exists b r, drivespec_loop fuel i content = Ok (b, r) /\ wf_block_w b /\ block_marks b = block_marks content ++ pre /\
    match post, r with
    | None, None => True
    | Some p, Some s => wf_span s /\ span_marks s = p /\ exists k, sub i k (sp_len i - k) s
    | _, _ => False
    end.
Proof.
  induction 1 as [t o pend U|t o c rest U D|t o c rest pre post U D RC IH]; intros fuel i content W M F Wc;
    (destruct fuel as [|fuel]; [lia|]); cbn [drivespec_loop];
    destruct (take_until_unquote_ok i is_colon W eq_refl eq_refl) as (b & r & E & Wb & Post); rewrite E; cbn [bind];
    rewrite M in Post; change (unquote mch is_colon [] t) with (unquote mch (fun c => c =? 58)%N [] t) in Post; rewrite U in Post;
    assert (Wp := block_span_wf b Wb); assert (Mp := block_span_marks b Wb);
    destruct (push_all_contents_w content (block_span b) Wc Wp) as (c1 & E1 & W1 & M1 & _); rewrite E1; cbn [bind].
  - destruct Post as (Mb & ->). eexists c1, None. ands; auto. rewrite M1, Mp, Mb. reflexivity.
  - destruct Post as (Mb & s & p & k & -> & Ws & Ms & Mpo & Sp & Kp). assert (Wpo := sub_wf _ _ _ _ Sp).
    rewrite (is_drivespec_ok b p Wb Wpo), Mb, Mpo, D. cbn [bind]. exists c1, (Some p). ands; eauto. rewrite M1, Mp, Mb. reflexivity.
  - destruct Post as (Mb & s & p & k & -> & Ws & Ms & Mpo & Sp & Kp). assert (Wpo := sub_wf _ _ _ _ Sp).
    rewrite (is_drivespec_ok b p Wb Wpo), Mb, Mpo, D. cbn [bind].
    destruct (push_all_contents_w c1 s W1 Ws) as (c2 & E2 & W2 & M2 & _). rewrite E2. cbn [bind].
    assert (Lp : sp_len p = sp_len i - k) by (destruct Sp as (_ & _ & X & _); exact X).
    assert (K : k <= sp_len i) by (destruct Sp as (_ & X & _); lia).
    destruct (IH fuel p c2) as (b' & r' & E3 & W3 & M3 & P3); auto; [lia|].
    exists b', r'. ands; auto.
    + rewrite M3, M2, M1, Mp, Mb, Ms, <- !app_assoc. reflexivity.
    + destruct post, r'; auto. destruct P3 as (x & y & j & z). ands; auto. exists (k + j).
      assert (Q := sub_sub _ _ _ _ _ _ _ Sp z). replace (sp_len i - (k + j)) with (sp_len p - j) by lia. exact Q.
Qed.

Lemma find_colon_ok : forall s pre post, wf_span s -> rule_colon mch (drive_swapped mch) (span_marks s) pre post ->
  exists b r, find_non_drivespec_colon s = Ok (b, r) /\ block_marks b = pre /\ option_map span_marks r = post.
Proof.
  intros s pre post W H. destruct (drivespec_loop_ok _ _ _ H (S (sp_len s)) s block_empty W eq_refl) as (b & r & E & _ & M & P); [lia|constructor|].
  exists b, r. ands; auto. destruct post, r; cbn; try contradiction; auto. destruct P as (_ & P & _). congruence.
Qed.

Lemma rule_colon_total : forall {A} (ch : A -> char) drv t, exists pre post, rule_colon ch drv t pre post.
Proof.
  intros A ch drv t. remember (length t) as n eqn:Hn. revert t Hn. induction n as [n IH] using lt_wf_ind. intros t Hn.
  destruct (unquote ch (fun c => c =? 58)%N [] t) as [o [c rest|pend]] eqn:U.
  - destruct (drv o rest) eqn:D.
    + assert (L := unquote_shorter _ _ _ _ _ _ _ U). destruct (IH (length rest)) with (t := rest) as (pre & post & H); auto; [lia|].
      exists (o ++ c :: pre), post. eapply RC_drive; eauto.
    + exists o, (Some rest). eapply RC_found; eauto.
  - exists (o ++ pend), None. eapply RC_none; eauto.
Qed.

Lemma rule_colon_det : forall {A} (ch : A -> char) drv t pre post, rule_colon ch drv t pre post ->
  forall pre' post', rule_colon ch drv t pre' post' -> pre' = pre /\ post' = post.
Proof.
  induction 1; intros pre' post' H'; inversion H'; subst; try congruence.
  - split; congruence.
  - split; congruence.
  - assert (rest0 = rest) by congruence. subst. edestruct IHrule_colon; eauto. split; congruence.
Qed.

(** If no colon is followed by a slash, both tests agree. *)
Lemma colon_no_slash : forall {A} (ch : A -> char) t pre post,
  (forall p c d q, t = p ++ c :: d :: q -> ch c = 58%N -> any_slash (ch d) = false) ->
  rule_colon ch (drive ch) t pre post -> rule_colon ch (drive_swapped ch) t pre post.
Proof.
  intros A ch t pre post H RC.
  assert (D : forall o c rest, unquote ch (fun c => c =? 58)%N [] t = (o, Stopped c rest) ->
     match rest with x :: _ => any_slash (ch x) = false | [] => True end).
  { intros o c rest U. assert (Q := unquote_where ch (fun c => c =? 58)%N eq_refl t [] o _ (Forall_nil _) U). cbn in Q.
    destruct Q as (p & -> & Sc & _). destruct rest as [|d q]; auto. apply (H p c d q); auto. apply N.eqb_eq. exact Sc. }
  destruct RC as [t o pend U|t o c rest U E|t o c rest pre post U E RC].
  - eapply RC_none; eauto.
  - eapply RC_found; eauto. specialize (D _ _ _ U). unfold drive_swapped. destruct rest as [|d q]; auto. rewrite D. destruct (rev o) as [|? [|]]; reflexivity.
  - exfalso. specialize (D _ _ _ U). unfold drive in E. destruct rest as [|d q]; [discriminate|]. rewrite D in E. destruct (rev o) as [|? [|]]; discriminate.
Qed.

Lemma find_colon_partial : forall s pre post, wf_span s ->
  (forall p c d q, span_marks s = p ++ c :: d :: q -> fst c = 58%N -> any_slash (fst d) = false) ->
  rule_colon mch (drive mch) (span_marks s) pre post ->
  exists b r, find_non_drivespec_colon s = Ok (b, r) /\ block_marks b = pre /\ option_map span_marks r = post.
Proof. intros s pre post W H RC. apply find_colon_ok; auto. apply colon_no_slash; auto. Qed.

(** * Forms used by the property theorems *)

Lemma unquote_thm : forall s stop, wf_span s -> stop c_bslash = false -> stop 0%N = false ->
  exists pre r, makefile_take_until_unquote s stop = Ok (pre, r) /\
    match unquote fst stop [] (span_marks s) with
    | (o, Stopped c rest) => block_marks pre = o /\
        exists sc post, r = Some (sc, post) /\ span_marks sc = [c] /\ span_marks post = rest
    | (o, Ended pend) => block_marks pre = o ++ pend /\ r = None
    end.
Proof.
  intros s stop W H Z. destruct (take_until_unquote_ok s stop W H Z) as (pre & r & E & _ & P). exists pre, r. split; auto.
  destruct (unquote mch stop [] (span_marks s)) as [o [c rest|pend]]; auto.
  destruct P as (M & sc & post & k & -> & _ & Mc & Mp & _). split; auto. exists sc, post. auto.
Qed.

Lemma unquote_nul_thm : forall s stop, wf_span s -> stop c_bslash = false -> stop 0%N = true -> 0 < sp_len s ->
  exists pre r, makefile_take_until_unquote s stop = Ok (pre, r) /\
    match unquote fst stop [] (span_marks s) with
    | (o, Stopped c rest) => block_marks pre = o /\ exists sc post, r = Some (sc, post) /\ span_marks post = rest
    | (o, Ended pend) =>
        block_marks pre = o ++ final_backslashes (length (span_marks s)) o pend /\
        match r with
        | Some (_, post) => Nat.even (length pend) = true /\ span_marks post = []
        | None => Nat.even (length pend) = false
        end
    end.
Proof.
  intros s stop W H Z L. destruct (take_until_unquote_nul s stop W H Z) as [(X & _)|(_ & pre & r & E & _ & P)]; [lia|].
  exists pre, r. split; auto. unfold final_backslashes. rewrite (span_marks_len s W).
  destruct (unquote mch stop [] (span_marks s)) as [o [c rest|pend]]; auto.
  - destruct P as (M & sc & post & k & -> & Mp & _). split; auto. exists sc, post. auto.
  - cbn zeta in P. destruct (Nat.even (length pend)) eqn:Ev.
    + destruct P as (M & sc & post & -> & Mp & _). auto.
    + destruct P as (M & ->). auto.
Qed.

Lemma unquote_where_thm : forall stop t o e, stop c_bslash = false -> unquote (fun c => c) stop [] t = (o, e) ->
  match e with
  | Stopped c rest => exists pre, t = pre ++ c :: rest /\ stop c = true /\
      Nat.even (tail_backslashes (fun c => c) pre) = true /\
      (forall p d q, pre = p ++ d :: q -> stop d = true -> Nat.even (tail_backslashes (fun c => c) p) = false)
  | Ended _ => forall p d q, t = p ++ d :: q -> stop d = true -> Nat.even (tail_backslashes (fun c => c) p) = false
  end.
Proof. intros stop t o e H E. exact (unquote_where (fun c => c) stop H t [] o e (Forall_nil _) E). Qed.

Lemma line_thm : forall mode strip s ls last rest, wf_span s -> ~ has fst c_hash (span_marks s) ->
  logical_line fst (span_marks s) ls last rest ->
  exists r b, makefile_line s mode strip = Ok (POk r b) /\ span_marks r = rest /\
    block_marks b = join (c_space, Synthetic) (pieces fst mode strip ls last).
Proof.
  intros mode strip s ls last rest W H L. destruct (makefile_line_ok mode strip s ls last rest W H L) as (r & b & k & E & _ & _ & _ & M & B).
  exists r, b. auto.
Qed.

Lemma line_hash_thm : forall mode strip s l h t, wf_span s -> span_marks s = l ++ h :: t ->
  ~ has fst c_hash l -> fst h = c_hash ->
  exists r b, makefile_line s mode strip = Ok (POk r b) /\ span_marks r = h :: t /\
    block_marks b = let l' := if strip then lstrip fst l else l in
                    if continued fst l' then clean fst mode l' ++ [(c_space, Synthetic)] else l'.
Proof.
  intros mode strip s l h t W M N E. destruct (makefile_line_hash mode strip s l h t W M N E) as (r & b & P & _ & _ & _ & Mr & Mb).
  exists r, b. auto.
Qed.

(** Lines. *)
Lemma grab_exact : forall s, wf_span s ->
  (forall l h t, span_marks s = l ++ h :: t -> ~ has fst c_hash l -> fst h = c_hash ->
     exists r p, makefile_grab_line s = Ok (POk r (p, LEComment)) /\ span_marks p = l /\ span_marks r = h :: t) /\
  (forall l n t, span_marks s = l ++ n :: t -> ~ has fst c_hash (span_marks s) -> ~ has fst c_nl l -> fst n = c_nl ->
     exists r p, makefile_grab_line s = Ok (POk r (p, LELineBreak)) /\ span_marks p = l /\ span_marks r = t) /\
  (~ has fst c_hash (span_marks s) -> ~ has fst c_nl (span_marks s) ->
     exists r, makefile_grab_line s = Ok (POk r (s, LEEOF)) /\ span_marks r = []).
Proof.
  intros s W. ands.
  - intros l h t M N E. destruct (grab_hash s l h t W M N E) as (r & p & G & _ & _ & A & B & _). eauto.
  - intros l n t M N N2 E. destruct (grab_break s l n t W M N N2 E) as (r & p & G & _ & _ & A & B & _). eauto.
  - intros N N2. destruct (grab_end s W N N2) as (r & G & _ & A & _). eauto.
Qed.

(** The first line ends at the first newline or '#', if no '#' occurs after the
    first newline. *)
Lemma grab_partial : forall s l t, wf_span s ->
  span_marks s = l ++ t -> ~ has fst c_nl l -> ~ has fst c_hash l ->
  match t with
  | [] => True
  | c :: t' => fst c = c_hash \/ fst c = c_nl /\ ~ has fst c_hash t'
  end ->
  exists r p reason, makefile_grab_line s = Ok (POk r (p, reason)) /\ span_marks p = l /\
    span_marks r = match t with [] => [] | c :: t' => if (fst c =? c_hash)%N then t else t' end.
Proof.
  intros s l t W M N1 N2 H. destruct (grab_exact s W) as (G1 & G2 & G3). destruct t as [|c t].
  - rewrite app_nil_r in M. rewrite M in G3. destruct (G3 N2 N1) as (r & E & R). exists r, s, LEEOF. auto.
  - destruct H as [H|(H & N)].
    + destruct (G1 l c t M N2 H) as (r & p & E & P & R). exists r, p, LEComment. rewrite H, N.eqb_refl. auto.
    + destruct (G2 l c t M) as (r & p & E & P & R); auto.
      { rewrite M, has_app, has_cons, H. intros [X|[X|X]]; auto. discriminate. }
      exists r, p, LELineBreak. rewrite H. auto.
Qed.

(** Windows line ends. *)
Lemma crlf_line : forall mode strip s l cr nl rest, wf_span s -> ~ has fst c_hash (span_marks s) ->
  span_marks s = l ++ cr :: nl :: rest -> ~ has fst c_nl l -> fst cr = c_cr -> fst nl = c_nl ->
  exists r b, makefile_line s mode strip = Ok (POk r b) /\ span_marks r = rest /\
    block_marks b = (if strip then lstrip fst l else l) ++ [cr].
Proof.
  intros mode strip s l cr nl rest W H M N C1 C2.
  assert (L : logical_line mch (span_marks s) [] (l ++ [cr]) rest).
  { rewrite M. replace (l ++ cr :: nl :: rest) with ((l ++ [cr]) ++ nl :: rest) by (rewrite <- app_assoc; reflexivity).
    apply LL_last; auto.
    - rewrite has_app, has_cons, C1. intros [X|[X|X]]; auto; [discriminate|]. exact (no_has_nil _ _ X).
    - unfold continued, tail_backslashes. rewrite rev_app_distr. cbn. rewrite C1. reflexivity. }
  destruct (line_thm mode strip s _ _ _ W H L) as (r & b & E & R & B). exists r, b. ands; auto. rewrite B. cbn.
  destruct strip; auto. apply lstrip_app. rewrite C1. reflexivity.
Qed.

Lemma comment_thm : forall s h t u ls last rest, wf_span s -> span_marks s = h :: t ++ u -> fst h = c_hash ->
  match rev t with [] => True | c :: _ => fst c = c_hash end -> ~ has fst c_hash u -> logical_line fst u ls last rest ->
  exists r, parse_comment s = Ok (POk r tt) /\ span_marks r = rest.
Proof.
  intros s h t u ls last rest W M Hh Ht Hu L.
  destruct (comment_parts_total t) as (parts & v & HF & Hv & E).
  assert (v = []).
  { destruct (rev v) as [|c v'] eqn:R; [rewrite <- (rev_involutive v), R; reflexivity|].
    exfalso. rewrite E in Ht. unfold comment_parts in Ht. rewrite rev_app_distr, R in Ht. cbn in Ht.
    apply Hv. exists c. split; auto. apply in_rev. rewrite R. left. auto. }
  subst v. destruct (parse_comment_ok s h parts u ls last rest) as (r & P & _ & R); eauto.
  rewrite M, E. unfold comment_parts. rewrite app_nil_r. reflexivity.
Qed.

(** A block made of one source text. *)
Definition text_block (t : str) : block := Blk [] [ev_constant (Located (SourceLocation 1 1 0) t)].

Lemma text_block_wf : forall t, t <> [] -> asciib t = true -> wf_block (text_block t).
Proof.
  intros t N A. apply asciib_iff in A. constructor; [|constructor]. cbn. rewrite (asciis_blen t A). ands; auto.
  destruct t; [congruence|cbn; lia].
Qed.
Lemma text_span_wf : forall t, t <> [] -> asciib t = true -> wf_span (block_span (text_block t)).
Proof. intros. apply block_span_wf, text_block_wf; auto. Qed.
