(** Text-level makefile semantics: rule lines, from the colon on. *)
From Coq Require Import String ZArith.
From Verif Require Import Base LocModel EvdModel NomModel AstModel ParseModel AstParseModel EngineModel
  EvdSpec DbSpec ParseSpec EvalSpec AstParseSpec EngineSpec MakeSpec
  EvdProofs EvdProofs3 ParseProofs ParseProofs2 ParseProofs3 ParseProofs4 ParseProofs5 EvalProofs2 EvalProofs3 EvalProofs4 FuelProofs
  DbProofs EvdProofs2 AstParseProofs AstParseProofs2 AstParseProofs3 SubstProofs SafeProofs SafeProofs2 SafeProofs3 SafeProofs4
  EngineProofs EngineProofs2 EngineProofs3 MakeProofs MakeProofs2 MakeProofs3 MakeProofs4 MakeProofs6 MakeProofs7 SensProofs.
Local Open Scope nat_scope.

(** * From the colon to the end of the line *)

(** Flat text, or no text at all. *)
Definition flattish (s : span) : Prop := tidy s \/ sp_len s = 0.

Lemma empty_location : forall s, sp_len s = 0 -> span_location s = Ok None.
Proof. intros s Z. unfold span_location, span_segs, iter_segs. rewrite Z. destruct (fold_right _ _ _) as ([|],?); reflexivity. Qed.

Lemma segment_flattish : forall fs D w s m, ascii_files fs -> world_good w -> env_rep D (world_env w) -> wf_span s -> flattish s ->
  stands_for D (span_marks s) m ->
  exists w' b enough, (forall fuel B (k : world -> block -> res (world * presult B)), enough <= fuel ->
      expand_segment (eval_fuel fs fuel) w s k = k w' b) /\
    block_marks b = m /\ wf_block b /\ same_but_names w w' /\ depends_on w' (looks_up D (span_marks s)) b.
Proof.
  intros fs D w s m FS G R W [F|Z] S.
  - destruct (segment_ok fs D w s m FS G R W F S) as (w' & b & en & E & M & Wb & SB & _ & _ & DO). exists w', b, en. auto.
  - assert (span_marks s = []) as E by (apply length_zero_iff_nil; rewrite span_marks_len; assumption). rewrite E in S. inversion S; subst.
    destruct (reads_evaluates fs D w [] a_empty [] (proj1 G) R (RA_empty True) Logic.I S) as (w' & b & en & Ev & M & _ & SB & DO).
    exists w', b, en. split; [|split; [exact M|split; [|split; [exact SB|rewrite E; exact DO]]]].
    + intros fuel B k L. unfold expand_segment, wbind, parse_ast. cbn [parse_ast_fuel]. unfold parse_ast_step.
      rewrite (empty_location s Z). cbn [bind pok]. rewrite (Ev fuel L). reflexivity.
    + pose proof (proj1 (engine_safe fs FS en) w a_empty G Logic.I) as X. rewrite (Ev en (le_n _)) in X. apply X.
Qed.

Lemma reval_skip : forall a cs off, reval (sum_len a + off) (a ++ cs) = reval off cs.
Proof.
  induction a as [|c a IH]; intros cs off; [reflexivity|]. cbn [app reval]. unfold sum_len. cbn [List.map list_sum fold_right]. fold (list_sum (List.map c_len a)). fold (sum_len a).
  assert (Q : (c_len c <=? c_len c + sum_len a + off) = true) by (apply Nat.leb_le; lia). rewrite Q.
  replace (c_len c + sum_len a + off - c_len c) with (sum_len a + off) by lia. apply IH.
Qed.

Lemma tag_flattish : forall b a cs t r p, b_content b = a ++ cs -> sum_len a = blen t -> Forall leaf_cref cs -> parted cref_marks cs ->
  tag t (block_span b) = Ok (POk r p) -> flattish r.
Proof.
  intros b a cs t r p B L F Pt E. unfold tag in E. inv_bind E. destruct x; try discriminate.
  unfold take_split in E. inv_bind E. destruct x as [x y]. inversion E; subst. inv_bind Ex0. inv_bind Ex0. inversion Ex0; subst.
  unfold slice_from in Ex2. inv_bind Ex2. unfold revalidate in Ex2. cbn [sp_len sp_off sp_contents sp_parent block_span] in Ex2.
  destruct (x0 =? 0) eqn:Z.
  - inversion Ex2; subst. right. apply Nat.eqb_eq. exact Z.
  - rewrite B, <- L in Ex2. replace (0 + sum_len a) with (sum_len a + 0) in Ex2 by lia. rewrite reval_skip in Ex2. apply bind_inv in Ex2 as ([o cs'] & Ex4 & Ex2).
    inversion Ex2; subst. left. unfold tidy, flat. cbn [sp_contents]. destruct (reval_suffix _ _ _ _ Ex4) as (pre & ->). apply Forall_app in F. split; [apply F|exact (parted_suffix _ _ _ Pt)].
Qed.

Lemma second_colon_none : forall t : text, ~ has fst colon t -> forall k n, second_colon (combine (seq k (List.length t)) (List.map fst t)) false n = Ok None.
Proof.
  induction t as [|a t IH]; intros H k n; [reflexivity|]. cbn [List.length seq List.map combine second_colon].
  assert (H' : ~ has fst colon t). { intros (x & I & E). apply H. exists x. split; [now right|exact E]. }
  destruct (fst a =? c_bslash)%N; [apply IH, H'|].
  destruct (N.eqb_spec (fst a) c_colon) as [E|_]; [|apply IH, H']. exfalso. apply H. exists a. split; [now left|exact E].
Qed.

Lemma split_at_ext : forall (p q : char -> bool) (t : text), (forall a, In a t -> p (fst a) = q (fst a)) -> forall w, split_at fst p w t = split_at fst q w t.
Proof.
  intros p q t. induction t as [|a t IH]; intros H w; [reflexivity|]. cbn [split_at]. rewrite (H a (or_introl eq_refl)).
  destruct (q (fst a)); rewrite IH; auto; intros x I; apply H; now right.
Qed.

Lemma map_same : forall (l : list text), List.map (cleaned false) l = l.
Proof. intros l. induction l as [|a l IH]; [reflexivity|]. cbn. rewrite IH. reflexivity. Qed.

Definition command_block (cmd : list text) (ps : option block) : Prop :=
  match cmd, ps with
  | [], None => True
  | [k], Some b => wf_block b /\ tidy_block b /\ block_marks b = k
  | _, _ => False
  end.
Definition command_ast (cmd : list text) (c : option ast) : Prop :=
  match cmd, c with
  | [], None => True
  | [k], Some a => recipe_rep k a
  | _, _ => False
  end.
Definition tail_text (cmd : list text) : text := match cmd with [k] => made c_semi :: k | _ => [] end.

Lemma with_command_chars : forall t before cmd, with_command t before cmd -> chars t = chars (before ++ tail_text cmd).
Proof.
  intros t before [|k [|? ?]] H; cbn in H.
  - rewrite H, app_nil_r. reflexivity.
  - destruct H as (c & -> & E). unfold chars, tail_text. rewrite !map_app. cbn [List.map]. rewrite E. reflexivity.
  - contradiction.
Qed.

Lemma semi_push : forall b, block_marks (block_push b cr_semicolon) = block_marks b ++ [made c_semi].
Proof.
  intros [se cs]. unfold block_push. cbn [b_content b_sens]. change (crefs_marks (cs ++ [cr_semicolon]) = crefs_marks cs ++ [made c_semi]).
  rewrite crefs_marks_app. reflexivity.
Qed.

(** The text after the colon is put together again. *)
Lemma after_built : forall ac ln cmd ps, wf_block ac -> wf_span ln -> tidy ln -> wf_block (sp_parent ln) -> command_block cmd ps ->
  exists b1 b2 b3 more, push_all_contents block_empty (block_span ac) = Ok b1 /\ push_all_contents b1 ln = Ok b2 /\
    match ps with Some content => push_all_contents (block_push b2 cr_semicolon) (block_span content) | None => Ok b2 end = Ok b3 /\
    wf_block b2 /\ block_marks b2 = block_marks ac ++ span_marks ln /\
    wf_block b3 /\ block_marks b3 = (block_marks ac ++ span_marks ln) ++ tail_text cmd /\
    b_content b3 = b_content b1 ++ more /\ (Forall leaf_cref more /\ parted cref_marks more) /\ sum_len (b_content b1) = List.length (block_marks ac) /\ (block_marks ac = [] -> b_content b1 = []).
Proof.
  intros ac ln cmd ps Wa Wl Fl Wp C.
  destruct (push_all_contents_ok block_empty (block_span ac) block_empty_wf (block_span_wf ac Wa) Wa) as (b1 & E1 & W1 & M1 & _ & Z1).
  destruct (push_all_contents_ok b1 ln W1 Wl Wp) as (b2 & E2 & W2 & M2 & _). rewrite M1, (block_span_marks ac Wa) in M2. cbn [app] in M2.
  assert (X : exists more, b_content b2 = b_content b1 ++ more /\ Forall leaf_cref more /\ parted cref_marks more).
  { unfold push_all_contents in E2. destruct (sp_len ln =? 0); [inversion E2; subst; exists []; rewrite app_nil_r; split; [reflexivity|split; [constructor|apply parted_nil]]|].
    inv_bind E2. inversion E2; subst. exists x. split; [reflexivity|]. split; [apply (span_cover_leaf ln x (proj1 Fl) Ex)|exact (span_cover_parted ln x (proj2 Fl) Ex)]. }
  destruct X as (more & C2 & L2 & P2).
  assert (S1 : sum_len (b_content b1) = List.length (block_marks ac)).
  { change (block_len b1 = List.length (block_marks ac)). rewrite (block_len_marks b1 W1), M1, (block_span_marks ac Wa). reflexivity. }
  assert (N1 : block_marks ac = [] -> b_content b1 = []).
  { intros Z. rewrite Z1; [reflexivity|]. cbn [block_span sp_len]. rewrite (block_len_marks ac Wa), Z. reflexivity. }
  destruct cmd as [|k [|? ?]], ps as [content|]; try contradiction.
  - exists b1, b2, b2, more. cbn [tail_text]. rewrite app_nil_r. auto 12.
  - destruct C as (Wc & Fc & Mc).
    assert (W3 : wf_block (block_push b2 cr_semicolon)).
    { unfold wf_block in *. cbn. apply Forall_app. split; [exact W2|]. constructor; [exact semicolon_wf|constructor]. }
    destruct (push_all_contents_ok (block_push b2 cr_semicolon) (block_span content) W3 (block_span_wf content Wc) Wc) as (b3 & E3 & Wb3 & M3 & _).
    assert (X : exists m3, b_content b3 = (b_content b2 ++ [cr_semicolon]) ++ m3 /\ Forall leaf_cref m3 /\ parted cref_marks m3).
    { unfold push_all_contents in E3. destruct (sp_len (block_span content) =? 0); [inversion E3; subst; exists []; rewrite app_nil_r; split; [reflexivity|split; [constructor|apply parted_nil]]|].
      inv_bind E3. inversion E3; subst. exists x. split; [reflexivity|]. split; [apply (span_cover_leaf (block_span content) x (proj1 Fc) Ex)|exact (span_cover_parted (block_span content) x (proj2 Fc) Ex)]. }
    destruct X as (m3 & C3 & L3 & P3).
    exists b1, b2, b3, (more ++ [cr_semicolon] ++ m3). split; [exact E1|]. split; [exact E2|]. split; [exact E3|]. split; [exact W2|]. split; [exact M2|]. split; [exact Wb3|].
    split; [rewrite M3, semi_push, (block_span_marks content Wc), M2, Mc, <- !app_assoc; reflexivity|].
    split; [rewrite C3, C2, <- !app_assoc; reflexivity|]. split; [|auto].
    split; [apply Forall_app; split; [exact L2|]; apply Forall_app; split; [|exact L3]; constructor; [exact Logic.I|constructor]|].
    exact (parted_made cref_marks more cr_semicolon c_semi m3 P2 P3 eq_refl).
Qed.

Lemma finish_ok : forall fs D w rest0 buf ac ln ps after double deps cmd rest m, ascii_files fs -> world_good w -> env_rep D (world_env w) ->
  wf_block buf -> ~ has fst c_bslash (block_marks buf) -> wf_block ac -> (block_marks ac = [] \/ exists c, block_marks ac = [c] /\ fst c = colon) ->
  wf_span ln -> tidy ln -> wf_block (sp_parent ln) -> block_marks ac ++ span_marks ln = after -> after_colons after double deps ->
  command_block cmd ps -> Forall expression cmd -> with_command rest deps cmd -> no_assignment (lstrip fst rest) -> begins_none modifier_words (lstrip fst rest) ->
  stands_for D deps m -> name_text m ->
  exists w' ts ds c enough, (forall fuel, enough <= fuel -> target_finish (eval_fuel fs fuel) w rest0 buf (Some ac) ln ps = Ok (w', POk rest0 (TNewRule ts ds double c))) /\
    same_but_names w w' /\ List.map block_marks ts = names_in (block_marks buf) /\ List.map block_marks ds = names_in m /\ Forall (depends_on w' (looks_up D deps)) ds /\ command_ast cmd c.
Proof.
  intros fs D w rest0 buf ac ln ps after double deps cmd rest m FS G R Wb Nb Wa Ca Wl Fl Wp Ma AC CB EX WC NA NM S NT.
  destruct (parse_file_seq_plain (block_span buf) false [] (block_span_wf buf Wb)) as (ts & Et & _ & Mt).
  { intros []. } { rewrite (block_span_marks buf Wb). exact Nb. }
  rewrite map_same, (block_span_marks buf Wb) in Mt. change (split_at mch (file_stop []) [] (block_marks buf)) with (names_in (block_marks buf)) in Mt.
  destruct (after_built ac ln cmd ps Wa Wl Fl Wp CB) as (b1 & b2 & b3 & more & E1 & E2 & E3 & W2 & M2 & W3 & M3 & C3 & (L3 & P3) & S1 & N1).
  rewrite Ma in M2, M3. pose proof (block_span_wf b3 W3) as W3s.
  assert (P2 : block_len b2 = List.length after) by (rewrite (block_len_marks b2 W2), M2; reflexivity).
  (* the text after the colons *)
  assert (X : exists slice n, (let* r := tag [c_colon] (block_span b3) in
      match r with
      | POk i _ => let* n := usub (block_len b2) 1 in Ok (i, true, n)
      | _ => Ok (block_span b3, false, block_len b2)
      end) = Ok (slice, double, n) /\ wf_span slice /\ span_marks slice = deps ++ tail_text cmd /\ n = List.length deps /\ flattish slice).
  { pose proof (tag_ok (block_span b3) [c_colon] W3s ltac:(repeat constructor)) as T. rewrite span_text_marks, (block_span_marks b3 W3), M3 in T.
    unfold after_colons in AC. destruct double.
    - destruct AC as (c & -> & Cc). cbn [app List.map starts_with] in T. change (mch c) with (fst c) in T. rewrite Cc in T. cbn [N.eqb Pos.eqb andb starts_with c_colon] in T.
      destruct T as (r & p & T & Sr & _ & _). rewrite T. cbn [bind]. rewrite P2. cbn [List.length].
      exists r, (List.length deps). split; [|split; [exact (sub_wf _ _ _ _ Sr)|split; [|split; [reflexivity|]]]].
      + unfold usub. cbn [Nat.ltb Nat.leb]. rewrite Nat.sub_1_r. cbn. reflexivity.
      + rewrite (sub_end _ _ _ W3s Sr), (block_span_marks b3 W3), M3. reflexivity.
      + destruct Ca as [Za|(c' & Za & _)].
        * left. eapply within_tidy; [exact (sub_within _ _ _ _ Sr)|]. unfold tidy, flat. cbn [block_span sp_contents]. rewrite C3, (N1 Za). split; [exact L3|exact P3].
        * eapply (tag_flattish b3 (b_content b1) more [c_colon] r p C3); [|exact L3|exact P3|exact T]. rewrite S1, Za. reflexivity.
    - destruct AC as (E & NC). assert (Za : block_marks ac = []).
      { destruct Ca as [Za|(c' & Za & Hc)]; [exact Za|]. exfalso. apply NC. exists c', (span_marks ln). rewrite <- Ma, Za. auto. }
      assert (starts_with [c_colon] (List.map mch (after ++ tail_text cmd)) = false) as Q.
      { destruct after as [|a after].
        - destruct cmd as [|k [|? ?]]; reflexivity.
        - cbn -[N.eqb]. rewrite andb_true_r. apply N.eqb_neq. intros Q. apply NC. exists a, after. auto. }
      rewrite Q in T. rewrite T. cbn [bind]. exists (block_span b3), (block_len b2). split; [reflexivity|]. split; [exact W3s|].
      split; [rewrite (block_span_marks b3 W3), M3, E; reflexivity|]. split; [rewrite P2, E; reflexivity|].
      left. unfold tidy, flat. cbn [block_span sp_contents]. rewrite C3, (N1 Za). split; [exact L3|exact P3]. }
  destruct X as (slice & n & ET & Wsl & Msl & -> & Fsl).
  assert (Lsl : sp_len slice = List.length deps + List.length (tail_text cmd)) by (rewrite <- (span_marks_len slice Wsl), Msl, app_length; reflexivity).
  assert (CH : chars (lstrip fst rest) = chars (lstrip fst (span_marks slice))) by (apply lstrip_chars; rewrite Msl; apply with_command_chars, WC).
  assert (NA' := no_assignment_chars _ _ CH NA). assert (NM' := begins_none_chars _ _ _ CH NM).
  (* dependencies *)
  pose proof (slice_to_sub slice (List.length deps) Wsl ltac:(lia)) as Spre.
  assert (Mpre : span_marks (slice_to slice (List.length deps)) = deps) by (eapply sub_prefix; [exact Wsl|exact Spre|exact Msl|reflexivity]).
  assert (Fpre : flattish (slice_to slice (List.length deps))).
  { destruct Fsl as [F|Z]; [left; exact F|right]. cbn. lia. }
  rewrite <- Mpre in S. destruct (segment_flattish fs D w _ m FS G R (sub_wf _ _ _ _ Spre) Fpre S) as (w' & nb & en & Ev & Mn & Wn & SB & DO). rewrite Mpre in DO.
  assert (HB : ~ has fst c_bslash m) by (eapply free_has; [exact NT|cbn; tauto]).
  assert (HC : ~ has fst colon m) by (eapply free_has; [exact NT|cbn; tauto]).
  (* the rest of the line *)
  assert (Y : exists pb qb, wf_block pb /\ block_marks pb = m /\ command_block cmd qb /\ (m <> [] -> same_sens nb pb) /\
    (let* post_semi_slice := (if List.length deps <? sp_len slice then let* s := slice_from slice (List.length deps + 1) in Ok (Some s) else Ok None) in
     match post_semi_slice with
     | None =>
         let* '(pre, r) := makefile_take_until_unquote (block_span nb) is_semi in
         match r with
         | Some (_, post) => let* b := to_new_block post in Ok (pre, Some b)
         | None => Ok (pre, None)
         end
     | Some s => let* b := to_new_block s in Ok (nb, Some b)
     end) = Ok (pb, qb)).
  { destruct cmd as [|k [|? ?]]; [| |destruct ps; contradiction].
    - cbn [tail_text List.length] in Lsl. assert (Q : (List.length deps <? sp_len slice) = false) by (apply Nat.ltb_ge; lia). rewrite Q. cbn [bind].
      destruct (take_until_unquote_ok (block_span nb) is_semi (block_span_wf nb Wn) eq_refl eq_refl) as (p & r & Eu & Wpb & Post).
      rewrite (block_span_marks nb Wn), Mn in Post. change mch with (@fst char location) in Post. rewrite (unquote_free is_semi m HB) in Post.
      + destruct Post as (Mp & ->). rewrite app_nil_r in Mp. rewrite Eu. cbn [bind]. exists p, None. split; [exact Wpb|]. split; [exact Mp|]. split; [exact Logic.I|]. split; [|reflexivity].
        intros Nm. apply (unquote_same (block_span nb) is_semi p None); [|exact Eu]. cbn [block_span sp_len]. rewrite (block_len_marks nb Wn), Mn. destruct m; [congruence|cbn; lia].
      + intros a I. apply N.eqb_neq. intros Z. apply (NT a I). rewrite Z. cbn; tauto.
    - cbn [tail_text List.length] in Lsl. assert (Q : (List.length deps <? sp_len slice) = true) by (apply Nat.ltb_lt; lia). rewrite Q.
      destruct (slice_from_sub slice (List.length deps + 1) Wsl ltac:(lia)) as (s & Es & Ss). rewrite Es. cbn [bind].
      destruct (to_new_block_ok s (sub_wf _ _ _ _ Ss)) as (b & Eb & Wbb & Mb & _). rewrite Eb. cbn [bind].
      exists nb, (Some b). split; [exact Wn|]. split; [exact Mn|]. split; [|split; [intros _ id; tauto|reflexivity]]. split; [exact Wbb|]. split.
      + destruct Fsl as [F|Z]; [|lia]. apply (new_block_tidied s b (sub_wf _ _ _ _ Ss) (within_tidy _ _ (sub_within _ _ _ _ Ss) F) Eb).
      + rewrite Mb. eapply (sub_suffix slice (List.length deps + 1) s (deps ++ [made c_semi]) k Wsl Ss); [rewrite Msl, <- app_assoc; reflexivity|].
        rewrite app_length. reflexivity. }
  destruct Y as (pb & qb & Wpb & Mpb & CB2 & SS & EY).
  assert (Z : exists r a, (match qb with
                 | Some content => let! (i, a) := parse_ast (block_span content) in pok i (Some a)
                 | None => pok rest0 None
                 end) = Ok (POk r a) /\ command_ast cmd a).
  { destruct cmd as [|k [|? ?]], qb as [content|]; try contradiction.
    - exists rest0, None. split; [reflexivity|exact Logic.I].
    - destruct CB2 as (Wc & Fc & Mc). inversion EX as [|? ? X1 _]; subst.
      destruct (parse_at (block_span content) (block_span_wf content Wc) Fc) as (r & a & Ep & Ra & _ & A).
      { rewrite (block_span_marks content Wc). exact X1. }
      rewrite (block_span_marks content Wc) in Ra. rewrite Ep. cbn [pbind bind pok]. exists r, (Some a). split; [reflexivity|]. split; assumption. }
  destruct Z as (r & a & EZ & CA).
  destruct (parse_file_seq_plain (block_span pb) false [c_colon] (block_span_wf pb Wpb)) as (ds & Ed & _ & Md).
  { intros [Q|[]]. discriminate. } { rewrite (block_span_marks pb Wpb), Mpb. exact HB. }
  rewrite map_same, (block_span_marks pb Wpb), Mpb in Md.
  exists w', ts, ds, a, en. split; [|split; [exact SB|split; [exact Mt|split; [|split; [|exact CA]]]]].
  - intros fuel L. unfold target_finish. rewrite Et. cbn [bind unwrap]. rewrite E1. cbn [bind]. rewrite E2. cbn [bind]. rewrite E3. cbn [bind].
    destruct (variable_none (eval_fuel fs fuel) w slice Wsl NA' NM') as (e & Ee).
    apply bind_inv in ET as (tr & ETa & ETb). rewrite ETa. cbn [bind]. rewrite ETb. cbn [bind]. rewrite Ee. cbn [bind].
    apply bind_inv in EY as (pss & EYa & EYb). rewrite EYa. cbn [bind]. rewrite (Ev fuel _ _ L). rewrite EYb. cbn [bind].
    unfold wbind. rewrite EZ. cbn [bind]. rewrite (AstParseProofs2.indices_marks (block_span pb) (block_span_wf pb Wpb)), (block_span_marks pb Wpb), Mpb.
    rewrite (second_colon_none m HC). cbn [bind]. rewrite Ed. reflexivity.
  - rewrite Md. apply split_at_ext. intros x I. unfold file_stop. cbn [existsb]. rewrite orb_false_r.
    assert ((fst x =? c_colon)%N = false) as -> by (apply N.eqb_neq; intros Q; apply HC; exists x; auto). rewrite !orb_false_r. reflexivity.
  - assert (FS' := file_seq_same pb [c_colon] ds Wpb Ed). destruct m as [|m0 m].
    + cbn in Md. destruct ds; [constructor|discriminate].
    + rewrite Forall_forall in *. intros b I. apply (depends_set _ _ nb); [|exact DO]. intros id. rewrite (FS' b I id). apply SS. discriminate.
Qed.
