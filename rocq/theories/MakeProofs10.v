(** Text-level makefile semantics: recipe lines. *)
From Coq Require Import String ZArith.
From Verif Require Import Base LocModel EvdModel NomModel AstModel ParseModel AstParseModel EngineModel
  EvdSpec DbSpec ParseSpec EvalSpec AstParseSpec EngineSpec MakeSpec
  EvdProofs EvdProofs3 ParseProofs ParseProofs2 ParseProofs3 ParseProofs4 ParseProofs5 EvalProofs2 EvalProofs3 EvalProofs4 FuelProofs
  DbProofs EvdProofs2 AstParseProofs AstParseProofs2 AstParseProofs3 SubstProofs SafeProofs SafeProofs2 SafeProofs3 SafeProofs4
  EngineProofs EngineProofs2 EngineProofs3 MakeProofs MakeProofs2 MakeProofs3 MakeProofs4 MakeProofs6.
Local Open Scope nat_scope.

Lemma newline_marks : cref_marks cr_newline = [made c_nl].
Proof. reflexivity. Qed.
Lemma newline_leaf : leaf_cref cr_newline.
Proof. exact Logic.I. Qed.

Definition finish_recipe (i : span) (line : block) : res (presult ast) :=
  let! (_j, a) := parse_ast (block_span line) in pok i a.

Lemma push_wf : forall b c, wf_block b -> wf_cref c -> wf_block (block_push b c).
Proof. intros b c W C. apply Forall_app. split; [exact W|]. constructor; [exact C|constructor]. Qed.
Lemma push_newline : forall b, tidy_block b -> tidy_block (block_push b cr_newline).
Proof.
  intros b (W & P). split; [apply Forall_app; split; [exact W|]; constructor; [exact newline_leaf|constructor]|].
  cbn [b_content block_push]. apply (parted_made cref_marks (b_content b) cr_newline c_nl []); [exact P|apply parted_nil|exact newline_marks].
Qed.
Lemma push_line : forall b c, tidy_block b -> leaf_cref c -> tidy_block (block_push (block_push b cr_newline) c).
Proof.
  intros b c (W & P) C. split.
  - apply Forall_app. split; [apply Forall_app; split; [exact W|]|]; (constructor; [first [exact newline_leaf|exact C]|constructor]).
  - cbn [b_content block_push]. rewrite <- app_assoc. apply (parted_made cref_marks (b_content b) cr_newline c_nl [c]); [exact P|apply parted_one|exact newline_marks].
Qed.
Lemma push_marks : forall b c, block_marks (block_push b c) = block_marks b ++ cref_marks c.
Proof.
  intros [se cs] c. unfold block_push. cbn [b_content b_sens]. change (crefs_marks (cs ++ [c]) = crefs_marks cs ++ cref_marks c).
  rewrite crefs_marks_app. unfold crefs_marks at 2. cbn [List.map concat]. rewrite app_nil_r. reflexivity.
Qed.

(** What precedes the line does not continue it. *)
Definition apart (pre : text) : Prop := forall l, tail_backslashes fst (pre ++ l) = tail_backslashes fst l.

Lemma apart_nil : apart [].
Proof. intros l. reflexivity. Qed.
Lemma apart_newline : forall t, apart (t ++ [made c_nl]).
Proof.
  intros t l. unfold tail_backslashes. rewrite !rev_app_distr. cbn [rev app]. induction (rev l) as [|a v IH]; [reflexivity|].
  cbn [app take_while]. destruct (backslash (fst a)); cbn; [|reflexivity]. f_equal. apply IH.
Qed.

Lemma grabbed_ok : forall i p, wf_span p -> within i p -> single i -> 0 < sp_len p ->
  exists c, to_content_reference p = Ok c /\ wf_cref c /\ leaf_cref c /\ cref_marks c = span_marks p.
Proof.
  intros i p W I S L. destruct (to_content_reference_ok p W) as (c & E & Wc & M & Lc).
  exists c. split; [exact E|]. split.
  - destruct c as [o n nd]. cbn in Lc. unfold wf_cref0 in Wc. cbn in *. intuition lia.
  - split; [|exact M]. destruct (reference_piece p c (within_single _ _ I S) E) as [Z|X]; [lia|exact X].
Qed.

Lemma recipe_at : forall u body rest, recipe_text u body rest -> forall i, at_text i u ->
  exists j p reason tail, makefile_grab_line i = Ok (POk j (p, reason)) /\ wf_span p /\ within i p /\ body = span_marks p ++ tail /\ sp_len j <= sp_len i /\
    (span_marks p = [] -> body = []) /\ (reason = LEComment -> tail = [] /\ at_text j rest) /\
    forall line pre fuel, sp_len j < fuel -> wf_block line -> tidy_block line -> block_marks line = pre ++ span_marks p -> apart pre ->
      exists r whole, match reason with LEComment => finish_recipe j line | _ => recipe_loop fuel c_tab j line end = finish_recipe r whole /\
        at_text r rest /\ wf_block whole /\ tidy_block whole /\ block_marks whole = pre ++ body.
Proof.
  intros u body rest RT. induction RT as [p h u N E|l N NN C|l n rest N NN E C|l N NN C|l n rest N NN E C NT|l n c u more rest N NN E C T RT IH Nm]; intros i A; pose proof A as (G & S & M).
  - destruct (grab_hash i p h u (proj1 G) M N E) as (j & q & Eg & Wj & Wq & Mq & Mj & Sj). exists j, q, LEComment, [].
    destruct (within_grab _ _ _ _ Eg) as (_ & I).
    split; [exact Eg|]. split; [exact Wq|]. split; [exact I|]. split; [rewrite app_nil_r; congruence|].
    split; [apply (sub_keeps _ _ _ _ Sj)|]. split; [congruence|]. split; [intros _; split; [reflexivity|exact (at_sub _ _ _ _ _ _ A Sj Mj)]|].
    intros line pre fuel _ Wl Fl Ml _. rewrite Mq in Ml.
    exists j, line. split; [reflexivity|]. split; [exact (at_sub _ _ _ _ _ _ A Sj Mj)|]. auto.
  - rewrite <- M in N, NN. destruct (grab_end i (proj1 G) N NN) as (j & Eg & Wj & Mj & Sj). exists j, i, LEEOF, [].
    split; [exact Eg|]. split; [exact (proj1 G)|]. split; [apply within_refl|]. split; [rewrite app_nil_r; congruence|].
    split; [apply (sub_keeps _ _ _ _ Sj)|]. split; [congruence|]. split; [discriminate|].
    intros line pre fuel Lf Wl Fl Ml AP. destruct fuel as [|fuel]; [lia|]. cbn [recipe_loop].
    rewrite (ends_with_backslash_ok _ (block_span_wf line Wl)), (block_span_marks line Wl), Ml. cbn [bind].
    change mch with (@fst char location). rewrite AP, M. unfold continued in C. rewrite C. rewrite M in Ml.
   
    exists j, line. split; [reflexivity|]. split; [exact (at_sub _ _ _ _ _ _ A Sj Mj)|]. auto.
  - rewrite <- M in N. destruct (grab_break i l n rest (proj1 G) M N NN E) as (j & q & Eg & Wj & Wq & Mq & Mj & Sj). exists j, q, LELineBreak, [].
    destruct (within_grab _ _ _ _ Eg) as (_ & I).
    split; [exact Eg|]. split; [exact Wq|]. split; [exact I|]. split; [rewrite app_nil_r; congruence|].
    split; [apply (sub_keeps _ _ _ _ Sj)|]. split; [congruence|]. split; [discriminate|].
    intros line pre fuel Lf Wl Fl Ml AP. destruct fuel as [|fuel]; [lia|]. cbn [recipe_loop].
    rewrite (ends_with_backslash_ok _ (block_span_wf line Wl)), (block_span_marks line Wl), Ml. cbn [bind].
    change mch with (@fst char location). rewrite AP, Mq. unfold continued in C. rewrite C. rewrite Mq in Ml.
   
    exists j, line. split; [reflexivity|]. split; [exact (at_sub _ _ _ _ _ _ A Sj Mj)|]. auto.
  - rewrite <- M in N, NN. destruct (grab_end i (proj1 G) N NN) as (j & Eg & Wj & Mj & Sj). exists j, i, LEEOF, [made c_nl].
    split; [exact Eg|]. split; [exact (proj1 G)|]. split; [apply within_refl|]. split; [congruence|].
    split; [apply (sub_keeps _ _ _ _ Sj)|]. split; [intros Q; rewrite M in Q; rewrite Q in C; discriminate|]. split; [discriminate|].
    intros line pre fuel Lf Wl Fl Ml AP. destruct fuel as [|fuel]; [lia|]. cbn [recipe_loop].
    rewrite (ends_with_backslash_ok _ (block_span_wf line Wl)), (block_span_marks line Wl), Ml. cbn [bind].
    change mch with (@fst char location). rewrite AP, M. unfold continued in C. rewrite C. rewrite M in Ml.
    unfold grab_command_line, preceded. pose proof (pchar_ok j c_tab Wj eq_refl) as P. rewrite span_text_marks, Mj in P. cbn [List.map] in P.
    rewrite P. cbn [pbind bind].
    exists j, (block_push line cr_newline). split; [reflexivity|]. split; [exact (at_sub _ _ _ _ _ _ A Sj Mj)|].
    split; [apply push_wf; [exact Wl|exact newline_wf]|]. split; [apply push_newline; exact Fl|].
    rewrite push_marks, Ml, newline_marks, app_assoc. reflexivity.
  - rewrite <- M in N. destruct (grab_break i l n rest (proj1 G) M N NN E) as (j & q & Eg & Wj & Wq & Mq & Mj & Sj). exists j, q, LELineBreak, [made c_nl].
    destruct (within_grab _ _ _ _ Eg) as (_ & I).
    split; [exact Eg|]. split; [exact Wq|]. split; [exact I|]. split; [congruence|].
    split; [apply (sub_keeps _ _ _ _ Sj)|]. split; [intros Q; rewrite Mq in Q; rewrite Q in C; discriminate|]. split; [discriminate|].
    intros line pre fuel Lf Wl Fl Ml AP. destruct fuel as [|fuel]; [lia|]. cbn [recipe_loop].
    rewrite (ends_with_backslash_ok _ (block_span_wf line Wl)), (block_span_marks line Wl), Ml. cbn [bind].
    change mch with (@fst char location). rewrite AP, Mq. unfold continued in C. rewrite C. rewrite Mq in Ml.
    unfold grab_command_line, preceded. pose proof (pchar_ok j c_tab Wj eq_refl) as P. rewrite span_text_marks, Mj in P.
    assert (P' : pchar c_tab j = Ok (PError [KNom])).
    { destruct rest as [|d rest]; [exact P|]. cbn [List.map] in P. destruct (N.eqb_spec (fst d) c_tab) as [Q|Q]; [|exact P].
      exfalso. apply NT. exists d, rest. auto. }
    rewrite P'. cbn [pbind bind].
    exists j, (block_push line cr_newline). split; [reflexivity|]. split; [exact (at_sub _ _ _ _ _ _ A Sj Mj)|].
    split; [apply push_wf; [exact Wl|exact newline_wf]|]. split; [apply push_newline; exact Fl|].
    rewrite push_marks, Ml, newline_marks, app_assoc. reflexivity.
  - rewrite <- M in N. destruct (grab_break i l n (c :: u) (proj1 G) M N NN E) as (j & q & Eg & Wj & Wq & Mq & Mj & Sj). exists j, q, LELineBreak, (made c_nl :: more).
    destruct (within_grab _ _ _ _ Eg) as (_ & I).
    split; [exact Eg|]. split; [exact Wq|]. split; [exact I|]. split; [congruence|].
    split; [apply (sub_keeps _ _ _ _ Sj)|]. split; [intros Q; rewrite Mq in Q; rewrite Q in C; discriminate|]. split; [discriminate|].
    intros line pre fuel Lf Wl Fl Ml AP. destruct fuel as [|fuel]; [lia|]. cbn [recipe_loop].
    rewrite (ends_with_backslash_ok _ (block_span_wf line Wl)), (block_span_marks line Wl), Ml. cbn [bind].
    change mch with (@fst char location). rewrite AP, Mq. unfold continued in C. rewrite C. rewrite Mq in Ml.
    pose proof (at_sub _ _ _ _ _ _ A Sj Mj) as Aj.
    unfold grab_command_line, preceded. pose proof (pchar_ok j c_tab Wj eq_refl) as P. rewrite span_text_marks, Mj in P. cbn [List.map] in P.
    rewrite T, N.eqb_refl in P. destruct P as (k & P & Sk & Lj). rewrite P. cbn [pbind bind].
    assert (Ak : at_text k u).
    { apply (at_sub _ _ _ _ _ _ Aj Sk). apply (sub_suffix j 1 k [c] u Wj); [exact Sk|exact Mj|reflexivity]. }
    destruct (IH k Ak) as (j2 & p2 & re2 & tl2 & Eg2 & Wp2 & I2 & Eb & L2 & Z2 & _ & H2).
    rewrite Eg2. cbn [bind].
    assert (Lp : 0 < sp_len p2).
    { rewrite <- (span_marks_len p2 Wp2). destruct (span_marks p2) as [|x y]; [|cbn; lia]. exfalso. apply Nm. apply Z2. reflexivity. }
    destruct (grabbed_ok k p2 Wp2 I2 (proj1 (proj2 Ak)) Lp) as (cr & Ec & Wc & Lc & Mc). rewrite Ec. cbn [bind].
    destruct (H2 (block_push (block_push line cr_newline) cr) (pre ++ l ++ [made c_nl]) fuel) as (r & wh & Er & Ar & Ww & Fw & Mw).
    { assert (sp_len k = sp_len j - 1) by apply Sk. lia. }
    { apply push_wf; [apply push_wf; [exact Wl|exact newline_wf]|exact Wc]. }
    { apply push_line; assumption. }
    { rewrite !push_marks, Ml, newline_marks, Mc, <- !app_assoc. reflexivity. }
    { rewrite app_assoc. apply apart_newline. }
    exists r, wh. split; [exact Er|]. split; [exact Ar|]. split; [exact Ww|]. split; [exact Fw|]. rewrite <- !app_assoc in Mw. exact Mw.
Qed.

Lemma recipe_line_reads : forall i c u body rest, at_text i (c :: u) -> fst c = c_tab -> recipe_text u body rest ->
  exists r s, recipe_line c_tab i = (let! (_j, a) := parse_ast s in pok r a) /\ at_text r rest /\ wf_span s /\ tidy s /\ span_marks s = body.
Proof.
  intros i c u body rest A T RT. pose proof A as (G & S & M).
  unfold recipe_line, grab_command_line, preceded. pose proof (pchar_ok i c_tab (proj1 G) eq_refl) as P. rewrite span_text_marks, M in P. cbn [List.map] in P.
  rewrite T, N.eqb_refl in P. destruct P as (k & P & Sk & Li).
  assert (Ak : at_text k u).
  { apply (at_sub _ _ _ _ _ _ A Sk). apply (sub_suffix i 1 k [c] u (proj1 G)); [exact Sk|exact M|reflexivity]. }
  destruct (recipe_at u body rest RT k Ak) as (j & p & re & tl & Eg & Wp & I & Eb & L2 & _ & HC & H).
  unfold add_return_error, pbind. rewrite P. cbn [bind]. rewrite Eg. cbn [bind fst snd].
  destruct (to_new_block_ok p Wp) as (b & Ebk & Wb & Mb & _).
  pose proof (within_tidy _ _ I (single_tidy _ (proj1 (proj2 Ak)))) as Fp.
  pose proof (new_block_tidied p b Wp Fp Ebk) as Fb.
  destruct (H b [] (Datatypes.S (sp_len j)) ltac:(lia) Wb Fb Mb apart_nil) as (r & wh & Er & Ar & Ww & Fw & Mw).
  destruct re.
  - destruct (HC eq_refl) as (-> & Aj). rewrite app_nil_r in Eb. exists j, p. auto.
  - exists r, (block_span wh). rewrite Ebk. cbn [bind]. split; [exact Er|]. split; [exact Ar|]. split; [exact (block_span_wf wh Ww)|]. split; [exact Fw|].
    rewrite (block_span_marks wh Ww). exact Mw.
  - exists r, (block_span wh). rewrite Ebk. cbn [bind]. split; [exact Er|]. split; [exact Ar|]. split; [exact (block_span_wf wh Ww)|]. split; [exact Fw|].
    rewrite (block_span_marks wh Ww). exact Mw.
Qed.

Lemma recipe_line_at : forall i c u body rest, at_text i (c :: u) -> fst c = c_tab -> recipe_text u body rest -> expression body ->
  exists r a, recipe_line c_tab i = Ok (POk r a) /\ at_text r rest /\ reads_ast True body a /\ ast_ok a.
Proof.
  intros i c u body rest A T RT X. destruct (recipe_line_reads i c u body rest A T RT) as (r & s & E & Ar & W & F & M). rewrite <- M in X.
  destruct (parse_at s W F X) as (r' & a & E' & R' & _ & A'). exists r, a. rewrite E, E'. split; [reflexivity|]. split; [exact Ar|]. rewrite <- M. auto.
Qed.

Lemma recipe_step : forall fs st s w i t c u body rest r, sim st s w -> at_text i t -> ~ is_comment_text t -> m_rule st = Some r ->
  t = c :: u -> fst c = c_tab -> recipe_text u body rest -> expression body ->
  gets_to fs s w i (with_rule st (Some (with_line r body))) rest.
Proof.
  intros fs st s w i t c u body rest r SI A NC MR -> T RT X.
  destruct (recipe_line_at i c u body rest A T RT X) as (j & a & E & Aj & Ra & OK).
  pose proof (sim_rule _ _ _ SI) as RR. rewrite MR in RR. destruct (ps_rule s) as [p|] eqn:Ep; [|contradiction].
  exists (PState (ps_conds s) (ps_ignoring s) (Some (ProtoRule (pr_targets p) (pr_deps p) (pr_recipe p ++ [a]) (pr_type p))) (ps_define s)), w, j, 0.
  split; [|split; [exact Aj|]].
  - intros fuel _. unfold engine_line, parse_line. destruct (not_comment_at i _ A NC) as (ks & Ec). rewrite Ec. cbn [bind run_parser].
    rewrite Ep, (sim_cmd _ _ _ SI), E. cbn [bind run_parser rest_of]. unfold push_command_line. rewrite Ep. reflexivity.
  - destruct SI as [I1 I2 I3 I4 I5 I6 I7 I8]. constructor; auto. cbn. destruct RR as (R1 & R2 & R0 & R3 & R4). split; [exact R1|]. split; [exact R2|]. split; [exact R0|]. split; [|exact R4].
    cbn. apply Forall2_app; [exact R3|]. constructor; [split; assumption|constructor].
Qed.
