(** Proofs about the engine as a whole, second part: evaluation. *)
From Coq Require Import String Lia.
From Verif Require Import Base LocModel EvdModel NomModel AstModel ParseModel AstParseModel EngineModel
  EvdSpec DbSpec ParseSpec EvalSpec AstParseSpec EngineSpec DbProofs EvdProofs EvdProofs2 EvdProofs3 ParseProofs ParseProofs2
  ParseProofs3 ParseProofs4 ParseProofs5 SubstProofs EvalProofs EvalProofs2 EvalProofs3 EvalProofs4
  AstParseProofs AstParseProofs2 AstParseProofs3 SafeProofs.
Local Open Scope nat_scope.

(** * Unquoting *)

Lemma slice_range_parent : forall s a b s', slice_range s a b = Ok s' -> sp_parent s' = sp_parent s.
Proof.
  intros s a b s' E. unfold slice_range in E. destruct (usub b a) as [n| |]; try discriminate. cbn [bind] in E.
  unfold revalidate in E. cbn in E. destruct (n =? 0); [inversion E; reflexivity|].
  destruct (reval _ _) as [[o cs]| |]; try discriminate. inversion E. reflexivity.
Qed.

Lemma unquote_loop_parent : forall i stop l boom tr sc a b r, unquote_loop i stop l boom tr sc a b = Ok r ->
  (forall c, sc = Some c -> sp_parent c = sp_parent i) ->
  forall c, snd (fst (fst (fst r))) = Some c -> sp_parent c = sp_parent i.
Proof.
  induction l as [|[idx ch] l IH]; cbn [unquote_loop]; intros boom tr sc a b r E K c X.
  - destruct boom; inversion E; subst. cbn in X. auto.
  - destruct (stop ch).
    + destruct (slice_range i idx (idx + 1)) as [d| |] eqn:Es; try discriminate. cbn [bind] in E. apply slice_range_parent in Es.
      destruct (Nat.odd (idx - a)).
      * destruct (slice_range i b _) as [pc| |]; try discriminate. cbn [bind] in E.
        destruct (push_all_contents tr pc) as [tr'| |]; try discriminate. cbn [bind] in E.
        eapply IH; [exact E| |exact X]. intros e Q. inversion Q; subst. exact Es.
      * destruct (slice_range i b _) as [pc| |]; try discriminate. cbn [bind] in E.
        destruct (push_all_contents tr pc) as [tr'| |]; try discriminate. cbn [bind] in E.
        inversion E; subst. cbn in X. inversion X; subst. exact Es.
    + eapply IH; eauto.
Qed.

Lemma unquote_parent : forall i stop pre c post, stop 0%N = false ->
  makefile_take_until_unquote i stop = Ok (pre, Some (c, post)) -> sp_parent c = sp_parent i.
Proof.
  intros i stop pre c post Z E. unfold makefile_take_until_unquote in E. destruct (span_indices i) as [l boom].
  destruct (unquote_loop i stop l boom _ None 0 0) as [[[[[tr sc] a] b] found]| |] eqn:U; try discriminate. cbn [bind] in E.
  pose proof (unquote_loop_parent _ _ _ _ _ _ _ _ _ U ltac:(discriminate)) as P. cbn in P.
  rewrite Z in E.
  assert (SC : forall (s : option span) d, (match s with Some c => Ok c | None => slice_from i (sp_len i) end) = Ok d ->
    (forall c, s = Some c -> sp_parent c = sp_parent i) -> sp_parent d = sp_parent i).
  { intros [x|] d Q K; [inversion Q; subst; auto|]. rewrite slice_from_range in Q. now apply slice_range_parent in Q. }
  assert (Fin : forall tr nps at_,
    (if at_ <? sp_len i then
      let* c := match sc with Some c => Ok c | None => slice_from i (sp_len i) end in
      let* tr := block_simplify tr in let* post := slice_from i (at_ + 1) in Ok (tr, Some (c, post))
    else if at_ =? sp_len i then
      let* c := match sc with Some c => Ok c | None => slice_from i (sp_len i) end in
      let* tr := block_simplify tr in let* post := slice_from i at_ in Ok (tr, Some (c, post))
    else match sc with
      | None => let* b := to_new_block i in Ok (b, None)
      | Some _ => let* piece := slice_from i nps in let* tr := push_all_contents tr piece in
                  let* tr := block_simplify tr in Ok (tr, None) end) = Ok (pre, Some (c, post)) -> sp_parent c = sp_parent i).
  { intros tr0 nps at_ Q. destruct (at_ <? sp_len i); [|destruct (at_ =? sp_len i)].
    - destruct (match sc with Some c => _ | None => _ end) as [d| |] eqn:D; try discriminate. cbn [bind] in Q.
      destruct (block_simplify tr0); try discriminate. cbn [bind] in Q. destruct (slice_from i (at_ + 1)); try discriminate.
      inversion Q; subst. eapply (SC sc); [exact D|exact P].
    - destruct (match sc with Some c => _ | None => _ end) as [d| |] eqn:D; try discriminate. cbn [bind] in Q.
      destruct (block_simplify tr0); try discriminate. cbn [bind] in Q. destruct (slice_from i at_); try discriminate.
      inversion Q; subst. eapply (SC sc); [exact D|exact P].
    - destruct sc.
      + destruct (slice_from i nps); try discriminate. cbn [bind] in Q. destruct (push_all_contents tr0 _); try discriminate.
        cbn [bind] in Q. destruct (block_simplify _); discriminate.
      + destruct (to_new_block i); discriminate. }
  destruct found as [idx|]; cbn [bind] in E; eapply Fin; exact E.
Qed.

Definition unquoted (i : span) (x : block * option (span * span)) : Prop :=
  wf_block (fst x) /\
  match snd x with
  | Some (c, post) => gspan c /\ gspan post /\ sp_len post < sp_len i
  | None => True
  end.

Lemma unquote_safe : forall stop i, stop c_bslash = false -> stop 0%N = false -> gspan i ->
  safe False (unquoted i) (makefile_take_until_unquote i stop).
Proof.
  intros stop i B Z G. destruct (take_until_unquote_ok i stop (proj1 G) B Z) as (pre & r & E & W & M).
  rewrite E. cbn. split; [exact W|]. cbn. destruct (unquote fst stop [] (span_marks i)) as [o [c rest|pend]].
  - destruct M as (_ & s & post & k & -> & Ws & _ & _ & Sp & K).
    split; [|split].
    + split; [exact Ws|]. rewrite (unquote_parent _ _ _ _ _ Z E). apply G.
    + eapply sub_gspan; eauto.
    + apply sub_len in Sp. lia.
  - destruct M as (_ & ->). exact I.
Qed.

(** * Substitution references *)

Lemma drop_while_len : forall {A} (p : A -> bool) l, length (drop_while p l) <= length l.
Proof. intros A p l. induction l as [|a l IH]; cbn; [lia|]. destruct (p a); cbn; lia. Qed.

Lemma token_safe : forall s, gspan s -> 0 < sp_len s ->
  safe False (pgood (sp_len s - 1) (part_of s)) (makefile_token s).
Proof.
  intros s G L. unfold makefile_token, preceded, terminated.
  destruct (whitespace_marks s (proj1 G)) as (r & q & E & Sr & Mr). rewrite E. cbn [pbind bind].
  pose proof (sub_wf _ _ _ _ Sr) as Wr.
  destruct (take_till_marks r is_blank Wr) as (r2 & w & E2 & W2 & Ww & Mw & M2 & S2 & Sw). rewrite E2. cbn [pbind bind].
  destruct (whitespace_marks r2 W2) as (r3 & q3 & E3 & S3 & M3). rewrite E3. cbn [pbind bind pok].
  assert (Gr := sub_gspan _ _ _ _ G Sr). assert (G2 := sub_gspan _ _ _ _ Gr S2). assert (G3 := sub_gspan _ _ _ _ G2 S3).
  cbn. split; [exact G3|]. split.
  - rewrite <- (span_marks_len r3), M3 by apply G3. unfold lstrip.
    pose proof (drop_while_len (fun a => blank (mch a)) (span_marks r2)).
    rewrite M2 in *. unfold lstrip in Mr.
    rewrite <- (span_marks_len s (proj1 G)) in *.
    destruct (span_marks s) as [|m t] eqn:Ms; [cbn in L; lia|]. cbn [drop_while] in Mr. destruct (blank (mch m)) eqn:Bm.
    + pose proof (drop_while_len (fun a => blank (mch a)) t). rewrite Mr in *.
      match goal with H : length (drop_while _ (drop_while ?p ?l)) <= _ |- _ => pose proof (drop_while_len p l) end.
      cbn [length]. lia.
    + rewrite Mr in *. cbn [drop_while] in *.
      assert (is_blank (mch m) = false) by exact Bm. rewrite H0 in *. cbn [negb] in *.
      match goal with H : length (drop_while _ (drop_while ?p ?l)) <= _ |- _ => pose proof (drop_while_len p l) end.
      cbn [length]. lia.
  - destruct (sub_part _ _ _ _ Gr Sw) as (Gw & Lw). split; [exact Gw|]. apply sub_len in Sr. lia.
Qed.

Lemma match_token_safe : forall pk qk, asciis pk -> asciis qk -> psafe (match_token pk qk) part_of.
Proof.
  intros pk qk Ap Aq s G. unfold match_token.
  eapply safe_pbind; [apply tag_safe; auto|]. intros i _ Gi Li _.
  eapply safe_pbind.
  { eapply safe_pweak; [apply (recognize_safe _ (many1_after _ (take_until_cutter qk Aq)) i Gi)|exact Li|].
    intros a (Ga & La). instantiate (1 := part_of s). split; [exact Ga|lia]. }
  intros j cap Gj Lj Hc. eapply safe_pbind; [eapply safe_pweak; [apply (tag_safe qk Aq j Gj)|exact Lj|intros a H; exact H]|].
  intros k _ Gk Lk _. apply safe_pok; auto.
Qed.

Lemma push_safe_w : forall b s, wf_block_w b -> wf_span s -> safe False wf_block_w (push_all_contents b s).
Proof. intros b s W G. destruct (push_all_contents_w b s W G) as (b' & E & W' & _). rewrite E. exact W'. Qed.

Lemma replace_token_safe : forall tok pk qk pr qr out, gspan tok -> asciis pk -> asciis qk -> wf_span pr -> wf_span qr ->
  wf_block_w out -> safe False wf_block_w (replace_token tok pk qk pr qr out).
Proof.
  intros tok pk qk pr qr out G Ap Aq Wp Wq Wo. unfold replace_token.
  destruct (sp_len tok <? blen pk + blen qk); [apply push_safe_w; auto; apply G|].
  eapply safe_bind; [apply (match_token_safe pk qk Ap Aq tok G)|]. intros [rest cap|ks|ks] H; try (apply push_safe_w; auto; apply G).
  destruct (negb (sp_len rest =? 0)); [apply push_safe_w; auto; apply G|].
  destruct H as (_ & _ & (Gc & _)). eapply safe_bind; [apply push_safe_w; eauto|]. intros o1 W1.
  eapply safe_bind; [apply push_safe_w; [exact W1|apply Gc]|]. intros o2 W2. apply push_safe_w; auto.
Qed.

Lemma push_space_w : forall b, wf_block_w b -> wf_block_w (block_push b cr_space).
Proof.
  intros b W. unfold wf_block_w, block_push. cbn. apply Forall_app. split; [exact W|].
  constructor; [|constructor]. apply wf_cref_weak, space_wf.
Qed.

Lemma replacement_loop_safe : forall pk qk pr qr, asciis pk -> asciis qk -> wf_span pr -> wf_span qr ->
  forall fuel tokens first out, gspan tokens -> sp_len tokens < fuel -> wf_block_w out ->
  safe False wf_block_w (replacement_loop fuel tokens pk qk pr qr first out).
Proof.
  intros pk qk pr qr Ap Aq Wp Wq. induction fuel as [|fuel IH]; intros tokens first out G L Wo; [lia|].
  cbn [replacement_loop]. destruct (Nat.ltb_spec 0 (sp_len tokens)) as [P|P]; [|exact Wo].
  eapply safe_bind; [apply (token_safe tokens G P)|]. intros [rest tok|ks|ks] H; try exact I.
  destruct H as (Gr & Lr & (Gt & _)). eapply safe_bind.
  - apply replace_token_safe; eauto. destruct first; [exact Wo|now apply push_space_w].
  - intros o W. apply IH; auto. lia.
Qed.

Lemma do_replacement_safe : forall tokens sens pk qk pr qr, gspan tokens -> asciis pk -> asciis qk -> wf_span pr -> wf_span qr ->
  safe False wf_block (do_replacement tokens sens pk qk pr qr).
Proof.
  intros. unfold do_replacement. eapply safe_bind.
  - apply replacement_loop_safe; auto. constructor.
  - intros b W. destruct (simplify_w b W) as (b' & E & W' & _). rewrite E. exact W'.
Qed.

Lemma gspan_ascii : forall s, gspan s -> asciis (span_text s).
Proof. intros s G. rewrite <- span_marks_text. apply span_ascii. apply G. Qed.

Lemma block_ascii : forall b, wf_block b -> asciis (block_text b).
Proof. intros b W. rewrite <- block_marks_text. now apply marks_ascii. Qed.

Lemma do_subref_safe : forall sens value key repl, wf_block value -> wf_block key -> wf_block repl ->
  safe False wf_block (do_subref sens value key repl).
Proof.
  intros sens value key repl Wv Wk Wr. unfold do_subref.
  eapply safe_bind; [apply unquote_safe; try reflexivity; apply block_gspan; exact Wk|].
  intros [pre [[c post]|]] (Wp & H); cbn [fst snd] in *.
  - destruct H as (_ & Gp & _).
    eapply safe_bind; [apply unquote_safe; try reflexivity; apply block_gspan; exact Wr|].
    intros [pre2 r2] (Wp2 & H2); cbn [fst snd] in *.
    eapply safe_bind; [apply into_string_safe; exact Wp|]. intros pk ->.
    rewrite (span_into_string_ok post (proj1 Gp)). cbn [bind].
    destruct r2 as [[c2 post2]|].
    + destruct H2 as (_ & G2 & _). apply do_replacement_safe; auto using block_gspan, block_ascii, gspan_ascii, block_span_wf. apply G2.
    + apply do_replacement_safe; auto using block_gspan, block_ascii, gspan_ascii, block_span_wf, span_empty_wf.
  - eapply safe_bind; [apply into_string_safe; exact Wp|]. intros k ->.
    apply do_replacement_safe; auto using block_gspan, block_ascii, gspan_ascii, block_span_wf, span_empty_wf. constructor.
Qed.

(** * The state *)



Lemma grown_refl : forall w, grown w w.
Proof. intros w. split; [exists []; now rewrite app_nil_r|]. split; [apply grows_refl|reflexivity]. Qed.

Lemma grown_trans : forall a b c, grown a b -> grown b c -> grown a c.
Proof.
  intros a b c ((v & E) & G & C) ((v' & E') & G' & C'). split; [exists (v ++ v'); rewrite E', E, app_assoc; reflexivity|].
  split; [eapply grows_trans; eauto|congruence].
Qed.

Lemma grown_id : forall w w' (id : N), grown w w' -> N.to_nat id < length (n_vars (w_names w)) ->
  N.to_nat id < length (n_vars (w_names w')).
Proof. intros w w' id ((v & E) & _) L. rewrite E, app_length. lia. Qed.

Lemma intern_good : forall w nm w' id, world_intern_variable w nm = (w', id) -> world_good w ->
  world_good w' /\ grown w w' /\ N.to_nat id < length (n_vars (w_names w')).
Proof.
  intros w nm w' id E (Ok & R & C). destruct (intern_world w nm w' id E) as (S & V).
  assert (G : grown w w').
  { unfold world_intern_variable, intern_variable_name in E. destruct (get_or_intern nm (n_vars (w_names w))) as [l i] eqn:I.
    inversion E; subst. destruct (intern_spec nm (n_vars (w_names w))) as (k & K & _). rewrite I in K. cbn in K.
    split; [exists k; exact K|]. split; [|reflexivity]. intros t j H. exact H. }
  split; [|split; [exact G|]].
  - split; [eapply sbn_ok; eauto|]. destruct S as (-> & -> & _). split; [|exact C]. eapply rules_ok_grows; [apply G|exact R].
  - unfold variable_name in V. destruct (interned nm (n_vars (w_names w'))) as [n|] eqn:I; [|discriminate].
    cbn in V. inversion V; subst. rewrite Nat2N.id. now apply interned_lt in I.
Qed.

Lemma good_grown : forall w w', world_good w -> grown w w' -> w_db w' = w_db w -> world_good w'.
Proof.
  intros w w' (Ok & R & C) G E. split; [|split].
  - intros id v H. rewrite E in H. destruct (Ok id v H) as (L & A). split; [eapply grown_id; eauto|exact A].
  - rewrite E. eapply rules_ok_grows; [apply G|exact R].
  - destruct G as (_ & _ & ->). exact C.
Qed.

Lemma new_good : world_good world_new.
Proof. split; [intros id v H; discriminate|]. split; [apply rules_ok_empty|reflexivity]. Qed.

(** * Evaluation *)

Definition evaluated (w : world) (x : world * block) : Prop :=
  world_good (fst x) /\ grown w (fst x) /\ wf_block (snd x).
Definition processed (w : world) (x : world * mresult) : Prop := world_good (fst x) /\ grown w (fst x).

Definition ev_safe (F : Prop) (ev : world -> ast -> res (world * block)) : Prop :=
  forall w a, world_good w -> ast_ok a -> safe F (evaluated w) (ev w a).
Definition pb_safe (F : Prop) (pb : world -> block -> res (world * mresult)) : Prop :=
  forall w b, world_good w -> wf_block b -> safe F (processed w) (pb w b).

Section Eval.
  Context (F : Prop) (ev : world -> ast -> res (world * block)) (pb : world -> block -> res (world * mresult)).
  Context (Hev : ev_safe F ev) (Hpb : pb_safe F pb).

  Definition derefd (w : world) (x : world * list N * block) : Prop :=
    world_good (fst (fst x)) /\ grown w (fst (fst x)) /\ wf_block (snd x).

  Lemma deref_safe : forall w sens nm, world_good w -> safe F (derefd w) (deref_variable ev w sens nm).
  Proof.
    intros w sens nm G. unfold deref_variable. destruct (world_intern_variable w nm) as [w1 id] eqn:E.
    destruct (intern_good _ _ _ _ E G) as (G1 & R1 & _). destruct (get_variable (w_db w1) id) as [v|] eqn:V.
    - eapply safe_bind; [apply Hev; [exact G1|eapply (proj1 G1); exact V]|].
      intros [w2 b] (G2 & R2 & W2). cbn in *. split; [exact G2|]. split; [eapply grown_trans; eauto|exact W2].
    - cbn. split; [exact G1|]. split; [exact R1|apply block_empty_wf].
  Qed.

  Definition internal (w : world) (x : world * list N * list cref) : Prop :=
    world_good (fst (fst x)) /\ grown w (fst (fst x)) /\ Forall wf_cref0 (snd x).

  Lemma block_new_safe : forall sens cs, Forall wf_cref0 cs -> safe F wf_block (block_new sens cs).
  Proof. intros sens cs W. destruct (block_new_ok sens cs W) as (b & E & Wb & _). rewrite E. exact Wb. Qed.

  Lemma eval_internal_safe : forall a w, world_good w -> ast_ok a -> safe F (internal w) (eval_internal ev pb w a).
  Proof.
    apply (ast_ind' (fun a => forall w, world_good w -> ast_ok a -> safe F (internal w) (eval_internal ev pb w a)));
      cbn [ast_ok eval_internal].
    - intros l w G _. cbn. split; [exact G|]. split; [apply grown_refl|constructor].
    - intros l s w G A. cbn. split; [exact G|]. split; [apply grown_refl|]. constructor; [|constructor].
      now apply const_cref.
    - intros l b w G A. cbn. split; [exact G|]. split; [apply grown_refl|].
      eapply Forall_impl; [|exact A]. intros c Wc. left. exact Wc.
    - intros l ns H w G A.
      change (safe F (internal w) (eval_nodes ev pb w ns [] [])).
      assert (K : forall ns, Forall (fun a => forall w, world_good w -> ast_ok a -> safe F (internal w) (eval_internal ev pb w a)) ns ->
        fold_right (fun n P => ast_ok n /\ P) True ns -> forall w sens acc, world_good w -> Forall wf_cref0 acc ->
        safe F (internal w) (eval_nodes ev pb w ns sens acc)).
      { clear. intros ns H. induction H as [|n ns Hn Hns IH]; intros A w sens acc G W; cbn [eval_nodes].
        - cbn. split; [exact G|]. split; [apply grown_refl|exact W].
        - destruct A as (A & As). eapply safe_bind; [apply Hn; eauto|]. intros [[w1 s] c] (G1 & R1 & W1). cbn [fst snd] in *.
          eapply safe_weak; [apply IH; auto; apply Forall_app; auto|auto|].
          intros [[w2 s2] c2] (G2 & R2 & W2). split; [exact G2|]. split; [eapply grown_trans; eauto|exact W2]. }
      apply K; auto.
    - intros l a IH w G A. eapply safe_bind; [apply IH; eauto|]. intros [[w1 s] c] (G1 & R1 & W1). cbn [fst snd] in *.
      eapply safe_bind; [apply block_new_safe; exact W1|]. intros nm Wn.
      assert (Simple : forall r : presult (span * span), safe F (internal w)
        (let* str_name := block_into_string nm in
         let* '(w, sens, value) := deref_variable ev w1 (b_sens nm) str_name in
         Ok (w, sens, [ev_variable_reference nm value]))).
      { intros _. rewrite (block_into_string_ok nm Wn). cbn [bind].
        eapply safe_bind; [apply deref_safe; exact G1|]. intros [[w2 s2] v] (G2 & R2 & W2). cbn [fst snd] in *.
        cbn. split; [exact G2|]. split; [eapply grown_trans; eauto|]. constructor; [|constructor].
        eapply node_cref; [reflexivity|exact W2]. }
      eapply safe_bind; [apply safe_false, colon_find_safe, block_gspan, Wn|].
      intros [rest [n k]|ks|ks] H; [|exact (Simple (PError ks))|exact (Simple (PError ks))].
      destruct H as (Gr & _ & (Gn & _) & (Gk & _)). cbn [fst snd] in *.
      eapply safe_bind; [apply safe_false, drop_last_safe, Gn|]. intros n1 (Gn1 & _).
      eapply safe_bind; [apply safe_false, to_new_block_safe, Gn1|]. intros nb (Wnb & _).
      eapply safe_bind; [apply safe_false, drop_last_safe, Gk|]. intros k1 (Gk1 & _).
      eapply safe_bind; [apply safe_false, to_new_block_safe, Gk1|]. intros kb (Wkb & _).
      eapply safe_bind; [apply safe_false, to_new_block_safe, Gr|]. intros rb (Wrb & _).
      eapply safe_bind; [apply safe_false, into_string_safe, Wnb|]. intros t _.
      eapply safe_bind; [apply deref_safe; exact G1|]. intros [[w2 s2] v] (G2 & R2 & W2). cbn [fst snd] in *.
      eapply safe_bind; [apply safe_false, do_subref_safe; auto|]. intros vb Wvb.
      cbn. split; [exact G2|]. split; [eapply grown_trans; eauto|]. constructor; [|constructor].
      eapply node_cref; [reflexivity|exact Wvb].
    - intros l a IH w G A. eapply safe_bind; [apply IH; eauto|]. intros [[w1 s] c] (G1 & R1 & W1). cbn [fst snd] in *.
      eapply safe_bind; [apply block_new_safe; exact W1|]. intros content Wc.
      eapply safe_bind; [apply block_new_safe; constructor; [eapply node_cref; [reflexivity|exact Wc]|constructor]|]. intros b Wb.
      eapply safe_bind; [apply Hpb; eauto|]. intros [w2 r] (G2 & R2). cbn [fst snd] in *. destruct r; try exact I.
      cbn. split; [exact G2|]. split; [eapply grown_trans; eauto|constructor].
    - intros; exact I.
    - intros; exact I.
    - intros; exact I.
  Qed.

  Lemma eval_step_safe : ev_safe F (eval_step ev pb).
  Proof.
    intros w a G A. unfold eval_step. eapply safe_bind; [apply eval_internal_safe; eauto|].
    intros [[w1 s] c] (G1 & R1 & W1). cbn [fst snd] in *.
    eapply safe_bind; [apply block_new_safe; exact W1|]. intros b Wb. exact (conj G1 (conj R1 Wb)).
  Qed.
End Eval.
