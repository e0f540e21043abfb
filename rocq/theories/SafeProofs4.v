(** Proofs about the engine as a whole, fourth part: parsers and handlers that
    evaluate expressions, and the loop over lines. *)
From Coq Require Import String Lia ZArith.
From Verif Require Import Base LocModel EvdModel NomModel AstModel ParseModel AstParseModel EngineModel
  EvdSpec DbSpec ParseSpec EvalSpec AstParseSpec EngineSpec DbProofs EvdProofs EvdProofs2 EvdProofs3 ParseProofs ParseProofs2
  ParseProofs3 ParseProofs4 ParseProofs5 SubstProofs EvalProofs EvalProofs2 EvalProofs3 EvalProofs4
  AstParseProofs AstParseProofs2 AstParseProofs3 SafeProofs SafeProofs2 SafeProofs3.
Local Open Scope nat_scope.

(** * Words and colons *)

Lemma file_seq_safe : forall s strip extra, gspan s -> ~ In c_bslash extra ->
  exists bs, parse_file_seq s strip extra = Ok bs /\ Forall wf_block bs.
Proof.
  intros s strip extra G N. destruct (file_words_total mch (file_stop extra) (lstrip mch (span_marks s))) as (ws & FW).
  destruct (parse_file_seq_ok s strip extra ws (proj1 G) N FW) as (bs & E & W & _). eauto.
Qed.

Lemma first_char_ok' : forall s, gspan s -> exists o, first_char s = Ok o.
Proof. intros s G. rewrite (first_char_ok s (proj1 G)). eauto. Qed.

Lemma drivespec_safe : forall fuel i content, gspan i -> sp_len i < fuel -> wf_block content ->
  safe False (fun x => wf_block (fst x) /\ forall p, snd x = Some p -> gspan p) (drivespec_loop fuel i content).
Proof.
  induction fuel as [|fuel IH]; intros i content G L W; [lia|]. cbn [drivespec_loop].
  eapply safe_bind; [apply unquote_safe; [reflexivity|reflexivity|exact G]|]. intros [pre r] (Wp & Hr). cbn [fst snd] in *.
  eapply safe_bind; [apply push_safe; [exact W|apply block_gspan, Wp]|]. intros c1 (W1 & _).
  destruct r as [[colon post]|]; [|cbn; split; [exact W1|intros p H; discriminate]].
  destruct Hr as (Gc & Gp & Lp). rewrite (is_drivespec_ok pre post Wp (proj1 Gp)). cbn [bind].
  destruct (drive_swapped _ _ _); [|cbn; split; [exact W1|intros p H; inversion H; subst; exact Gp]].
  eapply safe_bind; [apply push_safe; [exact W1|exact Gc]|]. intros c2 (W2 & _). apply IH; [exact Gp|lia|exact W2].
Qed.

Lemma second_colon_fuel : forall l boom n, second_colon l boom n <> OutOfFuel.
Proof.
  induction l as [|[i c] l IH]; intros boom n; cbn [second_colon]; [destruct boom; discriminate|].
  destruct (c =? c_bslash)%N; [apply IH|]. destruct (c =? c_colon)%N; [|apply IH]. destruct (Nat.even n); [discriminate|apply IH].
Qed.

Lemma push_word_safe : forall b c, wf_block b -> wf_block c -> safe False wf_block (push_word b c).
Proof.
  intros b c Wb Wc. unfold push_word. eapply safe_weak with (F := False); [apply push_safe; [|apply block_gspan, Wc]| |].
  - destruct (0 <? block_len b); [|exact Wb]. unfold wf_block in *. cbn. apply Forall_app. split; [exact Wb|].
    constructor; [|constructor]. unfold cr_space. exact space_wf.
  - auto.
  - intros x (W & _). exact W.
Qed.

(** * Parsers that use the names and the engine *)

Definition wgood {A} (w : world) (P : world -> A -> Prop) (x : world * presult A) : Prop :=
  world_good (fst x) /\ grown w (fst x) /\ match snd x with POk _ a => P (fst x) a | _ => True end.

Lemma wbind_safe : forall {A B} F (Q : span -> A -> Prop) (P : world -> B -> Prop) w r f, world_good w ->
  safe F (fun r => match r with POk i a => Q i a | _ => True end) r ->
  (forall i a, Q i a -> safe F (wgood w P) (f i a)) -> safe F (wgood w P) (wbind w r f).
Proof.
  intros A B F Q P w r f G H K. unfold wbind. eapply safe_bind; [exact H|]. intros [i a|ks|ks] Hr; [apply K, Hr| |].
  - exact (conj G (conj (grown_refl w) I)).
  - exact (conj G (conj (grown_refl w) I)).
Qed.

Lemma pgood_post : forall {A} F n (P : A -> Prop) r, safe False (pgood n P) r ->
  safe F (fun r => match r with POk i a => gspan i /\ sp_len i <= n /\ P a | _ => True end) r.
Proof. intros A F n P r H. eapply safe_weak; [exact H|tauto|]. intros [i a|ks|ks]; cbn; auto. Qed.

Lemma wgood_from : forall {A} F (P : world -> A -> Prop) w w1 r, grown w w1 -> safe F (wgood w1 P) r -> safe F (wgood w P) r.
Proof.
  intros A F P w w1 r G H. eapply safe_weak; [exact H|auto|]. intros [w2 x] (G2 & R2 & X). split; [exact G2|].
  split; [eapply grown_trans; eauto|exact X].
Qed.

Definition action_ok (a : var_action) : Prop :=
  match a with VDefine p => ast_ok (v_ast p) | VAppend a => ast_ok a end.
Definition vact_ok (w : world) (va : variable_action) : Prop :=
  N.to_nat (va_name va) < List.length (n_vars (w_names w)) /\ action_ok (va_action va).

Lemma assignment_action_ok : forall a v, ast_ok v -> action_ok (assignment_action a v).
Proof. intros [] v H; exact H. Qed.

Lemma vact_grown : forall w w' va, grown w w' -> vact_ok w va -> vact_ok w' va.
Proof. intros w w' va G (L & A). split; [eapply grown_id; eauto|exact A]. Qed.



Lemma state_grown : forall s w w', grown w w' -> state_ok s w -> state_ok s w'.
Proof. intros s w w' G (R & D). split; [exact R|]. intros d H. eapply grown_id; eauto. Qed.

Lemma state_new_ok : forall w, state_ok pstate_new w.
Proof. intros w. split; intros x H; discriminate. Qed.

Definition tact_ok (w : world) (ta : target_action) : Prop :=
  match ta with
  | TNoAction => True
  | TNewRule ts ds _ c => Forall wf_block ts /\ Forall wf_block ds /\ forall a, c = Some a -> ast_ok a
  | TTargetVariable ts va => Forall wf_block ts /\ vact_ok w va
  end.

Lemma wf_readable : forall bs, Forall wf_block bs -> Forall readable bs.
Proof. intros bs H. eapply Forall_impl; [|exact H]. intros b W. unfold readable. rewrite (block_into_string_ok b W). reflexivity. Qed.

Lemma intern_deps_vars : forall ds n acc n' dn, intern_deps n ds acc = Ok (n', dn) -> n_vars n' = n_vars n.
Proof.
  induction ds as [|d ds IH]; intros n acc n' dn E; cbn [intern_deps] in E; [inversion E; reflexivity|].
  destruct (block_into_string d) as [t| |]; cbn [bind] in E; try discriminate.
  unfold intern_file_name in E. destruct (get_or_intern t (n_files n)) as [l i]. apply IH in E. exact E.
Qed.

Lemma targets_vars : forall p dn ts n rules n' rules', protorule_targets p dn n rules ts = Ok (n', rules') -> n_vars n' = n_vars n.
Proof.
  intros p dn. induction ts as [|t ts IH]; intros n rules n' rules' E; cbn [protorule_targets] in E; [inversion E; reflexivity|].
  destruct (block_into_string t) as [s| |]; cbn [bind] in E; try discriminate.
  unfold intern_file_name in E. destruct (get_or_intern s (n_files n)) as [l i]. apply IH in E. exact E.
Qed.

Lemma from_protorule_vars : forall d n p n' d', from_protorule d n p = Ok (n', d') -> n_vars n' = n_vars n.
Proof.
  intros d n p n' d' E. unfold from_protorule in E.
  destruct (intern_deps n (pr_deps p) []) as [[n1 dn]| |] eqn:E1; cbn [bind] in E; try discriminate.
  destruct (protorule_targets p dn n1 (db_rules d) (pr_targets p)) as [[n2 rules]| |] eqn:E2; cbn [bind] in E; try discriminate.
  inversion E; subst. apply targets_vars in E2. apply intern_deps_vars in E1. congruence.
Qed.

Lemma close_rule_safe : forall s w, world_good w -> state_ok s w ->
  exists s' w', close_rule s w = Ok (s', w') /\ world_good w' /\ grown w w' /\ state_ok s' w' /\
    ps_rule s' = None /\ ps_define s' = ps_define s /\ ps_conds s' = ps_conds s /\ ps_ignoring s' = ps_ignoring s.
Proof.
  intros s w G (R & D). unfold close_rule. destruct (ps_rule s) as [r|].
  - destruct (R r eq_refl) as (RT & RD & _).
    destruct (from_protorule_ok (w_names w) (w_db w) r) as (n & d & E & Gr & Ro & Ev & Et & _).
    { split; apply wf_readable; assumption. } { apply G. }
    rewrite E. cbn [bind]. eexists _, _. split; [reflexivity|]. pose proof (from_protorule_vars _ _ _ _ _ E) as V.
    assert (Gw : grown w (World n d (w_cmd w))).
    { split; [exists []; cbn; now rewrite app_nil_r|]. split; [exact Gr|reflexivity]. }
    split; [|split; [exact Gw|]].
    + split; [|split; [exact Ro|apply G]]. intros id v H. cbn [w_db] in H. unfold get_variable in H. rewrite Ev in H.
      destruct (proj1 G id v H) as (L & A). split; [cbn; rewrite V; exact L|exact A].
    + split; [|auto]. split; [intros x H; discriminate|]. intros x H. cbn in H. cbn. rewrite V. apply D, H.
  - eexists _, _. split; [reflexivity|]. split; [exact G|]. split; [apply grown_refl|]. split; [|auto].
    split; [intros x H; discriminate|exact D].
Qed.

Definition rm_safe (F : Prop) (rm : world -> str -> str -> res (world * mresult)) : Prop :=
  forall w nm text, world_good w -> asciis text -> safe F (processed w) (rm w nm text).
Definition nothing (a : ast) : Prop := exists l, a = AEmpty l \/ a = AConcat l [].
Definition ev_empty (ev : world -> ast -> res (world * block)) : Prop :=
  forall w a w' b, nothing a -> ev w a = Ok (w', b) -> block_len b = 0.

Section Engine.
  Context (F : Prop) (ev : world -> ast -> res (world * block)) (Hev : ev_safe F ev) (Hemp : ev_empty ev).

  Lemma assign_safe : forall m w i, world_good w -> gspan i -> safe F (wgood w vact_ok) (parse_variable_assignment ev m w i).
  Proof.
    intros m w i G Gi. unfold parse_variable_assignment.
    eapply wbind_safe; [exact G|apply pgood_post, assignment_operator_safe, Gi|]. intros j [ns asg] (Gj & Lj & (Gn & _)). cbn [fst] in Gn.
    eapply wbind_safe; [exact G|apply pgood_post, ws_safe, Gj|]. intros vs q (Gv & _).
    eapply wbind_safe; [exact G|apply pgood_post, parse_ast_safe, Gn|]. intros k na (_ & _ & An).
    eapply wbind_safe; [exact G|apply pgood_post, parse_ast_safe, Gv|]. intros pv va (_ & _ & Av).
    eapply safe_bind; [apply Hev; eauto|]. intros [w1 nb] (G1 & R1 & W1). cbn [fst snd] in *.
    eapply safe_bind; [apply safe_false, into_string_safe, W1|]. intros t _.
    destruct (world_intern_variable w1 (trim t)) as [w2 id] eqn:E. destruct (intern_good _ _ _ _ E G1) as (G2 & R2 & L2).
    eapply safe_bind with (P := fun x => world_good (fst x) /\ grown w2 (fst x) /\ ast_ok (snd x)).
    - assert (D : safe F (fun x => world_good (fst x) /\ grown w2 (fst x) /\ ast_ok (snd x)) (Ok (w2, va)))
        by exact (conj G2 (conj (grown_refl w2) Av)).
      destruct asg; try exact D.
      eapply safe_bind; [apply Hev; eauto|]. intros [w3 cb] (G3 & R3 & W3). cbn [fst snd] in *.
      eapply safe_bind with (P := fun _ => True).
      { destruct (span_location vs) as [o| |] eqn:Sl; [exact I|exact I|exfalso; exact (span_location_fuel _ Sl)]. }
      intros o _. eapply safe_bind with (P := fun _ => True); [apply safe_unwrap; auto|]. intros loc _.
      exact (conj G3 (conj R3 W3)).
    - intros [w3 a] (G3 & R3 & A3). cbn [fst snd] in *. split; [exact G3|]. split; [eapply grown_trans; [exact R1|eapply grown_trans; eauto]|].
      cbn. split; [cbn; eapply grown_id; eauto|apply assignment_action_ok, A3].
  Qed.

  Lemma define_header_safe : forall m w i, world_good w -> gspan i -> safe F (wgood w vact_ok) (parse_define_header ev m w i).
  Proof.
    intros m w i G Gi. unfold parse_define_header.
    assert (Whole : safe F (wgood w vact_ok)
      (let* s := span_into_string i in
       let '(w, name) := world_intern_variable w (trim s) in
       let* rest := slice_from i (sp_len i) in
       wret w (POk rest (VariableAction name m (VDefine (VParams a_empty FlRecursive OrFile)))))).
    { rewrite (span_into_string_ok i (proj1 Gi)). cbn [bind].
      destruct (world_intern_variable w _) as [w2 id] eqn:E. destruct (intern_good _ _ _ _ E G) as (G2 & R2 & L2).
      eapply safe_bind; [apply safe_false, slice_from_safe, Gi|]. intros r _.
      split; [exact G2|]. split; [exact R2|]. split; [exact L2|exact I]. }
    eapply safe_bind; [apply safe_false, assignment_operator_safe, Gi|].
    intros [sx [ns asg]|ks|ks] H; [|exact Whole|exact Whole]. destruct H as (Gs & _ & (Gn & _)). cbn [fst] in Gn.
    eapply safe_bind; [apply safe_false, ws_safe, Gs|].
    intros [tr q|ks|ks] H; [|exact Whole|exact Whole]. destruct (sp_len tr =? 0); [|exact Whole].
    eapply wbind_safe; [exact G|apply pgood_post, parse_ast_safe, Gn|]. intros k na (_ & _ & An).
    eapply safe_bind; [apply Hev; eauto|]. intros [w1 nb] (G1 & R1 & W1). cbn [fst snd] in *.
    eapply safe_bind; [apply safe_false, into_string_safe, W1|]. intros t _.
    destruct (world_intern_variable w1 (trim t)) as [w2 id] eqn:E. destruct (intern_good _ _ _ _ E G1) as (G2 & R2 & L2).
    split; [exact G2|]. split; [eapply grown_trans; eauto|]. split; [exact L2|apply assignment_action_ok; exact I].
  Qed.

  Lemma variable_loop_safe : forall fuel m w i, world_good w -> gspan i -> sp_len i < fuel ->
    safe F (wgood w vact_ok) (variable_loop ev fuel m w i).
  Proof.
    induction fuel as [|fuel IH]; intros m w i G Gi L; [lia|]. cbn [variable_loop].
    eapply safe_bind; [apply assign_safe; eauto|]. intros [w1 r] (G1 & R1 & Hr). cbn [fst snd] in *.
    match goal with |- safe _ _ (match r with POk _ _ => _ | PError ks => if _ then _ else ?n | PFailure _ => _ end) =>
      assert (Next : safe F (wgood w vact_ok) n) end.
    { eapply safe_bind; [apply safe_false, modifier_keyword_safe, Gi|]. intros [j md|ks|ks] H;
        [|exact (conj G1 (conj R1 I))|exact (conj G1 (conj R1 I))].
      destruct H as (Gj & Lj & Li). destruct md; try exact I;
        (eapply wgood_from; [exact R1|]); [apply IH; auto; lia|apply IH; auto; lia|apply IH; auto; lia|apply define_header_safe; auto]. }
    destruct r as [j va|ks|ks].
    - exact (conj G1 (conj R1 Hr)).
    - destruct (is_unterminated _); [exact (conj G1 (conj R1 I))|exact Next].
    - destruct (is_unterminated _); [exact (conj G1 (conj R1 I))|exact Next].
  Qed.

  Lemma variable_line_safe : forall w i, world_good w -> gspan i -> safe F (wgood w vact_ok) (variable_parse_line ev w i).
  Proof.
    intros w i G Gi. unfold variable_parse_line. eapply wbind_safe; [exact G|apply pgood_post, ws_safe, Gi|]. intros j q (Gj & _).
    destruct (sp_len j =? 0); [exact (conj G (conj (grown_refl w) I))|]. apply variable_loop_safe; auto.
  Qed.

  Lemma expand_segment_safe : forall {B} (P : world -> B -> Prop) w seg k, world_good w -> gspan seg ->
    (forall w1 b, world_good w1 -> grown w w1 -> wf_block b -> (sp_len seg = 0 -> block_len b = 0) -> safe F (wgood w1 P) (k w1 b)) ->
    safe F (wgood w P) (expand_segment ev w seg k).
  Proof.
    intros B P w seg k G Gs K. unfold expand_segment.
    eapply wbind_safe with (Q := fun _ a => ast_ok a /\ (sp_len seg = 0 -> nothing a)); [exact G| |].
    - destruct (sp_len seg) eqn:L.
      + unfold parse_ast. rewrite L. cbn [parse_ast_fuel]. unfold parse_ast_step.
        destruct (span_location seg) as [[st|]| |] eqn:Sl; cbn [bind]; [|exact (conj I (fun _ => ex_intro _ _ (or_introl eq_refl)))|exact I|destruct (span_location_fuel _ Sl)].
        rewrite L. cbn [parse_ast_loop]. rewrite L. cbn [Nat.ltb Nat.leb pbind bind pok]. exact (conj I (fun _ => ex_intro _ _ (or_intror eq_refl))).
      + eapply safe_weak with (F := False); [apply parse_ast_safe, Gs|tauto|]. intros [i a|ks|ks]; cbn; auto.
        intros (_ & _ & A). split; [exact A|discriminate].
    - intros i a (A & Em). destruct (ev w a) as [[w1 b]| |] eqn:E.
      + pose proof (Hev w a G A) as H. rewrite E in H. destruct H as (G1 & R1 & W1). cbn [fst snd bind] in *.
        eapply wgood_from; [exact R1|]. apply K; auto. intros L. eapply Hemp; [exact (Em L)|exact E].
      + exact I.
      + pose proof (Hev w a G A) as H. rewrite E in H. exact H.
  Qed.

  Definition split_ok (ts : target_split) : Prop :=
    match ts with
    | TsLine pre ac ln ps _ => wf_block pre /\ (forall b, ac = Some b -> wf_block b) /\ gspan ln /\ (forall b, ps = Some b -> wf_block b)
    | TsConsumed => True
    end.

  Lemma target_loop_safe : forall fuel w ln mw ps pre, world_good w -> gspan ln -> gspan mw ->
    (forall b, ps = Some b -> wf_block b) -> wf_block pre ->
    2 + sp_len ln <= fuel \/ (1 <= fuel /\ sp_len mw = 0) ->
    safe F (wgood w (fun _ => split_ok)) (target_loop ev fuel w ln mw ps pre).
  Proof.
    induction fuel as [|fuel IH]; intros w ln mw ps pre G Gl Gm Wps Wpre Hf; [lia|]. cbn [target_loop].
    apply expand_segment_safe; [exact G|exact Gm|]. intros w1 nc G1 R1 Wn En.
    assert (After : forall w2 ln2 ps2 nc2, world_good w2 -> gspan ln2 -> sp_len ln2 <= sp_len ln ->
      (forall b, ps2 = Some b -> wf_block b) -> wf_block nc2 -> block_len nc2 = 0 \/ 2 + sp_len ln <= Datatypes.S fuel ->
      safe F (wgood w2 (fun _ => split_ok))
        (if block_len nc2 =? 0 then wret w2 (POk ln2 TsConsumed)
         else
           let* '(content, colon) := find_non_drivespec_colon (block_span nc2) in
           match colon with
           | Some post =>
               let* after_colon := to_new_block post in
               let* pre_colon := push_word pre content in
               wret w2 (POk ln2 (TsLine pre_colon (Some after_colon) ln2 ps2 false))
           | None =>
               wbind w2 (next_mword ln2) (fun line_next out =>
               let '(mw, mwt) := out in
               match mwt with
               | MwEOL => wret w2 (POk line_next (TsLine pre None line_next ps2 true))
               | _ =>
                   let* pre_colon := push_word pre content in
                   target_loop ev fuel w2 line_next mw ps2 pre_colon
               end)
           end)).
    { intros w2 ln2 ps2 nc2 G2 Gl2 Ll2 Wp2 Wn2 Hz. destruct (block_len nc2 =? 0) eqn:Z; [exact (conj G2 (conj (grown_refl w2) I))|].
      apply Nat.eqb_neq in Z. destruct Hz as [Hz|Hz]; [lia|].
      eapply safe_bind.
      { apply safe_false, drivespec_safe; [apply block_gspan, Wn2|lia|apply block_empty_wf]. }
      intros [content colon] (Wc & Hc). cbn [fst snd] in *. destruct colon as [post|].
      - eapply safe_bind; [apply safe_false, to_new_block_safe, Hc; reflexivity|]. intros ac (Wac & _).
        eapply safe_bind; [apply safe_false, push_word_safe; eauto|]. intros pc Wpc.
        split; [exact G2|]. split; [apply grown_refl|]. split; [exact Wpc|]. split; [intros b H; inversion H; subst; exact Wac|]. split; auto.
      - eapply wbind_safe; [exact G2|eapply safe_weak with (F := False); [apply next_mword_safe, Gl2|tauto|intros r H; exact H]|].
        intros ln3 [mw3 mwt] (Gl3 & Gm3 & Ll3 & Hs). cbn [fst] in *.
        assert (Rec : safe F (wgood w2 (fun _ => split_ok))
                  (let* pre_colon := push_word pre content in target_loop ev fuel w2 ln3 mw3 ps2 pre_colon)).
        { eapply safe_bind; [apply safe_false, push_word_safe; eauto|]. intros pc Wpc. apply IH; auto. lia. }
        destruct mwt; try exact Rec.
        split; [exact G2|]. split; [apply grown_refl|]. split; [exact Wpre|]. split; [intros b H; discriminate|]. split; auto. }
    assert (Hz : block_len nc = 0 \/ 2 + sp_len ln <= Datatypes.S fuel) by (destruct Hf as [Hf|(Hf & Z)]; [right; lia|left; auto]).
    destruct ps as [pb|]; [apply After; auto|].
    eapply safe_bind; [apply safe_false, unquote_safe; [reflexivity|reflexivity|apply block_gspan, Wn]|].
    intros [pre2 r] (Wp2 & Hr). cbn [fst snd] in *. destruct r as [[c post]|]; [|apply After; auto].
    destruct Hr as (_ & Gp & Lp). rewrite block_len_span in Lp.
    eapply safe_bind; [apply safe_false, to_new_block_safe, Gp|]. intros pc (Wpc & _).
    apply expand_segment_safe; [exact G1|exact Gl|]. intros w2 rest G2 R2 Wr _.
    eapply safe_bind; [apply safe_false, push_safe; [exact Wpc|apply block_gspan, Wr]|]. intros pc2 (Wpc2 & _).
    eapply safe_bind; [apply safe_false, slice_from_safe, Gl|]. intros ln2 (Gl2 & _ & Ll2).
    apply After; auto; [lia|intros b H; inversion H; subst; exact Wpc2|lia].
  Qed.

  Lemma semicolon_wf : wf_cref cr_semicolon.
  Proof. cbn. ands; try lia. repeat constructor. Qed.

  Lemma target_finish_safe : forall w rest pre ac ln ps, world_good w -> gspan rest -> wf_block pre ->
    (forall b, ac = Some b -> wf_block b) -> gspan ln -> (forall b, ps = Some b -> wf_block b) ->
    safe F (wgood w tact_ok) (target_finish ev w rest pre ac ln ps).
  Proof.
    intros w rest pre ac ln ps G Gr Wpre Wac Gl Wps. unfold target_finish.
    destruct (file_seq_safe (block_span pre) false [] (block_gspan _ Wpre)) as (targets & E & Wt); [intros []|].
    rewrite E. cbn [bind]. destruct ac as [ac|]; cbn [unwrap bind]; [|exact I]. specialize (Wac ac eq_refl).
    eapply safe_bind; [apply safe_false, push_safe; [apply block_empty_wf|apply block_gspan, Wac]|]. intros b1 (W1 & _).
    eapply safe_bind; [apply safe_false, push_safe; [exact W1|exact Gl]|]. intros b2 (W2 & _).
    eapply safe_bind with (P := fun b => wf_block b /\ block_len b2 <= block_len b).
    { destruct ps as [p|]; [|cbn; split; [exact W2|lia]]. specialize (Wps p eq_refl).
      assert (W3 : wf_block (block_push b2 cr_semicolon)).
      { unfold wf_block in *. cbn. apply Forall_app. split; [exact W2|]. constructor; [exact semicolon_wf|constructor]. }
      eapply safe_weak with (F := False); [apply push_safe; [exact W3|apply block_gspan, Wps]|tauto|].
      intros b (Wb & Lb). split; [exact Wb|]. rewrite Lb. unfold block_len at 2. cbn [b_content block_push]. rewrite sum_len_app.
      unfold block_len at 1. lia. }
    intros b3 (W3 & L3).
    assert (G3 := block_gspan b3 W3).
    eapply safe_bind with (P := fun r => match r with POk i _ => gspan i /\ sp_len i = block_len b3 - 1 | _ => True end).
    { destruct (tag [c_colon] (block_span b3)) as [[i a|ks|ks]| |] eqn:T; try exact I.
      - destruct (tag_rest [c_colon] (block_span b3) i a ltac:(repeat constructor) G3 T) as (L & _ & Gi & _).
        cbn. rewrite block_len_span in L. split; [exact Gi|exact L].
      - pose proof (tag_safe [c_colon] ltac:(repeat constructor) (block_span b3) G3) as H. rewrite T in H. destruct H. }
    intros r Hr. eapply safe_bind with (P := fun x => gspan (fst (fst x)) /\ snd x <= sp_len (fst (fst x))).
    { assert (D : safe F (fun x : span * bool * nat => gspan (fst (fst x)) /\ snd x <= sp_len (fst (fst x))) (Ok (block_span b3, false, block_len b2))).
      { split; cbn [fst snd]; [exact G3|rewrite block_len_span; exact L3]. }
      destruct r as [i a|ks|ks]; try exact D. destruct Hr as (Gi & Li).
      eapply safe_bind with (P := fun n => n = block_len b2 - 1); [apply safe_usub; auto|]. intros n ->. cbn [safe fst snd].
      split; [exact Gi|lia]. }
    intros [[slice dc] psl] (Gs & Ls). cbn [fst snd] in *.
    eapply safe_bind; [apply variable_line_safe; eauto|]. intros [w1 r1] (G1 & R1 & Hr1). cbn [fst snd] in *.
    match goal with |- safe _ _ (match r1 with POk _ _ => _ | PError _ => ?n | PFailure _ => _ end) =>
      assert (Next : safe F (wgood w tact_ok) n) end.
    { eapply safe_bind with (P := fun o => forall s, o = Some s -> gspan s).
      { destruct (psl <? sp_len slice); [|cbn; intros s H; discriminate].
        eapply safe_bind; [apply safe_false, slice_from_safe, Gs|]. intros s (Gss & _). cbn. intros s' H. inversion H; subst. exact Gss. }
      intros ops Hops. eapply wgood_from; [exact R1|].
      apply expand_segment_safe; [exact G1|apply slice_to_gspan; [exact Gs|exact Ls]|]. intros w2 psb G2 R2 W4 _.
      eapply safe_bind with (P := fun x => wf_block (fst x) /\ forall b, snd x = Some b -> wf_block b).
      { destruct ops as [s|].
        - eapply safe_bind; [apply safe_false, to_new_block_safe, Hops; reflexivity|]. intros b (Wb & _). cbn.
          split; [exact W4|]. intros b' H. inversion H; subst. exact Wb.
        - eapply safe_bind; [apply safe_false, unquote_safe; [reflexivity|reflexivity|apply block_gspan, W4]|].
          intros [pre2 rr] (Wp2 & Hrr). cbn [fst snd] in *. destruct rr as [[c post]|]; [|cbn; split; [exact Wp2|intros b H; discriminate]].
          destruct Hrr as (_ & Gp & _). eapply safe_bind; [apply safe_false, to_new_block_safe, Gp|]. intros b (Wb & _). cbn.
          split; [exact Wp2|]. intros b' H. inversion H; subst. exact Wb. }
      intros [pb qb] (Wpb & Wqb). cbn [fst snd] in *.
      eapply wbind_safe with (Q := fun _ o => forall a, o = Some a -> ast_ok a); [exact G2| |].
      { destruct qb as [content|]; [|cbn; intros a H; discriminate]. unfold pbind. eapply safe_bind.
        - apply safe_false, parse_ast_safe, block_gspan, Wqb; reflexivity.
        - intros [i a|ks|ks] H; try exact I. destruct H as (_ & _ & A). cbn. intros a' X. inversion X; subst. exact A. }
      intros _ cmd Hcmd. rewrite (span_indices_ok _ (proj1 (block_gspan pb Wpb))).
      destruct (second_colon _ false 0) as [[c|]| |] eqn:Sc; cbn [bind]; try exact I; [|destruct (second_colon_fuel _ _ _ Sc)].
      destruct (file_seq_safe (block_span pb) false [c_colon] (block_gspan _ Wpb)) as (deps & E2 & Wd).
      { intros [H|[]]. discriminate. }
      rewrite E2. cbn [bind]. split; [exact G2|]. split; [apply grown_refl|]. split; [exact Wt|]. split; [exact Wd|exact Hcmd]. }
    destruct r1 as [i va|ks|ks]; [|exact Next|exact Next].
    split; [exact G1|]. split; [exact R1|]. split; [exact Wt|exact Hr1].
  Qed.

  Lemma target_line_safe : forall w i, world_good w -> gspan i -> safe F (wgood w tact_ok) (target_parse_line ev w i).
  Proof.
    intros w i G Gi. unfold target_parse_line. destruct (line_safe GNU false i Gi) as (rest & line & E & Gr & Wl & _).
    rewrite E. unfold wbind at 1. cbn [bind].
    eapply safe_bind; [apply safe_false, unquote_safe; [reflexivity|reflexivity|apply block_gspan, Wl]|].
    intros [ln r] (Wln & Hr). cbn [fst snd] in *.
    eapply safe_bind with (P := fun o => forall s, o = Some s -> gspan s).
    { destruct r as [[c post]|]; [|cbn; intros s H; discriminate]. destruct Hr as (Gc & Gp & _).
      destruct (first_char_ok' c Gc) as (o & Eo). rewrite Eo. cbn [bind]. cbn. intros s H.
      destruct o as [ch|]; [destruct (ch =? c_hash)%N; [discriminate|]|]; inversion H; subst; exact Gp. }
    intros semip Hs. eapply safe_bind with (P := fun o => forall b, o = Some b -> wf_block b).
    { destruct semip as [s|]; [|cbn; intros b H; discriminate].
      eapply safe_bind; [apply safe_false, to_new_block_safe, Hs; reflexivity|]. intros b (Wb & _). cbn. intros b' H. inversion H; subst. exact Wb. }
    intros ps Wps. eapply wbind_safe; [exact G|eapply safe_weak with (F := False); [apply next_mword_safe, block_gspan, Wln|tauto|intros x H; exact H]|].
    intros ln2 [mw mwt] (Gl2 & Gmw & Ll2 & _). cbn [fst] in *.
    assert (D : safe F (wgood w tact_ok) (wret w (POk rest TNoAction))) by exact (conj G (conj (grown_refl w) I)).
    assert (K : safe F (wgood w tact_ok)
      (let* '(w, r) := target_loop ev (Datatypes.S (Datatypes.S (sp_len ln2))) w ln2 mw ps block_empty in
        match r with
        | PError ks => wret w (PError ks)
        | PFailure ks => wret w (PFailure ks)
        | POk _ TsConsumed => wret w (POk rest TNoAction)
        | POk _ (TsLine pre_colon after_colon line_next post_semi eol) =>
            if eol then
              let* r := makefile_whitespace (block_span pre_colon) in
              match r with
              | POk after_space _ =>
                  if sp_len after_space =? 0 then wret w (POk rest TNoAction)
                  else wret w (PFailure [KCustom MissingSeparator])
              | _ => Panic
              end
            else target_finish ev w rest pre_colon after_colon line_next post_semi
        end)).
    { eapply safe_bind; [apply target_loop_safe; [exact G|exact Gl2|exact Gmw|exact Wps|apply block_empty_wf|left; cbn; lia]|].
      intros [w1 r1] (G1 & R1 & H1). cbn [fst snd] in *. destruct r1 as [j ts|ks|ks]; try exact (conj G1 (conj R1 I)).
      destruct ts as [pre ac ln3 ps3 eol|]; [|exact (conj G1 (conj R1 I))]. destruct H1 as (Wp & Wac & Gl3 & Wps3). destruct eol.
      - destruct (whitespace_marks _ (proj1 (block_gspan _ Wp))) as (a & q & Ew & _). rewrite Ew. cbn [bind].
        destruct (sp_len a =? 0); exact (conj G1 (conj R1 I)).
      - eapply wgood_from; [exact R1|]. apply target_finish_safe; auto. }
    destruct mwt; try exact K; try exact D. destruct ps; [exact (conj G (conj (grown_refl w) I))|exact D].
  Qed.

  Definition hgood (w : world) (x : pstate * world * hresult) : Prop :=
    world_good (snd (fst x)) /\ grown w (snd (fst x)) /\ state_ok (fst (fst x)) (snd (fst x)).

  Lemma set_vars_good : forall w id v d, world_good w -> N.to_nat id < List.length (n_vars (w_names w)) -> ast_ok (v_ast v) ->
    d = Db (mset id v (db_vars (w_db w))) (db_tvars (w_db w)) (db_rules (w_db w)) -> world_good (set_db w d) /\ grown w (set_db w d).
  Proof.
    intros w id v d (Ok & R & C) L A ->. split; [|split; [exists []; cbn; now rewrite app_nil_r|split; [apply grows_refl|reflexivity]]].
    split; [|split; [exact R|exact C]]. intros id' v' H. unfold get_variable in H. cbn [w_db set_db db_vars] in H.
    cbn [w_names set_db]. destruct (N.eq_dec id' id) as [->|D].
    - rewrite mget_mset_same in H. inversion H; subst. auto.
    - rewrite mget_mset_other in H by exact D. exact (Ok id' v' H).
  Qed.

  Lemma concat_fold : forall ns, Forall ast_ok ns -> fold_right (fun n P => ast_ok n /\ P) True ns.
  Proof. intros ns H. induction H; cbn; auto. Qed.

  Lemma collapsing_ok : forall l v, Forall ast_ok v -> ast_ok (collapsing_concat l v).
  Proof.
    intros l v H. unfold collapsing_concat.
    assert (Fv : Forall ast_ok (filter a_nonempty v)).
    { apply Forall_forall. intros x Hx. apply filter_In in Hx as (Hx & _). rewrite Forall_forall in H. auto. }
    destruct (filter a_nonempty v) as [|a [|b t]]; [exact I|inversion Fv; assumption|]. cbn [ast_ok]. apply concat_fold. exact Fv.
  Qed.

  Lemma append_good : forall w id loc v sp, world_good w -> N.to_nat id < List.length (n_vars (w_names w)) -> ast_ok (v_ast v) ->
    world_good (set_db w (append_to_variable (w_db w) id loc v sp)) /\ grown w (set_db w (append_to_variable (w_db w) id loc v sp)).
  Proof.
    intros w id loc v sp G L A. eapply set_vars_good; [exact G|exact L| |reflexivity].
    destruct (mget id (db_vars (w_db w))) as [old|] eqn:E; [|exact A]. cbn [v_ast]. unfold append_value.
    assert (Ao : ast_ok (v_ast old)) by (apply (proj1 G id old); exact E).
    apply collapsing_ok. assert (As : ast_ok a_space) by (vm_compute; repeat constructor).
    destruct sp; auto.
  Qed.

  Lemma variable_action_safe : forall s w va, world_good w -> state_ok s w -> vact_ok w va ->
    safe F (hgood w) (handle_global_variable_action s w va).
  Proof.
    intros s w va G S (L & A). unfold handle_global_variable_action. destruct (_ || _); [exact I|].
    eapply safe_bind with (P := fun s' => state_ok s' w).
    { destruct (m_define (va_mods va)); [|exact S]. eapply safe_bind with (P := fun _ => True); [apply safe_rassert; auto|].
      intros _ _. cbn. destruct S as (R & D). split; [exact R|]. intros d H. cbn in H. inversion H; subst. exact L. }
    intros s' S'. destruct (va_action va) as [p|a]; cbn in A.
    - destruct (set_vars_good w (va_name va) p (set_variable (w_db w) (va_name va) p) G L A eq_refl) as (G1 & R1).
      split; [exact G1|]. split; [exact R1|eapply state_grown; eauto].
    - destruct (append_good w (va_name va) (ast_location a) (VParams a FlRecursive OrFile) true G L A) as (G1 & R1).
      split; [exact G1|]. split; [exact R1|eapply state_grown; eauto].
  Qed.

  Lemma define_action_safe : forall s w dl, world_good w -> state_ok s w -> ast_ok (dl_content dl) ->
    safe F (hgood w) (handle_define_line s w dl).
  Proof.
    intros s w dl G S A. unfold handle_define_line. destruct (ps_define s) as [d|] eqn:D; cbn [unwrap bind]; [|exact I].
    assert (L := proj2 S d D).
    assert (App : forall n, safe F (hgood w) (Ok (PState (ps_conds s) (ps_ignoring s) (ps_rule s) (Some (DefineState (ds_var d) n)),
      set_db w (append_to_variable (w_db w) (ds_var d) (dl_location dl) (VParams (dl_content dl) FlRecursive OrFile) false), HOk))).
    { intros n. destruct (append_good w (ds_var d) (dl_location dl) (VParams (dl_content dl) FlRecursive OrFile) false G L A) as (G1 & R1).
      split; [exact G1|]. split; [exact R1|]. destruct S as (R & _). split; [exact R|]. intros d' H. cbn in H. inversion H; subst. exact L. }
    destruct (dl_action dl); try apply App. eapply safe_bind with (P := fun _ => True); [apply safe_usub; auto|]. intros n _.
    destruct (n =? 0); [|apply App]. split; [exact G|]. split; [apply grown_refl|]. destruct S as (R & _). split; [exact R|]. intros d' H; discriminate.
  Qed.

  Lemma push_command_safe : forall s w a, state_ok s w -> ast_ok a -> safe F (fun s' => state_ok s' w) (push_command_line s a).
  Proof.
    intros s w a (R & D) A. unfold push_command_line. destruct (ps_rule s) as [r|]; cbn [unwrap bind]; [|exact I].
    destruct (R r eq_refl) as (Rt & Rd & Rr). split; [|exact D]. intros r' H. cbn in H. inversion H; subst.
    split; [exact Rt|]. split; [exact Rd|]. cbn. apply Forall_app. auto.
  Qed.

  Lemma target_action_safe : forall s w ta, world_good w -> state_ok s w -> tact_ok w ta ->
    safe F (hgood w) (handle_target_action s w ta).
  Proof.
    intros s w ta G S T. destruct ta as [|ts ds dc c|ts va]; cbn [handle_target_action].
    - exact (conj G (conj (grown_refl w) S)).
    - destruct T as (Wt & Wd & Ac). eapply safe_bind with (P := fun s' => state_ok s' w).
      + match goal with |- safe _ _ (match c with Some _ => push_command_line ?s' _ | None => _ end) => assert (S1 : state_ok s' w) end.
        { split; [|exact (proj2 S)]. intros r H. cbn in H. inversion H; subst. cbn. split; [exact Wt|]. split; [exact Wd|constructor]. }
        destruct c as [a|]; [apply push_command_safe; auto|exact S1].
      + intros s' S'. exact (conj G (conj (grown_refl w) S')).
    - exact I.
  Qed.

  Lemma conditional_action_safe : forall s w c, world_good w -> state_ok s w -> cond_ok c ->
    safe F (hgood w) (handle_conditional ev s w c).
  Proof.
    intros s w c G S C.
    assert (Eq : forall a b (f : bool -> bool), ast_ok a -> ast_ok b -> safe F (hgood w)
      (let* '(w, a) := ev w a in
       let* '(w, b) := ev w b in
       let* a := block_into_string a in
       let* b := block_into_string b in
       Ok (update_ignoring (PState (CondState (f (str_eqb (trim a) (trim b))) false :: ps_conds s) (ps_ignoring s) (ps_rule s) (ps_define s)), w, HOk))).
    { intros a b f A B. eapply safe_bind; [apply Hev; eauto|]. intros [w1 ba] (G1 & R1 & W1). cbn [fst snd] in *.
      eapply safe_bind; [apply Hev; eauto|]. intros [w2 bb] (G2 & R2 & W2). cbn [fst snd] in *.
      eapply safe_bind; [apply safe_false, into_string_safe, W1|]. intros ta _.
      eapply safe_bind; [apply safe_false, into_string_safe, W2|]. intros tb _.
      split; [exact G2|]. assert (R : grown w w2) by (eapply grown_trans; eauto). split; [exact R|].
      apply (state_grown s w w2 R) in S. exact S. }
    destruct c as [a|a|a b|a b|o|]; cbn [handle_conditional]; try exact I.
    - apply (Eq a b (fun e => e)); apply C.
    - apply (Eq a b negb); apply C.
    - destruct o; [exact I|]. destruct (ps_conds s) as [|[ex se] cs]; [exact (conj G (conj (grown_refl w) S))|].
      destruct se; exact (conj G (conj (grown_refl w) S)).
    - destruct (ps_conds s) as [|x cs]; exact (conj G (conj (grown_refl w) S)).
  Qed.

  Context (rm : world -> str -> str -> res (world * mresult)) (Hrm : rm_safe F rm).
  Context (fs : str -> file) (Hfs : ascii_files fs).

  Definition included (w : world) (x : world * hresult) : Prop := world_good (fst x) /\ grown w (fst x).

  Lemma include_safe : forall files w soft, world_good w -> Forall wf_block files ->
    safe F (included w) (include_files rm fs w soft files).
  Proof.
    induction files as [|f files IH]; intros w soft G W; cbn [include_files]; [exact (conj G (grown_refl w))|].
    inversion W as [|? ? Wf Ws]; subst. eapply safe_bind; [apply safe_false, into_string_safe, Wf|]. intros t _.
    destruct (fs t) as [k|k|text] eqn:E.
    - destruct soft; [apply IH; auto|exact (conj G (grown_refl w))].
    - exact (conj G (grown_refl w)).
    - eapply safe_bind; [apply Hrm; [exact G|eapply Hfs; exact E]|]. intros [w1 r] (G1 & R1). cbn [fst snd] in *.
      destruct r; [|exact (conj G1 R1)|exact (conj G1 R1)].
      eapply safe_weak; [apply IH; auto|auto|]. intros [w2 h] (G2 & R2). split; [exact G2|eapply grown_trans; eauto].
  Qed.

  Lemma directive_action_safe : forall s w d, world_good w -> state_ok s w -> directive_ok d ->
    safe F (hgood w) (handle_directive_action ev rm fs s w d).
  Proof.
    intros s w d G S D.
    assert (K : forall a soft, ast_ok a -> safe F (hgood w) (let* '(w, r) := handle_include ev rm fs w a soft in Ok (s, w, r))).
    { intros a soft A. eapply safe_bind with (P := included w).
      - unfold handle_include. eapply safe_bind; [apply Hev; eauto|]. intros [w1 b] (G1 & R1 & W1). cbn [fst snd] in *.
        destruct (file_seq_safe (block_span b) false [] (block_gspan _ W1)) as (fl & E & Wf); [intros []|]. rewrite E. cbn [bind].
        eapply safe_weak; [apply include_safe; auto|auto|]. intros [w2 h] (G2 & R2). split; [exact G2|eapply grown_trans; eauto].
      - intros [w1 r] (G1 & R1). cbn [fst snd] in *. split; [exact G1|]. split; [exact R1|eapply state_grown; eauto]. }
    destruct d; try exact I; apply K; exact D.
  Qed.

  (** The outcome of parsing one line. *)
  Definition lgood (w : world) (n : nat) (x : pstate * world * presult unit) : Prop :=
    world_good (snd (fst x)) /\ grown w (snd (fst x)) /\ state_ok (fst (fst x)) (snd (fst x)) /\
    match snd x with POk j _ => gspan j /\ sp_len j < n | _ => True end.

  Lemma lgood_from : forall w w1 n r, grown w w1 -> safe F (lgood w1 n) r -> safe F (lgood w n) r.
  Proof.
    intros w w1 n r G H. eapply safe_weak; [exact H|auto|]. intros x (A & B & C & D). split; [exact A|].
    split; [eapply grown_trans; eauto|]. split; [exact C|exact D].
  Qed.

  Lemma run_safe : forall {A} s w i n (r : presult A) cleanup next, world_good w -> state_ok s w ->
    (forall j a, r = POk j a -> safe F (hgood w) (cleanup a) /\ gspan i /\ sp_len i < n) ->
    (forall ks, r = PError ks -> safe F (lgood w n) (next tt)) -> safe F (lgood w n) (run_parser s w i r cleanup next).
  Proof.
    intros A s w i n r cleanup next G S Hc Hn. destruct r as [j a|ks|ks]; cbn [run_parser].
    - destruct (Hc j a eq_refl) as (Hs & Gi & Li). eapply safe_bind; [exact Hs|]. intros [[s1 w1] h] (G1 & R1 & S1). cbn [fst snd] in *.
      destruct h; [exact (conj G1 (conj R1 (conj S1 (conj Gi Li))))|exact (conj G1 (conj R1 (conj S1 I)))].
    - exact (Hn ks eq_refl).
    - exact (conj G (conj (grown_refl w) (conj S I))).
  Qed.

  Lemma closed_safe : forall s w (f : pstate -> world -> res (pstate * world * hresult)), world_good w -> state_ok s w ->
    (forall s' w', world_good w' -> grown w w' -> state_ok s' w' -> safe F (hgood w') (f s' w')) ->
    safe F (hgood w) (let* '(s, w) := close_rule s w in f s w).
  Proof.
    intros s w f G S K. destruct (close_rule_safe s w G S) as (s' & w' & E & G' & R' & S' & _). rewrite E. cbn [bind].
    eapply safe_weak; [apply K; eauto|auto|]. intros x (A & B & C). split; [exact A|]. split; [eapply grown_trans; eauto|exact C].
  Qed.

  Lemma active_safe : forall s w i line n, world_good w -> state_ok s w -> gspan i -> sp_len i < n -> wf_block line ->
    safe F (lgood w n) (parse_active_line ev rm fs s w i line).
  Proof.
    intros s w i line n G S Gi Li Wl. unfold parse_active_line. assert (Gb := block_gspan line Wl).
    eapply safe_bind; [apply variable_line_safe; eauto|]. intros [w1 r] (G1 & R1 & Hr). cbn [fst snd] in *.
    eapply lgood_from; [exact R1|]. assert (S1 := state_grown _ _ _ R1 S).
    apply run_safe; auto.
    - intros j va ->. cbn in Hr. split; [|auto]. apply closed_safe; auto. intros s' w' G' R' S'.
      apply variable_action_safe; auto. eapply vact_grown; eauto.
    - intros ks _. eapply safe_bind; [apply safe_false, directive_safe, Gb|]. intros rd Hd.
      apply run_safe; auto.
      + intros j d ->. split; [|auto]. apply closed_safe; auto. intros s' w' G' R' S'. apply directive_action_safe; auto. apply Hd.
      + intros ks' _. destruct (first_char_ok' _ Gb) as (o & Eo). rewrite Eo. cbn [bind].
        destruct (match o with Some c => (c =? w_cmd w1)%N | None => false end); [exact (conj G1 (conj (grown_refl w1) (conj S1 I)))|].
        eapply safe_bind; [apply target_line_safe; eauto|]. intros [w2 rt] (G2 & R2 & Ht). cbn [fst snd] in *.
        eapply lgood_from; [exact R2|]. assert (S2 := state_grown _ _ _ R2 S1). apply run_safe; auto.
        * intros j ta ->. cbn in Ht. split; [|auto]. apply closed_safe; auto. intros s' w' G' R' S'. apply target_action_safe; auto.
          destruct ta; cbn in *; auto. destruct Ht as (Wt & V). split; [exact Wt|eapply vact_grown; eauto].
        * intros ks2 _. exact (conj G2 (conj (grown_refl w2) (conj S2 (conj Gi Li)))).
  Qed.

  Lemma collapsed_safe : forall s w i, world_good w -> state_ok s w -> gspan i -> 0 < sp_len i -> no_hash_first i ->
    safe F (lgood w (sp_len i)) (parse_collapsed_line ev rm fs s w i).
  Proof.
    intros s w i G S Gi L N. unfold parse_collapsed_line. destruct (line_safe GNU true i Gi) as (r & line & E & Gr & Wl & _ & Lt).
    rewrite E. cbn [bind]. specialize (Lt L N).
    destruct (block_len line =? 0); [exact (conj G (conj (grown_refl w) (conj S (conj Gr Lt))))|].
    eapply safe_bind; [apply safe_false, conditional_safe, block_gspan, Wl|]. intros rc Hc. apply run_safe; auto.
    - intros j c ->. split; [|auto]. apply conditional_action_safe; auto. apply Hc.
    - intros ks _. destruct (ps_ignoring s); [exact (conj G (conj (grown_refl w) (conj S (conj Gr Lt))))|].
      apply active_safe; auto.
  Qed.

  Lemma line_step_safe : forall s w i, world_good w -> state_ok s w -> gspan i -> 0 < sp_len i ->
    safe F (lgood w (sp_len i)) (parse_line ev rm fs s w i).
  Proof.
    intros s w i G S Gi L. unfold parse_line.
    destruct (comment_safe i Gi) as [(r & E & Gr & Lr)|(ks & E & N)]; rewrite E; cbn [bind run_parser rest_of].
    - exact (conj G (conj (grown_refl w) (conj S (conj Gr Lr)))).
    - destruct (ps_rule s) as [pr|] eqn:R.
      + eapply safe_bind; [apply safe_false, recipe_line_safe; [apply G|exact Gi]|]. intros rr Hr. apply run_safe; auto.
        * intros j a ->. destruct Hr as (Gj & Lj & A). split; [|auto]. eapply safe_bind; [apply push_command_safe; eauto|].
          intros s' S'. exact (conj G (conj (grown_refl w) S')).
        * intros ks' _. apply collapsed_safe; auto.
      + destruct (ps_define s) as [d|] eqn:D.
        * eapply safe_bind; [apply safe_false, define_line_safe; eauto|]. intros rd Hd. apply run_safe; auto.
          -- intros j dl ->. destruct Hd as (Gj & Lj & A). split; [|auto]. apply define_action_safe; auto.
          -- intros ks' _. exact I.
        * apply collapsed_safe; auto.
  Qed.

  Lemma lines_safe : forall fuel s w i, world_good w -> state_ok s w -> gspan i -> sp_len i < fuel ->
    safe F (fun x => world_good (snd x) /\ grown w (snd x)) (process_lines ev rm fs fuel s w i).
  Proof.
    induction fuel as [|fuel IH]; intros s w i G S Gi L; [lia|]. cbn [process_lines].
    destruct (0 <? sp_len i) eqn:Z; [|exact (conj G (grown_refl w))]. apply Nat.ltb_lt in Z.
    eapply safe_bind; [apply line_step_safe; eauto|]. intros [[s1 w1] r] (G1 & R1 & S1 & Hr). cbn [fst snd] in *.
    destruct r as [j u|ks|ks]; try exact I. destruct Hr as (Gj & Lj).
    eapply safe_weak; [apply IH; auto; lia|auto|]. intros x (A & B). split; [exact A|eapply grown_trans; eauto].
  Qed.

  Lemma bom_safe : forall b, wf_block b -> exists o, popt (pchar c_bom) (block_span b) = Ok (POk (block_span b) o).
  Proof.
    intros b W. assert (Ws := proj1 (block_gspan b W)). unfold popt, pchar. rewrite (first_char_ok _ Ws). cbn [bind].
    assert (A := gspan_ascii _ (block_gspan b W)). destruct (span_text (block_span b)) as [|c t]; [eexists; reflexivity|].
    inversion A as [|? ? Ac At]; subst. cbn [hd_error]. destruct (c =? c_bom)%N eqn:E; [|eexists; reflexivity].
    apply N.eqb_eq in E. subst c. discriminate.
  Qed.

  Lemma process_step_safe : pb_safe F (process_step ev rm fs).
  Proof.
    intros w b G W. unfold process_step. destruct (bom_safe b W) as (o & E). rewrite E. cbn [bind].
    eapply safe_bind; [apply lines_safe; [exact G|apply state_new_ok|apply block_gspan, W|lia]|].
    intros [s w1] (G1 & R1). exact (conj G1 R1).
  Qed.
End Engine.

Lemma read_with_safe : forall F pb, pb_safe F pb -> rm_safe F (read_makefile_with pb).
Proof.
  intros F pb H w nm text G A. unfold read_makefile_with. destruct (intern_file_name (w_names w) nm) as [n id] eqn:E.
  assert (Gr : grows (w_names w) n) by (eapply intern_grows; exact E).
  assert (R : grown w (set_names w n)).
  { unfold intern_file_name in E. destruct (get_or_intern nm (n_files (w_names w))) as [l k]. inversion E; subst.
    split; [exists []; cbn; now rewrite app_nil_r|]. split; [exact Gr|reflexivity]. }
  assert (G1 : world_good (set_names w n)) by (eapply good_grown; eauto).
  eapply safe_bind; [apply block_new_safe; constructor; [apply const_cref; exact A|constructor]|]. intros b W.
  eapply safe_weak; [apply H; eauto|auto|]. intros x (X & Y). split; [exact X|eapply grown_trans; eauto].
Qed.

Lemma eval_empty : forall fs fuel, ev_empty (eval_fuel fs fuel).
Proof.
  intros fs [|fuel] w a w' b (l & [->| ->]) E; cbn in E; [discriminate|discriminate|inversion E; reflexivity|inversion E; reflexivity].
Qed.

(** Every evaluation and every file processed keeps the state well formed. *)
Lemma engine_safe : forall fs, ascii_files fs -> forall fuel,
  ev_safe True (eval_fuel fs fuel) /\ pb_safe True (process_fuel fs fuel).
Proof.
  intros fs Hfs. induction fuel as [|fuel (IHe & IHp)].
  - split; intros w x G A; exact I.
  - split; intros w x G A.
    + cbn [eval_fuel]. apply eval_step_safe; auto.
    + cbn [process_fuel]. apply process_step_safe; auto; [apply eval_empty|apply read_with_safe, IHp].
Qed.
