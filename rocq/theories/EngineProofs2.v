(** Proofs about the engine loop, second part: ignored lines, rules, errors, includes. *)
From Coq Require Import String Lia ZArith.
From Verif Require Import Base LocModel EvdModel NomModel AstModel ParseModel AstParseModel EngineModel
  EvdSpec DbSpec ParseSpec EvalSpec AstParseSpec EngineSpec DbProofs EvdProofs EvdProofs2 EvdProofs3 ParseProofs ParseProofs2
  ParseProofs3 ParseProofs4 ParseProofs5 SubstProofs EvalProofs EvalProofs2 EvalProofs3 EvalProofs4
  AstParseProofs AstParseProofs2 AstParseProofs3 SafeProofs SafeProofs2 SafeProofs3 SafeProofs4 EngineProofs.
Local Open Scope nat_scope.

(** * Defines are only open in active parts, without open rules *)

Definition define_apart (s : pstate) : Prop := ps_define s <> None -> ps_rule s = None /\ ps_ignoring s = false.

Lemma define_apart_step : forall fs fuel s w i s1 w1 i1, world_good w -> gspan i -> define_apart s ->
  engine_line fs fuel s w i = Ok (s1, w1, POk i1 tt) -> define_apart s1.
Proof.
  intros fs fuel s w i s1 w1 i1 G Gi D E. apply line_cases in E; [|exact Gi|apply G].
  destruct E as [C _ -> ->|a C R _ P _|dl C F _ H|l2 C R F E2 Z -> ->|l2 j2 c2 C R F E2 Z E3 H|l2 ks C R F E2 Z E3 Ig -> ->|l2 ks C R F E2 Z E3 Ig A]; auto.
  - unfold push_command_line in P. apply bind_ok in P. destruct P as (r & E & P). inversion P; subst. intros X. cbn in X.
    destruct (D X) as (Y & _). rewrite Y in E. discriminate.
  - destruct F as (F1 & F2). destruct (D F2) as (D1 & D2). apply define_keeps in H. destruct H as (A & B & K). intros _. split; congruence.
  - assert (N : ps_define s = None).
    { destruct (ps_define s) eqn:X; [|reflexivity]. exfalso. apply F. split; [|congruence]. apply D. congruence. }
    assert (N1 : ps_define s1 = None).
    { destruct c2 as [a|a|a b|a b|[f|]|]; cbn [handle_conditional] in H; try discriminate.
      1,2: apply bind_ok in H; destruct H as ([wa x] & _ & H); apply bind_ok in H; destruct H as ([wb y] & _ & H);
           apply bind_ok in H; destruct H as (s3 & _ & H); apply bind_ok in H; destruct H as (s4 & _ & H); inversion H; subst; exact N.
      - destruct (ps_conds s) as [|[ex se] cs]; [discriminate|]. destruct se; [discriminate|]. inversion H; subst; exact N.
      - destruct (ps_conds s); [discriminate|]. inversion H; subst; exact N. }
    intros X. congruence.
  - assert (N : ps_define s = None).
    { destruct (ps_define s) eqn:X; [|reflexivity]. exfalso. apply F. split; [|congruence]. apply D. congruence. }
    destruct A as [w0 p va s2 w2 E0 Cl H|w0 ks' p d s2 w2 E0 E1 Cl H|w0 ks' ks2 c w2 p ta s3 w3 E0 E1 E4 E5 Cl H|w0 ks' ks2 c ks3 E0 E1 E4 E5 ->]; auto;
      apply close_keeps in Cl; destruct Cl as (A & B & Q & K).
    + apply global_keeps in H. destruct H as (A' & B' & K' & _). intros _. split; congruence.
    + apply directive_keeps in H. subst. intros X. congruence.
    + apply target_keeps in H. destruct H as (_ & _ & Q' & _). intros X. congruence.
Qed.

Lemma define_apart_lines : forall fs fuel n s w i s' w' i', ascii_files fs -> world_good w -> state_ok s w -> gspan i -> define_apart s ->
  engine_lines fs fuel n s w i s' w' i' -> define_apart s'.
Proof.
  intros fs fuel n s w i s' w' i' Hfs G S Gi D H. induction H as [s w i|n s w i s1 w1 i1 s2 w2 i2 L E H IH]; [exact D|].
  destruct (engine_line_ok _ _ _ _ _ _ _ _ Hfs G S Gi L E) as (_ & G1 & _ & S1 & Gi1). exact (IH G1 S1 Gi1 (define_apart_step _ _ _ _ _ _ _ _ G Gi D E)).
Qed.

(** * Ignored lines *)

Lemma ignored_line : forall fs fuel s w i s1 w1 i1, ascii_files fs -> world_good w -> gspan i -> define_apart s -> ps_ignoring s = true ->
  ~ is_recipe s w i -> (forall c, ~ directive_line s w i c) ->
  engine_line fs fuel s w i = Ok (s1, w1, POk i1 tt) -> s1 = s /\ w1 = w.
Proof.
  intros fs fuel s w i s1 w1 i1 Hfs G Gi D Ig R N E. apply line_cases in E; [|exact Gi|apply G].
  destruct E as [C _ -> ->|a C R' _ P _|dl C F _ H|l2 C R' F E2 Z -> ->|l2 j2 c2 C R' F E2 Z E3 H|l2 ks C R' F E2 Z E3 Ig' -> ->|l2 ks C R' F E2 Z E3 Ig' A]; auto;
    try contradiction; try congruence.
  - destruct F as (F1 & F2). destruct (D F2). congruence.
  - exfalso. apply (N c2). split; [exact C|]. split; [exact R'|]. split; [exact F|]. exists i1, l2, j2. auto.
Qed.

Definition args_eval_free (c : conditional) : Prop :=
  match c with CIfEq a b | CIfNEq a b => eval_free a /\ eval_free b | _ => True end.

Lemma same_refl : forall w, same_but_names w w.
Proof. intros w. split; [reflexivity|]. split; [reflexivity|]. split; [reflexivity|]. exists []. now rewrite app_nil_r. Qed.

Lemma conditional_frame : forall fs fuel s w c s1 w1,
  (forall id v, get_variable (w_db w) id = Some v -> eval_free (v_ast v)) -> args_eval_free c ->
  handle_conditional (eval_fuel fs fuel) s w c = Ok (s1, w1, HOk) -> same_but_names w w1.
Proof.
  intros fs fuel s w c s1 w1 V A H.
  assert (K : forall a b wa x wb y, eval_free a -> eval_free b -> eval_fuel fs fuel w a = Ok (wa, x) ->
    eval_fuel fs fuel wa b = Ok (wb, y) -> same_but_names w wb).
  { intros a b wa x wb y Fa Fb Ea Eb.
    destruct (eval_frame _ _ _ _ _ _ Fa Ea (fun id v _ => V id v)) as (D1 & C1 & F1 & m1 & N1).
    assert (V1 : forall id v, In id (b_sens y) -> get_variable (w_db wa) id = Some v -> eval_free (v_ast v)) by (intros id v _; rewrite D1; apply V).
    destruct (eval_frame _ _ _ _ _ _ Fb Eb V1) as (D2 & C2 & F2 & m2 & N2).
    split; [congruence|]. split; [congruence|]. split; [congruence|]. exists (m1 ++ m2). now rewrite N2, N1, app_assoc. }
  destruct c as [a|a|a b|a b|[f|]|]; cbn [handle_conditional] in H; try discriminate.
  1,2: apply bind_ok in H; destruct H as ([wa x] & Ea & H); apply bind_ok in H; destruct H as ([wb y] & Eb & H);
       apply bind_ok in H; destruct H as (s3 & _ & H); apply bind_ok in H; destruct H as (s4 & _ & H); inversion H; subst;
       destruct A; eauto.
  - destruct (ps_conds s) as [|[ex se] cs]; [discriminate|]. destruct se; [discriminate|]. inversion H; subst. apply same_refl.
  - destruct (ps_conds s); [discriminate|]. inversion H; subst. apply same_refl.
Qed.

Lemma ignored_directive : forall fs fuel s w i c s1 w1 i1, ascii_files fs -> world_good w -> gspan i ->
  directive_line s w i c -> args_eval_free c -> (forall id v, get_variable (w_db w) id = Some v -> eval_free (v_ast v)) ->
  engine_line fs fuel s w i = Ok (s1, w1, POk i1 tt) -> same_but_names w w1.
Proof.
  intros fs fuel s w i c s1 w1 i1 Hfs G Gi D A V E. destruct (directive_step _ _ _ _ _ _ _ _ _ Hfs G Gi E D) as (H & _).
  eapply conditional_frame; eauto.
Qed.

(** * Rules under construction *)

Lemma from_proto_cmd : forall w s s2 w2 p, close_rule s w = Ok (s2, w2) -> ps_rule s = Some p ->
  exists n d, from_protorule (w_db w) (w_names w) p = Ok (n, d) /\ w2 = World n d (w_cmd w).
Proof.
  intros w s s2 w2 p E R. unfold close_rule in E. rewrite R in E. apply bind_ok in E. destruct E as ([n d] & E & K). inversion K; subst. eauto.
Qed.

Lemma rule_kept_or_recorded : forall fs fuel s w i s1 w1 i1 p, ascii_files fs -> world_good w -> state_ok s w -> gspan i -> 0 < sp_len i ->
  ps_rule s = Some p -> engine_line fs fuel s w i = Ok (s1, w1, POk i1 tt) ->
  (exists more, ps_rule s1 = Some (with_lines p more)) \/ recorded p w i w1.
Proof.
  intros fs fuel s w i s1 w1 i1 p Hfs G S Gi L R0 E.
  assert (Keep : with_lines p [] = p) by (destruct p; unfold with_lines; cbn; now rewrite app_nil_r).
  destruct (engine_safe fs Hfs fuel) as (He & Hp). pose proof (eval_empty fs fuel) as Hm.
  apply line_cases in E; [|exact Gi|apply G].
  destruct E as [C _ -> ->|a C R _ P _|dl C F _ H|l2 C R F E2 Z -> ->|l2 j2 c2 C R F E2 Z E3 H|l2 ks C R F E2 Z E3 Ig -> ->|l2 ks C R F E2 Z E3 Ig A];
    try (left; exists []; rewrite Keep; exact R0).
  - unfold push_command_line in P. rewrite R0 in P. cbn in P. inversion P; subst. left. exists [a]. reflexivity.
  - destruct F as (F & _). congruence.
  - left. exists []. rewrite Keep.
    assert (Wl : wf_block l2).
    { destruct (line_safe GNU true i Gi) as (r' & b' & X & _ & Wb & _). rewrite E2 in X. inversion X; subst. exact Wb. }
    assert (Co : cond_ok c2).
    { pose proof (conditional_safe (block_span l2) (block_gspan l2 Wl)) as K. rewrite E3 in K. apply K. }
    destruct (handle_event _ _ _ _ _ _ _ Hfs G Co H) as (e & _ & _ & _ & K & _). congruence.
  - assert (Wl : wf_block l2).
    { destruct (line_safe GNU true i Gi) as (r' & b' & X & _ & Wb & _). rewrite E2 in X. inversion X; subst. exact Wb. }
    assert (Gl := block_gspan l2 Wl).
    destruct A as [w0 q va s2 w2 E0 Cl H|w0 ks' q d s2 w2 E0 E1 Cl H|w0 ks' ks2 c w2 q ta s3 w3 E0 E1 E4 E5 Cl H|w0 ks' ks2 c ks3 E0 E1 E4 E5 ->];
      [| | |left; exists []; rewrite Keep; exact R0]; right;
      pose proof (variable_line_safe True _ He w (block_span l2) G Gl) as V; rewrite E0 in V; destruct V as (G0 & R1 & V); cbn [fst snd] in *.
    + destruct (from_proto_cmd _ _ _ _ _ Cl R0) as (n & d & Fp & ->).
      destruct (close_rule_safe s w0 G0 (state_grown _ _ _ R1 S)) as (s' & w' & X & G' & R' & S' & _). rewrite Cl in X. inversion X; subst.
      exists w0, n, d. split; [exact R1|]. split; [exact Fp|].
      assert (V2 := vact_grown _ _ _ R' V).
      pose proof (variable_action_safe True s' (World n d (w_cmd w0)) va G' S' V2) as K. rewrite H in K. destruct K as (_ & K & _).
      apply global_keeps in H. destruct H as (_ & _ & _ & H). rewrite <- (proj2 (proj2 R1)). split; [exact K|]. left. exact H.
    + destruct (from_proto_cmd _ _ _ _ _ Cl R0) as (n & d' & Fp & ->).
      destruct (close_rule_safe s w0 G0 (state_grown _ _ _ R1 S)) as (s' & w' & X & G' & R' & S' & _). rewrite Cl in X. inversion X; subst.
      exists w0, n, d'. split; [exact R1|]. split; [exact Fp|].
      pose proof (directive_safe (block_span l2) Gl) as Q. rewrite E1 in Q. destruct Q as (_ & _ & Q).
      pose proof (directive_action_safe True _ He _ (read_with_safe True _ Hp) fs Hfs s' (World n d' (w_cmd w0)) d G' S' Q) as K.
      rewrite H in K. destruct K as (_ & K & _). rewrite <- (proj2 (proj2 R1)). split; [exact K|]. right. exists d. exists i1, l2, q. auto.
    + pose proof (target_line_safe True _ He Hm w0 (block_span l2) G0 Gl) as T. rewrite E5 in T. destruct T as (G2 & R2 & T). cbn [fst snd] in *.
      destruct (from_proto_cmd _ _ _ _ _ Cl R0) as (n & d & Fp & ->).
      destruct (close_rule_safe s w2 G2 (state_grown _ _ _ (grown_trans _ _ _ R1 R2) S)) as (s' & w' & X & G' & R' & S' & _). rewrite Cl in X. inversion X; subst.
      exists w2, n, d. split; [eapply grown_trans; eauto|]. split; [exact Fp|].
      apply target_keeps in H. destruct H as (_ & _ & _ & ->). rewrite <- (proj2 (proj2 R1)), <- (proj2 (proj2 R2)). split; [apply grown_refl|]. left. reflexivity.
Qed.

(** * Reading is a run of line steps *)

Lemma lines_run : forall fs fuel k s w i, sp_len i < k -> ascii_files fs -> world_good w -> state_ok s w -> gspan i ->
  (forall s' w', process_lines (eval_fuel fs fuel) (read_makefile_with (process_fuel fs fuel)) fs k s w i = Ok (s', w') <->
    exists n i', engine_lines fs fuel n s w i s' w' i' /\ sp_len i' = 0).
Proof.
  intros fs fuel. induction k as [|k IH]; intros s w i Lk Hfs G S Gi s' w'; [lia|]. cbn [process_lines].
  destruct (0 <? sp_len i) eqn:Z.
  - apply Nat.ltb_lt in Z. split.
    + intros E. apply bind_ok in E. destruct E as ([[s1 w1] r] & E & K). destruct r as [i1 []|ks|ks]; try discriminate.
      destruct (engine_line_ok _ _ _ _ _ _ _ _ Hfs G S Gi Z E) as (L1 & G1 & _ & S1 & Gi1).
      apply IH in K; auto; [|lia]. destruct K as (n & i' & K & Z'). exists (Datatypes.S n), i'. split; [|exact Z']. eapply EL_step; eauto.
    + intros (n & i' & H & Z'). inversion H; subst; [lia|].
      match goal with X : engine_line _ _ _ _ _ = _ |- _ => rename X into E end.
      destruct (engine_line_ok _ _ _ _ _ _ _ _ Hfs G S Gi Z E) as (L1 & G1 & _ & S1 & Gi1).
      unfold engine_line in E. rewrite E. cbn [bind]. apply IH; auto; [lia|]. eauto.
  - apply Nat.ltb_ge in Z. split.
    + intros E. inversion E; subst. exists 0, i. split; [constructor|lia].
    + intros (n & i' & H & _). inversion H; subst; [reflexivity|lia].
Qed.

Lemma process_run : forall fs fuel w b w' r, ascii_files fs -> world_good w -> wf_block b ->
  process_fuel fs (S fuel) w b = Ok (w', r) <->
  r = MOk /\ exists n s' i', engine_lines fs fuel n pstate_new w (block_span b) s' w' i' /\ sp_len i' = 0.
Proof.
  intros fs fuel w b w' r Hfs G W. cbn [process_fuel]. unfold process_step. destruct (bom_safe b W) as (o & E). rewrite E. cbn [bind].
  pose proof (lines_run fs fuel (S (sp_len (block_span b))) pstate_new w (block_span b) (Nat.lt_succ_diag_r _) Hfs G (state_new_ok w) (block_gspan b W)) as L.
  split.
  - intros H. apply bind_ok in H. destruct H as ([s1 w1] & H & K). inversion K; subst. split; [reflexivity|].
    apply L in H. destruct H as (n & i' & H). eauto.
  - intros (-> & n & s' & i' & H). assert (X := proj2 (L s' w')). rewrite X by eauto. reflexivity.
Qed.

Lemma lines_fail : forall fs fuel n s w i s1 w1 i1, ascii_files fs -> world_good w -> state_ok s w -> gspan i ->
  engine_lines fs fuel n s w i s1 w1 i1 -> 0 < sp_len i1 ->
  (forall s2 w2 i2, engine_line fs fuel s1 w1 i1 <> Ok (s2, w2, POk i2 tt)) -> engine_line fs fuel s1 w1 i1 <> OutOfFuel ->
  forall k, sp_len i < k -> process_lines (eval_fuel fs fuel) (read_makefile_with (process_fuel fs fuel)) fs k s w i = Panic.
Proof.
  intros fs fuel n s w i s1 w1 i1 Hfs G S Gi H. induction H as [s w i|n s w i s1 w1 i1 s2 w2 i2 L E H IH]; intros L1 N F k Lk;
    (destruct k as [|k]; [lia|]); cbn [process_lines].
  - assert (Z := proj2 (Nat.ltb_lt 0 (sp_len i)) L1). rewrite Z. unfold engine_line in *.
    destruct (parse_line _ _ _ s w i) as [[[s2 w2] [i2 []|ks|ks]]| |]; cbn [bind]; try reflexivity; [|congruence]. exfalso. eapply N. reflexivity.
  - assert (Z := proj2 (Nat.ltb_lt 0 (sp_len i)) L). rewrite Z.
    destruct (engine_line_ok _ _ _ _ _ _ _ _ Hfs G S Gi L E) as (L2 & G1 & _ & S1 & Gi1).
    unfold engine_line in E. rewrite E. cbn [bind]. apply IH; auto. lia.
Qed.

Lemma process_fail : forall fs fuel n w b s1 w1 i1, ascii_files fs -> world_good w -> wf_block b ->
  engine_lines fs fuel n pstate_new w (block_span b) s1 w1 i1 -> 0 < sp_len i1 ->
  (forall s2 w2 i2, engine_line fs fuel s1 w1 i1 <> Ok (s2, w2, POk i2 tt)) -> engine_line fs fuel s1 w1 i1 <> OutOfFuel ->
  process_fuel fs (S fuel) w b = Panic.
Proof.
  intros fs fuel n w b s1 w1 i1 Hfs G W H L N F. cbn [process_fuel]. unfold process_step. destruct (bom_safe b W) as (o & E). rewrite E. cbn [bind].
  rewrite (lines_fail fs fuel n pstate_new w (block_span b) s1 w1 i1 Hfs G (state_new_ok w) (block_gspan b W) H L N F); [reflexivity|lia].
Qed.

(** * Includes *)

Lemma include_spec : forall fs fuel files w soft w' r, Forall wf_block files ->
  include_files (read_makefile_with (process_fuel fs fuel)) fs w soft files = Ok (w', r) <->
  reads_files (read_makefile_with (process_fuel fs fuel)) fs soft w (List.map block_text files) w' r.
Proof.
  intros fs fuel. set (rm := read_makefile_with _).
  assert (M : forall w n t w1 r, rm w n t = Ok (w1, r) -> r = MOk).
  { intros w n t w1 r E. exact (read_mok fs fuel w n (inr t) w1 r E). }
  induction files as [|f files IH]; intros w soft w' r W; cbn [include_files List.map].
  - split; intros E; inversion E; subst; [constructor|reflexivity].
  - inversion W as [|? ? Wf Ws]; subst. assert (B : block_into_string f = Ok (block_text f)) by (apply block_into_string_ok; exact Wf).
    rewrite B. cbn [bind]. destruct (fs (block_text f)) as [k|k|t] eqn:F.
    + destruct soft.
      * rewrite (IH _ _ _ _ Ws). split; [intros H; eapply RF_skip; eauto|]. intros H. inversion H; subst; try congruence.
      * split; [intros E; inversion E; subst; eapply RF_missing; eauto|]. intros H. inversion H; subst; congruence.
    + split; [intros E; inversion E; subst; eapply RF_unreadable; eauto|]. intros H. inversion H; subst; try congruence.
    + split.
      * intros E. apply bind_ok in E. destruct E as ([w1 m] & E & K). assert (X := M _ _ _ _ _ E). subst m.
        apply (IH _ _ _ _ Ws) in K. eapply RF_read; eauto.
      * intros H. inversion H; subst; try congruence.
        match goal with X : fs _ = FText _ |- _ => rewrite F in X; inversion X; subst end.
        match goal with X : rm _ _ _ = _ |- _ => rewrite X end. cbn [bind]. now apply (IH _ _ _ _ Ws).
Qed.

(** ** The files of an include *)

Lemma split_at_map : forall {A} (ch : A -> char) stop t w,
  List.map (List.map ch) (split_at ch stop w t) = split_at id stop (List.map ch w) (List.map ch t).
Proof.
  intros A ch stop. induction t as [|c t IH]; intros w; cbn [split_at List.map].
  - destruct w; reflexivity.
  - unfold id at 1. destruct (stop (ch c)).
    + unfold word_and. destruct w; cbn [List.map]; rewrite IH; reflexivity.
    + rewrite IH. rewrite map_app. reflexivity.
Qed.

Lemma handle_include_words : forall fs fuel w a soft w1 b w' r, ascii_files fs -> world_good w -> ast_ok a ->
  eval_fuel fs fuel w a = Ok (w1, b) -> ~ In c_bslash (block_text b) ->
  handle_include (eval_fuel fs fuel) (read_makefile_with (process_fuel fs fuel)) fs w a soft = Ok (w', r) <->
  reads_files (read_makefile_with (process_fuel fs fuel)) fs soft w1 (split_at id (file_stop []) [] (block_text b)) w' r.
Proof.
  intros fs fuel w a soft w1 b w' r Hfs G A E H.
  pose proof (proj1 (engine_safe fs Hfs fuel) w a G A) as S. rewrite E in S. destruct S as (_ & _ & W). cbn [snd] in W.
  destruct (parse_file_seq_plain (block_span b) false []) as (bs & P & Wb & M).
  - apply block_span_wf, W.
  - intros [].
  - intros (x & I & X). apply H. rewrite block_span_marks in I by exact W. rewrite <- block_marks_text. rewrite <- X. apply in_map. exact I.
  - unfold handle_include. rewrite E. cbn [bind]. rewrite P. cbn [bind].
    rewrite (include_spec fs fuel bs w1 soft w' r Wb).
    replace (List.map block_text bs) with (split_at id (file_stop []) [] (block_text b)); [reflexivity|].
    rewrite <- (map_ext _ _ block_marks_text), <- (map_map block_marks (List.map fst)), M.
    replace (List.map (cleaned false) (split_at mch (file_stop []) [] (span_marks (block_span b))))
      with (split_at mch (file_stop []) [] (span_marks (block_span b))) by (symmetry; apply map_id).
    rewrite split_at_map. rewrite block_span_marks by exact W. rewrite <- block_marks_text. reflexivity.
Qed.

(** ** Histories *)

Lemma history_nesting : forall fs fuel n s w i s' w' i', ascii_files fs -> world_good w -> state_ok s w -> gspan i ->
  engine_lines fs fuel n s w i s' w' i' ->
  exists h, meets fs fuel s w i h s' w' i' /\ enclosing (stack s) h = Some (stack s').
Proof.
  intros fs fuel n s w i s' w' i' Hfs G S Gi H. destruct (history_exists _ _ _ _ _ _ _ _ _ Hfs G S Gi H) as (h & M).
  exists h. split; [exact M|]. eapply kept_enclosing. eapply meets_kept; eauto.
Qed.
Lemma history_ignoring : forall fs fuel w i h s' w' i', ascii_files fs -> world_good w -> gspan i ->
  meets fs fuel pstate_new w i h s' w' i' -> ends_taken [] h -> ps_ignoring s' = not_taken (stack s').
Proof.
  intros fs fuel w i h s' w' i' Hfs G Gi M T. assert (S : state_ok pstate_new w) by (split; discriminate).
  apply (kept_right h [] _ _ T). exact (meets_kept _ _ _ _ _ _ _ _ _ Hfs G S Gi M).
Qed.
Lemma history_last : forall fs fuel w i h e s' w' i', ascii_files fs -> world_good w -> gspan i ->
  meets fs fuel pstate_new w i (h ++ [e]) s' w' i' -> e <> EvEndif -> ps_ignoring s' = not_taken (stack s').
Proof.
  intros fs fuel w i h e s' w' i' Hfs G Gi M T. assert (S : state_ok pstate_new w) by (split; discriminate).
  apply (kept_last h e [] false _ _ T). exact (meets_kept _ _ _ _ _ _ _ _ _ Hfs G S Gi M).
Qed.
