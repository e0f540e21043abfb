(** Proofs about the evaluator: non-interference, termination and divergence. *)
From Verif Require Import Base LocModel EvdModel NomModel AstModel ParseModel EvdSpec ParseSpec EvalSpec DbProofs
  EvdProofs EvdProofs2 EvdProofs3 ParseProofs ParseProofs2 ParseProofs3 ParseProofs4 ParseProofs5 SubstProofs EvalProofs EngineModel
  EvalProofs2 FuelProofs.

Lemma block_new_sens : forall s cs b, block_new s cs = Ok b -> b_sens b = s.
Proof. intros s cs b E. unfold block_new, block_simplify in E. cbn [b_content b_sens] in E. apply bind_ok in E as (x & _ & E). inversion E. reflexivity. Qed.

Lemma bind3_ok : forall {A B C D} (r : res (A * B * C)) (f : A -> B -> C -> res D) z,
  (let* '(x, y, w) := r in f x y w) = Ok z -> exists x y w, r = Ok (x, y, w) /\ f x y w = Ok z.
Proof. intros A B C D [((x & y) & w)| |] f z E; cbn in E; try discriminate. eauto 6. Qed.
Lemma bind2_ok : forall {A B D} (r : res (A * B)) (f : A -> B -> res D) z,
  (let* '(x, y) := r in f x y) = Ok z -> exists x y, r = Ok (x, y) /\ f x y = Ok z.
Proof. intros A B D [(x & y)| |] f z E; cbn in E; try discriminate. eauto. Qed.

(** * Non-interference *)
Section Agree.
  Context (fs fs' : str -> file) (d1 d2 : db) (S : list N).
  Context (Hagree : forall id, In id S -> get_variable d1 id = get_variable d2 id)
          (Hfree : forall id v, In id S -> get_variable d1 id = Some v -> eval_free (v_ast v)).

  Definition pair_ok (w1 w2 : world) : Prop := w_db w1 = d1 /\ w_db w2 = d2 /\ w_names w1 = w_names w2.
  Definition follows (w1 w2 w1' w2' : world) : Prop :=
    pair_ok w1' w2' /\ same_but_names w1 w1' /\ same_but_names w2 w2'.

  Lemma follows_refl : forall w1 w2, pair_ok w1 w2 -> follows w1 w2 w1 w2.
  Proof. intros. unfold follows. auto using sbn_refl. Qed.
  Lemma follows_trans : forall a a' b b' c c', follows a a' b b' -> follows b b' c c' -> follows a a' c c'.
  Proof. intros a a' b b' c c' (P & A & A') (Q & B & B'). unfold follows. split; auto. split; eapply sbn_trans; eauto. Qed.

  Definition same_run (f : nat) (a : ast) : Prop := forall w1 w2 w1' s cs, pair_ok w1 w2 -> eval_free a ->
    eval_internal (eval_fuel fs f) (process_fuel fs f) w1 a = Ok (w1', s, cs) -> incl s S ->
    exists w2', eval_internal (eval_fuel fs' f) (process_fuel fs' f) w2 a = Ok (w2', s, cs) /\ follows w1 w2 w1' w2'.

  Lemma intern_pair : forall w1 w2 nm w1' id, pair_ok w1 w2 -> world_intern_variable w1 nm = (w1', id) ->
    exists w2', world_intern_variable w2 nm = (w2', id) /\ follows w1 w2 w1' w2'.
  Proof.
    intros w1 w2 nm w1' id (P1 & P2 & PN) E. destruct (world_intern_variable w2 nm) as [w2' id'] eqn:E2.
    destruct (intern_world _ _ _ _ E) as (S1 & _). destruct (intern_world _ _ _ _ E2) as (S2 & _).
    unfold world_intern_variable in *. rewrite <- PN in E2. destruct (intern_variable_name (w_names w1) nm) as [n i].
    inversion E; inversion E2; subst. exists (set_names w2 n). split; [reflexivity|].
    unfold follows, pair_ok, set_names. cbn. ands; auto.
  Qed.

  Lemma deref_pair : forall f, (forall g a, f = Datatypes.S g -> same_run g a) -> forall w1 w2 sens nm w1' s b, pair_ok w1 w2 ->
    deref_variable (eval_fuel fs f) w1 sens nm = Ok (w1', s, b) -> incl s S ->
    exists w2', deref_variable (eval_fuel fs' f) w2 sens nm = Ok (w2', s, b) /\ follows w1 w2 w1' w2'.
  Proof.
    intros f IH w1 w2 sens nm w1' s b P E I. unfold deref_variable in *.
    destruct (world_intern_variable w1 nm) as [wa id] eqn:E1.
    destruct (intern_pair _ _ _ _ _ P E1) as (wb & E2 & Fo). rewrite E2.
    destruct Fo as ((Pa & Pb & PN) & Sa & Sb).
    assert (Hid : In id s).
    { destruct (get_variable (w_db wa) id) as [v|].
      - apply bind2_ok in E as (w & value & _ & E). inversion E; subst. apply set_add_In. left. reflexivity.
      - inversion E; subst. apply set_add_In. left. reflexivity. }
    rewrite Pa in E. rewrite Pb, <- (Hagree id (I id Hid)).
    destruct (get_variable d1 id) as [v|] eqn:G.
    - apply bind2_ok in E as (w & value & Ev & E). inversion E; subst w1' s b. clear E.
      destruct f as [|g]; [discriminate|]. cbn [eval_fuel] in Ev |- *. unfold eval_step in *.
      apply bind3_ok in Ev as (w' & s' & cs & Ei & Eb). apply bind_ok in Eb as (b & Eb & Q). inversion Q; subst w' b. clear Q.
      pose proof (block_new_sens _ _ _ Eb) as Bs.
      destruct (IH g (v_ast v) eq_refl wa wb w s' cs) as (w2' & Ei2 & Fo2); auto.
      { unfold pair_ok. auto. }
      { apply (Hfree id); auto. }
      { intros x Hx. apply I. apply set_add_In. right. apply set_union_In. right. rewrite Bs. exact Hx. }
      rewrite Ei2. cbn [bind]. rewrite Eb. cbn [bind]. exists w2'. split; [reflexivity|].
      eapply follows_trans; [|exact Fo2]. unfold follows, pair_ok. auto.
    - inversion E; subst. exists wb. split; [reflexivity|]. unfold follows, pair_ok. auto.
  Qed.

  Lemma same_run_step : forall f, (forall g a, f = Datatypes.S g -> same_run g a) -> forall a, same_run f a.
  Proof.
    intros f IHf. apply ast_ind'; unfold same_run; cbn [eval_internal eval_free]; intros.
    - inversion H1; subst. eauto using follows_refl.
    - inversion H1; subst. eauto using follows_refl.
    - inversion H1; subst. eauto using follows_refl.
    - (* concatenation *)
      change (eval_nodes (eval_fuel fs f) (process_fuel fs f) w1 ns [] [] = Ok (w1', s, cs)) in H2.
      change (exists w2', eval_nodes (eval_fuel fs' f) (process_fuel fs' f) w2 ns [] [] = Ok (w2', s, cs) /\ follows w1 w2 w1' w2').
      revert H0 H1 H2. generalize (@nil N) (@nil cref). revert w1 w2.
      induction H as [|n ns Hn Hns IH]; cbn [eval_nodes]; intros w1 w2 s0 c0 P Fr E.
      + inversion E; subst. eauto using follows_refl.
      + apply bind3_ok in E as (wa & sa & ca & En & E). destruct Fr as (Fr & Frs).
        assert (Mon : forall l w s c w' s' c', eval_nodes (eval_fuel fs f) (process_fuel fs f) w l s c = Ok (w', s', c') -> incl s s').
        { clear. induction l as [|n l IHl]; cbn [eval_nodes]; intros w s c w' s' c' E; [inversion E; subst; apply incl_refl|].
          apply bind3_ok in E as (? & ? & ? & _ & E). apply IHl in E. intros y Hy. apply E, set_union_In. auto. }
        pose proof (Mon _ _ _ _ _ _ _ E) as M.
        destruct (Hn w1 w2 wa sa ca P Fr En) as (wb & Eb & Fo).
        { intros x Hx. apply H3, M, set_union_In. auto. }
        rewrite Eb. cbn [bind]. destruct (IH wa wb (set_union s0 sa) (c0 ++ ca)) as (w2' & E2 & Fo2); auto; [apply Fo|].
        exists w2'. split; auto. eapply follows_trans; eauto.
    - (* reference *)
      apply bind3_ok in H2 as (wa & sa & ca & En & E). apply bind_ok in E as (nb & Enb & E).
      pose proof (block_new_sens _ _ _ Enb) as Bs. apply bind_ok in E as (r & Er & E).
      assert (Sub : incl sa s).
      { clear - E Bs.
        assert (D : forall w sens nm w' s' b, deref_variable (eval_fuel fs f) w sens nm = Ok (w', s', b) -> incl sens s').
        { clear. intros w sens nm w' s' b E. unfold deref_variable in E. destruct (world_intern_variable w nm) as [wa id].
          destruct (get_variable (w_db wa) id).
          - apply bind2_ok in E as (? & ? & _ & E). inversion E; subst. intros y Hy. apply set_add_In. right. apply set_union_In. auto.
          - inversion E; subst. intros x Hx. apply set_add_In. auto. }
        subst sa. destruct r as [rest [n k]|ks|ks].
        - apply bind_ok in E as (? & _ & E). apply bind_ok in E as (? & _ & E). apply bind_ok in E as (? & _ & E).
          apply bind_ok in E as (? & _ & E). apply bind_ok in E as (? & _ & E). apply bind_ok in E as (? & _ & E).
          apply bind3_ok in E as (? & ? & ? & E1 & E). apply bind_ok in E as (? & _ & E). inversion E; subst. apply D in E1. exact E1.
        - apply bind_ok in E as (? & _ & E). apply bind3_ok in E as (? & ? & ? & E1 & E). inversion E; subst. apply D in E1. exact E1.
        - apply bind_ok in E as (? & _ & E). apply bind3_ok in E as (? & ? & ? & E1 & E). inversion E; subst. apply D in E1. exact E1. }
      destruct (H w1 w2 wa sa ca H0 H1 En) as (wb & Eb & Fo); [intros x Hx; apply H3, Sub, Hx|].
      rewrite Eb. cbn [bind]. rewrite Enb. cbn [bind]. rewrite Er. cbn [bind].
      destruct r as [rest [n k]|ks|ks].
      + apply bind_ok in E as (b1 & E1 & E). rewrite E1. cbn [bind]. apply bind_ok in E as (b2 & E2 & E). rewrite E2. cbn [bind].
        apply bind_ok in E as (b3 & E3 & E). rewrite E3. cbn [bind]. apply bind_ok in E as (b4 & E4 & E). rewrite E4. cbn [bind].
        apply bind_ok in E as (b5 & E5 & E). rewrite E5. cbn [bind]. apply bind_ok in E as (b6 & E6 & E). rewrite E6. cbn [bind].
        apply bind3_ok in E as (wc & sc & value & E7 & E). apply bind_ok in E as (b8 & E8 & E). inversion E; subst. 
        destruct (deref_pair f IHf wa wb _ _ _ _ _ (proj1 Fo) E7 H3) as (w2' & E7' & Fo2). rewrite E7'. cbn [bind]. rewrite E8. cbn [bind].
        exists w2'. split; auto. eapply follows_trans; eauto.
      + apply bind_ok in E as (b1 & E1 & E). rewrite E1. cbn [bind]. apply bind3_ok in E as (wc & sc & value & E7 & E). inversion E; subst.
        destruct (deref_pair f IHf wa wb _ _ _ _ _ (proj1 Fo) E7 H3) as (w2' & E7' & Fo2). rewrite E7'. cbn [bind].
        exists w2'. split; auto. eapply follows_trans; eauto.
      + apply bind_ok in E as (b1 & E1 & E). rewrite E1. cbn [bind]. apply bind3_ok in E as (wc & sc & value & E7 & E). inversion E; subst.
        destruct (deref_pair f IHf wa wb _ _ _ _ _ (proj1 Fo) E7 H3) as (w2' & E7' & Fo2). rewrite E7'. cbn [bind].
        exists w2'. split; auto. eapply follows_trans; eauto.
    - contradiction.
    - discriminate.
    - discriminate.
    - discriminate.
  Qed.

  Lemma same_run_all : forall f a, same_run f a.
  Proof. induction f; intros a; apply same_run_step; intros g b E; inversion E; subst; auto. Qed.

  Lemma same_run_eval : forall f a w1 w2 w1' b, pair_ok w1 w2 -> eval_free a -> eval_fuel fs f w1 a = Ok (w1', b) -> incl (b_sens b) S ->
    exists w2', eval_fuel fs' f w2 a = Ok (w2', b) /\ follows w1 w2 w1' w2'.
  Proof.
    intros [|f] a w1 w2 w1' b P Fr E I; [discriminate|]. cbn [eval_fuel] in E |- *. unfold eval_step in *.
    apply bind3_ok in E as (w & s & cs & Ei & E). apply bind_ok in E as (b' & Eb & E). inversion E; subst w b'. clear E.
    pose proof (block_new_sens _ _ _ Eb) as Bs. rewrite Bs in I.
    destruct (same_run_all f a w1 w2 w1' s cs P Fr Ei I) as (w2' & E2 & Fo). rewrite E2. cbn [bind]. rewrite Eb. cbn [bind]. eauto.
  Qed.
End Agree.

(** Evaluation that runs no `$(eval)` only adds names. *)
Lemma eval_frame : forall fs f w a w' b, eval_free a -> eval_fuel fs f w a = Ok (w', b) ->
  (forall id v, In id (b_sens b) -> get_variable (w_db w) id = Some v -> eval_free (v_ast v)) -> same_but_names w w'.
Proof.
  intros fs f w a w' b Fr E H.
  destruct (same_run_eval fs fs (w_db w) (w_db w) (b_sens b) ltac:(auto) H f a w w w' b) as (w2' & _ & _ & Sb & _); auto.
  - unfold pair_ok. auto.
  - apply incl_refl.
Qed.

Lemma eval_internal_frame : forall fs f w a w' s cs, eval_free a ->
  eval_internal (eval_fuel fs f) (process_fuel fs f) w a = Ok (w', s, cs) ->
  (forall id v, get_variable (w_db w) id = Some v -> eval_free (v_ast v)) -> same_but_names w w'.
Proof.
  intros fs f w a w' s cs Fr E H.
  destruct (same_run_all fs fs (w_db w) (w_db w) s ltac:(auto) ltac:(eauto) f a w w w' s cs) as (w2' & _ & _ & Sb & _); auto.
  - unfold pair_ok. auto.
  - apply incl_refl.
Qed.

(** * Whatever the fuel: nothing yet, or the expansion *)
Lemma expands_any : forall fs e a ps d, pieces_of e a ps d -> forall f w, world_ok w -> ast_ok a -> (forall nm, world_env w nm = e nm) ->
  eval_internal (eval_fuel fs f) (process_fuel fs f) w a = OutOfFuel \/
  exists w' sens cs, eval_internal (eval_fuel fs f) (process_fuel fs f) w a = Ok (w', sens, cs) /\
      Forall wf_cref0 cs /\ List.map cref_marks cs = ps /\ same_but_names w w' /\ records w' sens d.
Proof.
  intros fs e a ps d H f w Ok Aa E. destruct (pieces_good fs e a ps d H) as (f0 & G).
  destruct (G (f + f0) ltac:(lia) w Ok Aa E) as (w' & s & cs & Ev & R).
  destruct (eval_internal_mono (eval_fuel fs f) (eval_fuel fs (f + f0)) (process_fuel fs f) (process_fuel fs (f + f0))) with (w := w) (a := a) as [B|B].
  - intros. apply eval_fuel_mono. lia.
  - intros. apply process_fuel_mono. lia.
  - left. exact B.
  - right. exists w', s, cs. split; [congruence|exact R].
Qed.

Lemma eval_nodes_mono : forall fs f g, f <= g -> forall ns w s c,
  below (eval_nodes (eval_fuel fs f) (process_fuel fs f) w ns s c) (eval_nodes (eval_fuel fs g) (process_fuel fs g) w ns s c).
Proof.
  intros fs f g L. induction ns; intros; cbn [eval_nodes]; [apply below_refl|]. apply below_bind.
  - apply eval_internal_mono; intros; [apply eval_fuel_mono|apply process_fuel_mono]; lia.
  - intros ((? & ?) & ?). apply IHns.
Qed.

(** * Lookups are recorded *)
Lemma deref_inv : forall fs f w sens nm w' s b, deref_variable (eval_fuel fs f) w sens nm = Ok (w', s, b) ->
  exists w1 id, same_but_names w w1 /\ variable_name (w_names w1) nm = Some id /\ In id s /\ incl sens s /\
    match get_variable (w_db w1) id with
    | None => w' = w1 /\ b = block_empty
    | Some v => exists g sv cv, f = S g /\ eval_internal (eval_fuel fs g) (process_fuel fs g) w1 (v_ast v) = Ok (w', sv, cv) /\
        block_new sv cv = Ok b /\ incl sv s
    end.
Proof.
  intros fs f w sens nm w' s b E. unfold deref_variable in E. destruct (world_intern_variable w nm) as [w1 id] eqn:I.
  apply intern_world in I as (Sb & V). exists w1, id. split; [exact Sb|]. split; [exact V|].
  destruct (get_variable (w_db w1) id) as [v|].
  - apply bind2_ok in E as (w2 & bv & Ev & E). inversion E; subst. destruct f as [|g]; [discriminate|]. cbn [eval_fuel] in Ev.
    unfold eval_step in Ev. apply bind3_ok in Ev as (w2 & sv & cv & Ei & Eb). apply bind_ok in Eb as (b' & Eb & Q). inversion Q; subst.
    split; [apply set_add_In; auto|]. split.
    + intros y Hy. apply set_add_In. right. apply set_union_In. auto.
    + exists g, sv, cv. ands; auto. intros y Hy. apply set_add_In. right. apply set_union_In. right.
      rewrite (block_new_sens _ _ _ Eb). exact Hy.
  - inversion E; subst. split; [apply set_add_In; auto|]. split; auto. intros y Hy. apply set_add_In. auto.
Qed.

(** What a successful evaluation of a reference did. *)
Lemma var_inv : forall fs f w l nm w' s cs, eval_internal (eval_fuel fs f) (process_fuel fs f) w (AVar l nm) = Ok (w', s, cs) ->
  exists wa sa ca nb, eval_internal (eval_fuel fs f) (process_fuel fs f) w nm = Ok (wa, sa, ca) /\ block_new sa ca = Ok nb /\ incl sa s /\
  exists x b, deref_variable (eval_fuel fs f) wa sa x = Ok (w', s, b) /\
    (wf_block nb -> plain (block_marks nb) -> x = chars (block_marks nb)) /\
    (wf_block nb -> length (b_content nb) <= 1 -> forall n k r, is_subst (block_marks nb) n k r -> x = chars n).
Proof.
  intros fs f w l nm w' s cs E. cbn [eval_internal] in E.
  apply bind3_ok in E as (wa & sa & ca & En & E). apply bind_ok in E as (nb & Enb & E).
  exists wa, sa, ca, nb. split; [exact En|]. split; [exact Enb|].
  rewrite (block_new_sens _ _ _ Enb) in E. apply bind_ok in E as (r & Er & E).
  assert (X : exists x b, deref_variable (eval_fuel fs f) wa sa x = Ok (w', s, b) /\
    (wf_block nb -> plain (block_marks nb) -> x = chars (block_marks nb)) /\
    (wf_block nb -> length (b_content nb) <= 1 -> forall n k r, is_subst (block_marks nb) n k r -> x = chars n)).
  2:{ destruct X as (x & b & D & X). split; [|exists x, b; auto]. apply deref_inv in D as (? & ? & _ & _ & _ & Inc & _). exact Inc. }
  assert (NS : forall kind, r = PError kind \/ r = PFailure kind ->
     wf_block nb -> length (b_content nb) <= 1 -> forall n k rr, is_subst (block_marks nb) n k rr -> False).
  { intros kind Q W Fl n k rr Su. destruct (colon_find_subst (block_span nb) n k rr) as (rest & sn & sk & c & q & Ec & _);
      [apply block_span_wf; auto|exact Fl|rewrite block_span_marks; auto|]. destruct Q; congruence. }
  assert (P1 : forall kind, r = PError kind \/ r = PFailure kind ->
    (let* str_name := block_into_string nb in let* '(w, sens, value) := deref_variable (eval_fuel fs f) wa sa str_name in
     Ok (w, sens, [ev_variable_reference nb value])) = Ok (w', s, cs) ->
    exists x b, deref_variable (eval_fuel fs f) wa sa x = Ok (w', s, b) /\
    (wf_block nb -> plain (block_marks nb) -> x = chars (block_marks nb)) /\
    (wf_block nb -> length (b_content nb) <= 1 -> forall n k r, is_subst (block_marks nb) n k r -> x = chars n)).
  2:{ destruct r as [rest [n0 k0]|ks|ks]; [clear P1 NS|exact (P1 ks (or_introl eq_refl) E)|exact (P1 ks (or_intror eq_refl) E)].
    apply bind_ok in E as (b1 & E1 & E). apply bind_ok in E as (b2 & E2 & E). apply bind_ok in E as (b3 & E3 & E).
    apply bind_ok in E as (b4 & E4 & E). apply bind_ok in E as (b5 & E5 & E). apply bind_ok in E as (b6 & E6 & E).
    apply bind3_ok in E as (wc & sc & value & E7 & E). apply bind_ok in E as (b8 & E8 & E). inversion E; subst wc sc cs.
    exists b6, value. split; [exact E7|]. split.
    - intros W Pl. destruct (colon_find_plain (block_span nb)) as (ks & Ec); [apply block_span_wf; auto|rewrite block_span_marks; auto|]. congruence.
    - intros W Fl n k rr Su. destruct (colon_find_subst (block_span nb) n k rr) as (rest' & sn & sk & c & q & Ec & Wr & Wn & Wk & Mn & Mk & Mr);
        [apply block_span_wf; auto|exact Fl|rewrite block_span_marks; auto|].
      rewrite Ec in Er. inversion Er; subst rest' sn sk.
      destruct (drop_last_ok n0 n c Wn Mn) as (sn' & En' & Wn' & Mn' & _). rewrite En' in E1. inversion E1; subst b1.
      destruct (to_new_block_ok sn' Wn') as (bn & Ebn & Wbn & Mbn & _). rewrite Ebn in E2. inversion E2; subst b2.
      rewrite (block_into_string_ok bn Wbn) in E6. inversion E6; subst b6.
      rewrite <- block_marks_text, Mbn, Mn'. reflexivity. }
  intros kind Q E'. apply bind_ok in E' as (x & Ex & E'). apply bind3_ok in E' as (wc & sc & value & E7 & E'). inversion E'; subst wc sc cs.
  exists x, value. split; [exact E7|]. split.
  - intros W _. rewrite (block_into_string_ok nb W) in Ex. inversion Ex; subst. rewrite <- block_marks_text. reflexivity.
  - intros W Fl n k rr Su. destruct (NS kind Q W Fl n k rr Su).
Qed.

(** The name of a reference that expands. *)
Lemma pieces_name : forall fs e nm ps d, pieces_of e nm ps d -> forall f w wa sa ca nb, world_ok w -> ast_ok nm ->
  (forall x, world_env w x = e x) -> eval_internal (eval_fuel fs f) (process_fuel fs f) w nm = Ok (wa, sa, ca) -> block_new sa ca = Ok nb ->
  wf_block nb /\ block_marks nb = concat ps /\ same_but_names w wa /\ pieced ps nb.
Proof.
  intros fs e nm ps d H f w wa sa ca nb Wok Aok Eq Ev Eb.
  destruct (expands_any fs e nm ps d H f w Wok Aok Eq) as [B|(w' & s' & cs' & E' & Wc & M & Sb & _)]; [congruence|].
  rewrite Ev in E'. inversion E'; subst w' s' cs'. destruct (block_new_ok sa ca Wc) as (b & Eb' & Wb & Mb & _).
  rewrite Eb in Eb'. inversion Eb'; subst b. assert (P := block_new_pieced sa ca nb Wc Eb). rewrite M in P. ands; auto. exact (pieced_text _ _ P).
Qed.

Lemma expands_name : forall fs e nm m d, expands e nm m d -> forall f w wa sa ca nb, world_ok w -> ast_ok nm ->
  (forall x, world_env w x = e x) -> eval_internal (eval_fuel fs f) (process_fuel fs f) w nm = Ok (wa, sa, ca) -> block_new sa ca = Ok nb ->
  wf_block nb /\ block_marks nb = m /\ same_but_names w wa /\ (one_piece nm -> length (b_content nb) <= 1).
Proof.
  intros fs e nm m d (ps & H & ->) f w wa sa ca nb Wok Aok Eq Ev Eb.
  destruct (pieces_name fs e nm ps d H f w wa sa ca nb Wok Aok Eq Ev Eb) as (Wb & Mb & Sb & P). ands; auto.
  intros O. exact (pieced_one _ _ P (one_piece_in _ _ _ _ H O)).
Qed.

Definition all_free (w : world) : Prop := forall id v, get_variable (w_db w) id = Some v -> eval_free (v_ast v).
Lemma sbn_free : forall w w', same_but_names w w' -> all_free w -> all_free w'.
Proof. intros w w' (D & _) H id v G. rewrite D in G. eauto. Qed.

Lemma looks_up_recorded : forall fs e a x, looks_up e a x -> forall f w w' s cs, world_ok w -> ast_ok a ->
  (forall nm, world_env w nm = e nm) -> eval_free a -> all_free w ->
  eval_internal (eval_fuel fs f) (process_fuel fs f) w a = Ok (w', s, cs) ->
  exists id, variable_name (w_names w') x = Some id /\ In id s.
Proof.
  intros fs e.
  (* the value of a looked-up variable is evaluated *)
  assert (V : forall f wa sa x w' s b w v, deref_variable (eval_fuel fs f) wa sa x = Ok (w', s, b) -> world_ok w -> same_but_names w wa ->
     (forall nm, world_env w nm = e nm) -> all_free w ->
     (exists id, variable_name (w_names w') x = Some id /\ In id s) /\
     (e x = Some v -> exists w1 g sv cv, f = S g /\ same_but_names w w1 /\ ast_ok v /\ eval_free v /\
        eval_internal (eval_fuel fs g) (process_fuel fs g) w1 v = Ok (w', sv, cv) /\ incl sv s)).
  { intros f wa sa x w' s b w v D Wok Sb Eq Fr. apply deref_inv in D as (w1 & id & Sb1 & Vn & Is & _ & D).
    assert (Sb2 : same_but_names w w1) by (eapply sbn_trans; eauto). pose proof (sbn_ok _ _ Sb2 Wok) as Wok1. pose proof (sbn_free _ _ Sb2 Fr) as Fr1.
    pose proof (env_lookup _ _ _ Vn) as Lk. rewrite (sbn_env _ _ Sb2 Wok), Eq in Lk.
    destruct (get_variable (w_db w1) id) as [vp|] eqn:G.
    - destruct D as (g & sv & cv & -> & Ev & Eb & Inc).
      assert (Sb3 : same_but_names w1 w') by (eapply eval_internal_frame; eauto).
      split; [exists id; split; auto; eapply sbn_name; eauto|]. rewrite Lk. cbn. intros Q. inversion Q; subst v.
      exists w1, g, sv, cv. ands; eauto. apply (Wok1 id vp G).
    - destruct D as (-> & ->). split; [exists id; auto|]. rewrite Lk. discriminate. }
  intros a x H. induction H; intros f w w' s cs Wok Aok Eq Fr Frs Ev.
  - apply var_inv in Ev as (wa & sa & ca & nb & En & Eb & Inc & x & b & D & X1 & X2).
    destruct (expands_name fs e nm m d H f w wa sa ca nb Wok Aok Eq En Eb) as (Wb & M & Sb & O). subst m.
    rewrite (X1 Wb H0) in D. destruct (V _ _ _ _ _ _ _ w (AEmpty Synthetic) D Wok Sb Eq Frs) as (Q & _). exact Q.
  - apply var_inv in Ev as (wa & sa & ca & nb & En & Eb & Inc & x & b & D & X1 & X2).
    destruct (pieces_name fs e nm ps d H f w wa sa ca nb Wok Aok Eq En Eb) as (Wb & M & Sb & O). rewrite <- M in *.
    rewrite (X2 Wb (pieced_one _ _ O H0) n k r H1) in D. destruct (V _ _ _ _ _ _ _ w (AEmpty Synthetic) D Wok Sb Eq Frs) as (Q & _). exact Q.
  - pose proof (eval_internal_frame _ _ _ _ _ _ _ Fr Ev Frs) as Sbw.
    apply var_inv in Ev as (wa & sa & ca & nb & En & Eb & Inc & y & b & D & X1 & X2).
    destruct (IHlooks_up f w wa sa ca Wok Aok Eq Fr Frs En) as (id & Vn & Is). exists id. split; [|apply Inc, Is].
    pose proof (eval_internal_frame fs f w nm wa sa ca Fr En Frs) as Sba.
    destruct (V _ _ _ _ _ _ _ w (AEmpty Synthetic) D Wok Sba Eq Frs) as (_ & _).
    apply deref_inv in D as (w1 & id1 & Sb1 & Vn1 & _ & _ & D).
    pose proof (sbn_name _ _ _ _ Sb1 Vn) as Vn2.
    destruct (get_variable (w_db w1) id1) as [vp|] eqn:G; [|destruct D as (-> & _); exact Vn2].
    destruct D as (g & sv & cv & -> & Ev & _).
    assert (Fr1 : all_free w1) by (eapply sbn_free; [|eapply sbn_free; [|exact Frs]]; eauto).
    eapply sbn_name; [|exact Vn2]. exact (eval_internal_frame fs g w1 (v_ast vp) w' sv cv (Fr1 _ _ G) Ev Fr1).
  - apply var_inv in Ev as (wa & sa & ca & nb & En & Eb & Inc & y & b & D & X1 & X2).
    destruct (expands_name fs e nm m d H f w wa sa ca nb Wok Aok Eq En Eb) as (Wb & M & Sb & O). subst m.
    rewrite (X1 Wb H0) in D. destruct (V _ _ _ _ _ _ _ w v D Wok Sb Eq Frs) as (_ & Q).
    destruct (Q H1) as (w1 & g & sv & cv & -> & Sb1 & Av & Fv & Evv & Incv).
    destruct (IHlooks_up g w1 w' sv cv) as (id & Vn & Is); auto.
    + eapply sbn_ok; eauto.
    + intros z. rewrite (sbn_env _ _ Sb1 Wok). apply Eq.
    + eapply sbn_free; eauto.
    + exists id. split; auto.
  - apply var_inv in Ev as (wa & sa & ca & nb & En & Eb & Inc & y & b & D & X1 & X2).
    destruct (pieces_name fs e nm ps d H f w wa sa ca nb Wok Aok Eq En Eb) as (Wb & M & Sb & O). rewrite <- M in *.
    rewrite (X2 Wb (pieced_one _ _ O H0) n k r H1) in D. destruct (V _ _ _ _ _ _ _ w v D Wok Sb Eq Frs) as (_ & Q).
    destruct (Q H2) as (w1 & g & sv & cv & -> & Sb1 & Av & Fv & Evv & Incv).
    destruct (IHlooks_up g w1 w' sv cv) as (id & Vn & Is); auto.
    + eapply sbn_ok; eauto.
    + intros z. rewrite (sbn_env _ _ Sb1 Wok). apply Eq.
    + eapply sbn_free; eauto.
    + exists id. split; auto.
  - rewrite eval_concat in Ev. cbn [ast_ok eval_free] in Aok, Fr.
    assert (G : forall ns w s0 c0, In a ns -> world_ok w -> fold_right (fun n P => ast_ok n /\ P) True ns -> (forall nm, world_env w nm = e nm) ->
      fold_right (fun n P => eval_free n /\ P) True ns -> all_free w ->
      eval_nodes (eval_fuel fs f) (process_fuel fs f) w ns s0 c0 = Ok (w', s, cs) ->
      exists id, variable_name (w_names w') x = Some id /\ In id s); [|eauto].
    clear - IHlooks_up.
    assert (Mon : forall l w s c w' s' c', fold_right (fun n P => eval_free n /\ P) True l -> all_free w ->
       eval_nodes (eval_fuel fs f) (process_fuel fs f) w l s c = Ok (w', s', c') -> same_but_names w w' /\ incl s s').
    { clear. induction l as [|n l IHl]; cbn [eval_nodes]; intros w s c w' s' c' Fr Frs E; [inversion E; subst; split; [apply sbn_refl|apply incl_refl]|].
      apply bind3_ok in E as (w1 & s1 & c1 & E1 & E). destruct Fr as (Fr1 & Fr).
      pose proof (eval_internal_frame _ _ _ _ _ _ _ Fr1 E1 Frs) as Sb1.
      apply IHl in E as (Sb & E); [|exact Fr|eapply sbn_free; eauto]. split; [eapply sbn_trans; eauto|].
      intros y Hy. apply E, set_union_In. auto. }
    induction ns as [|n ns IH]; intros w s0 c0 I Wok Aok Eq Fr Frs E; [destruct I|]. cbn [eval_nodes] in E.
    apply bind3_ok in E as (w1 & s1 & c1 & E1 & E). destruct Fr as (Fr1 & Fr). destruct Aok as (Aok1 & Aok).
    pose proof (eval_internal_frame _ _ _ _ _ _ _ Fr1 E1 Frs) as Sb1. pose proof (sbn_free _ _ Sb1 Frs) as Frs1.
    destruct I as [->|I].
    + destruct (IHlooks_up f w w1 s1 c1 Wok Aok1 Eq Fr1 Frs E1) as (id & Vn & Is). destruct (Mon _ _ _ _ _ _ _ Fr Frs1 E) as (Sb2 & Inc).
      exists id. split; [eapply sbn_name; eauto|]. apply Inc, set_union_In. auto.
    + apply (IH w1 (set_union s0 s1) (c0 ++ c1)); auto; [eapply sbn_ok; eauto|]. intros z. rewrite (sbn_env _ _ Sb1 Wok). apply Eq.
Qed.

(** * Circular definitions *)
Lemma needs_stuck : forall fs e (S : str -> Prop),
  (forall x, S x -> exists v, e x = Some v /\ needs e S v) ->
  forall f a, needs e S a -> forall w, world_ok w -> ast_ok a -> (forall nm, world_env w nm = e nm) ->
  eval_internal (eval_fuel fs f) (process_fuel fs f) w a = OutOfFuel.
Proof.
  intros fs e S HS. induction f as [f IHf] using (well_founded_induction lt_wf).
  assert (V : forall wa sa x w, world_ok w -> same_but_names w wa -> (forall nm, world_env w nm = e nm) -> S x ->
     deref_variable (eval_fuel fs f) wa sa x = OutOfFuel).
  { intros wa sa x w Wok Sb Eq Sx. unfold deref_variable. destruct (world_intern_variable wa x) as [w1 id] eqn:I.
    apply intern_world in I as (Sb1 & Vn). assert (Sb2 : same_but_names w w1) by (eapply sbn_trans; eauto).
    pose proof (env_lookup _ _ _ Vn) as Lk. rewrite (sbn_env _ _ Sb2 Wok), Eq in Lk.
    destruct (HS x Sx) as (v & Ex & Nv). rewrite Ex in Lk. destruct (get_variable (w_db w1) id) as [vp|] eqn:G; [|discriminate].
    cbn in Lk. inversion Lk; subst v. destruct f as [|g]; [reflexivity|]. cbn [eval_fuel]. unfold eval_step.
    rewrite (IHf g ltac:(lia) _ Nv w1); [reflexivity|eapply sbn_ok; eauto| |].
    - apply (sbn_ok _ _ Sb2 Wok id vp G).
    - intros z. rewrite (sbn_env _ _ Sb2 Wok). apply Eq. }
  intros a H. induction H; intros w Wok Aok Eq; cbn [eval_internal].
  - destruct H as (ps & H & ->). set (m := concat ps) in *.
    destruct (expands_any fs e nm ps d H f w Wok Aok Eq) as [->|(wa & sa & ca & Ev & Wc & M & Sb & _)]; [reflexivity|].
    apply (f_equal (@concat _)) in M. fold (crefs_marks ca) in M. fold m in M.
    rewrite Ev. cbn [bind]. destruct (block_new_ok sa ca Wc) as (b & Eb & Wb & Mb & _). rewrite Eb. cbn [bind].
    destruct (colon_find_plain (block_span b)) as (ks & Ec); [apply block_span_wf; auto|rewrite block_span_marks, Mb, M; auto|].
    rewrite Ec. cbn [bind]. rewrite (block_into_string_ok b Wb). cbn [bind].
    rewrite <- block_marks_text, Mb, M. fold (chars m). rewrite (V wa _ (chars m) w); auto.
  - destruct (expands_any fs e nm ps d H f w Wok Aok Eq) as [->|(wa & sa & ca & Ev & Wc & M & Sb & _)]; [reflexivity|].
    rewrite Ev. cbn [bind]. destruct (block_new_ok sa ca Wc) as (b & Eb & Wb & Mb & _).
    assert (P := block_new_pieced sa ca b Wc Eb). rewrite M in P. rewrite Eb. cbn [bind].
    destruct (colon_find_subst (block_span b) n k r) as (rest & sn & sk & c & q & Ec & Wr & Wn & Wk & Mn & Mk & Mr);
        [apply block_span_wf; auto|exact (pieced_one _ _ P H0)|rewrite block_span_marks, (pieced_text _ _ P); auto|].
    rewrite Ec. cbn [bind].
    destruct (drop_last_ok sn n c Wn Mn) as (sn' & En & Wn' & Mn' & _). rewrite En. cbn [bind].
    destruct (to_new_block_ok sn' Wn') as (bn & Ebn & Wbn & Mbn & _). rewrite Ebn. cbn [bind].
    destruct (drop_last_ok sk k q Wk Mk) as (sk' & Ek & Wk' & Mk' & _). rewrite Ek. cbn [bind].
    destruct (to_new_block_ok sk' Wk') as (bk & Ebk & Wbk & Mbk & _). rewrite Ebk. cbn [bind].
    destruct (to_new_block_ok rest Wr) as (br & Ebr & Wbr & Mbr & _). rewrite Ebr. cbn [bind].
    rewrite (block_into_string_ok bn Wbn). cbn [bind]. rewrite <- block_marks_text, Mbn, Mn'. fold (chars n).
    rewrite (V wa _ (chars n) w); auto.
  - rewrite (IHneeds w); auto.
  - fold (eval_internal (eval_fuel fs f) (process_fuel fs f)).
    change (eval_nodes (eval_fuel fs f) (process_fuel fs f) w (pre ++ a :: post) [] [] = OutOfFuel). cbn [ast_ok] in Aok.
    destruct H as (ps & H & _). revert Aok. revert w Wok Eq. generalize (@nil N) (@nil cref). induction H as [|b ns m1 d1 m2 d2 Hb Hns IH]; intros s0 c0 w Wok Eq Aok.
    + cbn [app eval_nodes]. rewrite IHneeds; auto. apply Aok.
    + cbn [app eval_nodes]. destruct Aok as (Ab & Aok).
      destruct (expands_any fs e b m1 d1 Hb f w Wok Ab Eq) as [->|(wa & sa & ca & Ev & Wc & M & Sb & _)]; [reflexivity|].
      rewrite Ev. cbn [bind]. apply IH; auto; [eapply sbn_ok; eauto|]. intros z. rewrite (sbn_env _ _ Sb Wok). apply Eq.
  - rewrite (IHneeds w); auto.
Qed.

(** * Ranked definitions *)
Section Total.
  Context {A : Type} (ch : A -> char).
  Lemma occ_dec : forall (qk t : str), {p : str & {q : str | t = p ++ qk ++ q /\ forall p' q', t = p' ++ qk ++ q' -> length p <= length p'}} +
     {forall p q, t <> p ++ qk ++ q}.
  Proof.
    intros qk. induction t as [|c t IH].
    - destruct qk as [|k qk].
      + left. exists [], []. split; auto. intros. cbn. lia.
      + right. intros p q E. destruct p; discriminate.
    - destruct (list_eq_dec N.eq_dec (firstn (length qk) (c :: t)) qk) as [E|E].
      + left. exists [], (skipn (length qk) (c :: t)). split; [|intros; cbn; lia].
        cbn [app]. rewrite <- E at 1. symmetry. apply firstn_skipn.
      + destruct IH as [(p & q & Ep & Min)|No].
        * left. exists (c :: p), q. split; [cbn; f_equal; exact Ep|]. intros p' q' E'. destruct p' as [|c' p'].
          { exfalso. apply E. rewrite E'. cbn [app]. rewrite firstn_app, firstn_all, Nat.sub_diag. cbn. apply app_nil_r. }
          cbn in E' |- *. inversion E'; subst. specialize (Min p' q' H1). lia.
        * right. intros p q E'. destruct p as [|c' p].
          { apply E. rewrite E'. cbn [app]. rewrite firstn_app, firstn_all, Nat.sub_diag. cbn. apply app_nil_r. }
          inversion E'; subst. eapply No; eauto.
  Qed.

  Lemma replaced_total : forall pk qk pr qr (w : list A), exists w', replaced ch pk qk pr qr w w'.
  Proof.
    intros pk qk pr qr w.
    destruct (list_eq_dec N.eq_dec (List.map ch (firstn (length pk) w)) pk) as [E|E].
    2:{ exists w. apply R_keep. intros stem (a & z & Ew & Ea & _). apply E. subst w.
        rewrite <- Ea at 1. rewrite map_length, firstn_app, firstn_all, Nat.sub_diag. cbn. rewrite app_nil_r. exact Ea. }
    set (t := skipn (length pk) w). destruct (occ_dec qk (List.map ch t)) as [(p & q & Ep & Min)|No].
    - destruct (Nat.eq_dec (length q) 0) as [L|L].
      + destruct q; [|discriminate]. exists (pr ++ firstn (length p) t ++ qr). apply R_match.
        exists (firstn (length pk) w), (skipn (length p) t). ands.
        * rewrite firstn_skipn. symmetry. apply firstn_skipn.
        * exact E.
        * rewrite <- skipn_map, Ep, app_nil_r, skipn_app, skipn_all, Nat.sub_diag. reflexivity.
        * intros p' q' E'. rewrite firstn_skipn in E'. specialize (Min p' q' E'). rewrite firstn_length. lia.
      + exists w. apply R_keep. intros stem (a & z & Ew & Ea & Ez & M).
        assert (La : length a = length pk) by (rewrite <- Ea, map_length; reflexivity).
        assert (Et : t = stem ++ z). { unfold t. rewrite Ew, <- La, skipn_app, skipn_all, Nat.sub_diag. reflexivity. }
        rewrite Et in Ep, Min. specialize (M p q Ep). specialize (Min (List.map ch stem) []). rewrite map_app, Ez, app_nil_r in Min.
        specialize (Min eq_refl). rewrite map_length in Min.
        apply (f_equal (@List.length N)) in Ep. rewrite map_length, !app_length in Ep.
        assert (length z = length qk) by (rewrite <- Ez, map_length; reflexivity). lia.
    - exists w. apply R_keep. intros stem (a & z & Ew & Ea & Ez & _).
      assert (La : length a = length pk) by (rewrite <- Ea, map_length; reflexivity).
      assert (Et : t = stem ++ z). { unfold t. rewrite Ew, <- La, skipn_app, skipn_all, Nat.sub_diag. reflexivity. }
      apply (No (List.map ch stem) []). rewrite Et, map_app, Ez, app_nil_r. reflexivity.
  Qed.

  Lemma substituted_total : forall sp k r v, exists out, substituted ch sp k r v out.
  Proof.
    intros sp k r v.
    assert (P : exists pk qk pr qr, pattern ch k r pk qk pr qr).
    { destruct (unquote ch percent [] k) as [o [c rest|pend]] eqn:Ek.
      - destruct (unquote ch percent [] r) as [ro [rc rrest|rpend]] eqn:Er; [eauto 6 using P_stem|eauto 6 using P_no_stem].
      - eauto 6 using P_suffix. }
    destruct P as (pk & qk & pr & qr & P).
    assert (F : forall ws, exists ws', Forall2 (replaced ch pk qk pr qr) ws ws').
    { induction ws as [|x ws (ws' & IH)]; [exists []; constructor|]. destruct (replaced_total pk qk pr qr x) as (x' & R). exists (x' :: ws'). constructor; auto. }
    destruct (F (subst_words ch v)) as (ws & Fw). exists (join sp ws), pk, qk, pr, qr, ws. auto.
  Qed.
End Total.

Lemma cut_replaced_total : forall {A} (ch : A -> char) pk qk pr qr w, exists w', cut_replaced ch pk qk pr qr w w'.
Proof.
  intros A ch pk qk pr qr w. destruct (replaced_total (tch ch) pk qk (List.map (pair false) pr) (List.map (pair false) qr) w) as (w' & R).
  inversion R as [? stem M|? N]; subst.
  - pose proof M as (a & z & -> & Ea & Ez & _). eexists. apply CR_match; eauto.
  - eexists. apply CR_keep. exact N.
Qed.

Lemma cut_substituted_total : forall {A} (ch : A -> char) sp k r ps, exists out, cut_substituted ch sp k r ps out.
Proof.
  intros A ch sp k r ps. destruct (substituted_total ch sp k r []) as (_ & pk & qk & pr & qr & _ & P & _).
  assert (F : forall ws, exists ws', Forall2 (cut_replaced ch pk qk pr qr) ws ws').
  { induction ws as [|x ws (ws' & IH)]; [exists []; constructor|]. destruct (cut_replaced_total ch pk qk pr qr x) as (x' & R). exists (x' :: ws'). constructor; auto. }
  destruct (F (subst_words (tch ch) (in_pieces ps))) as (ws & Fw). exists (join sp ws), pk, qk, pr, qr, ws. auto.
Qed.

(** In a value of whole words, the words are replaced. *)
Lemma whole_cut : forall sp k r ps out, words_whole ps -> substituted fst sp k r (concat ps) out -> cut_substituted fst sp k r ps out.
Proof.
  intros sp k r ps out W S. destruct (cut_substituted_total fst sp k r ps) as (out' & C). pose proof (cut_whole _ _ _ _ _ W C) as S'.
  assert (out = out') as -> by (eapply substituted_det; eauto). exact C.
Qed.

Lemma E_subst : forall e l nm m1 d1 n k r v m2 d2 out, expands e nm m1 d1 -> one_piece nm -> is_subst m1 n k r ->
  e (chars n) = Some v -> expands e v m2 d2 -> whole_words v -> substituted fst (made 32%N) k r m2 out ->
  expands e (AVar l nm) out (d1 ++ chars n :: d2).
Proof.
  intros e l nm m1 d1 n k r v m2 d2 out (ps & X & ->) O S E (qs & Y & ->) W So. exists [out]. split; [|cbn; now rewrite app_nil_r].
  eapply X_subst; eauto using one_piece_in. apply whole_cut; [exact (whole_words_in _ _ _ _ Y W)|exact So].
Qed.

(** Is the text a substitution reference? *)
Lemma split_last : forall c (m : list (N * location)), ~ has fst c m \/
  exists a x b, m = a ++ x :: b /\ fst x = c /\ ~ has fst c b.
Proof.
  intros c. induction m as [|y m IH].
  - left. intros (x & I & _). destruct I.
  - destruct IH as [No|(a & x & b & E & Ex & Nb)].
    + destruct (N.eq_dec (fst y) c) as [Q|Q].
      * right. exists [], y, m. auto.
      * left. intros H. apply has_cons in H as [H|H]; auto.
    + right. exists (y :: a), x, b. subst m. auto.
Qed.

Lemma plain_dec : forall m, plain m \/ exists n k r, is_subst m n k r.
Proof.
  intros m. destruct (split_last 58%N m) as [No|(a & x & b & -> & Ex & Nb)].
  - left. intros n k r (c & q & E & Ec & _). apply No. exists c. split; [|exact Ec]. rewrite E. apply in_or_app. right. left. reflexivity.
  - destruct (split_last 61%N b) as [No|(k & q & r & -> & Eq & Nr)].
    + left. intros n k r (c & q & E & Ec & Eq & Nk & Nr).
      destruct (last_unique 58%N _ _ _ _ _ _ E Ex Ec Nb Nk) as (_ & _ & ->).
      apply No. exists q. split; [|exact Eq]. apply in_or_app. right. left. reflexivity.
    + right. exists a, k, r, x, q. ands; auto.
Qed.

Theorem ranked_pieces : forall e rank, (forall x v, e x = Some v -> refs_below e rank (rank x) v) ->
  forall k a, refs_below e rank k a -> exists ps d, pieces_of e a ps d.
Proof.
  intros e rank HE. induction k as [k IHk] using (well_founded_induction lt_wf).
  apply (ast_ind' (fun a => refs_below e rank k a -> exists ps d, pieces_of e a ps d)); cbn [refs_below]; try contradiction; eauto using X_empty, X_const, X_pre.
  - intros l ns F B. assert (X : exists ps d, pieces_of_all e ns ps d).
    { induction F as [|a ns Ha Hns IH]; [eauto using X_nil|]. destruct B as (Ba & Bs). destruct (Ha Ba) as (m1 & d1 & E1).
      destruct (IH Bs) as (m2 & d2 & E2). eauto using X_cons. }
    destruct X as (m & d & X). eauto using X_concat.
  - intros l nm IH (Bn & B). destruct (IH Bn) as (ps & d & En). destruct (B ps d En) as (Bp & Bs).
    destruct (plain_dec (concat ps)) as [P|(n & key & r & Su)].
    + destruct (e (chars (concat ps))) as [v|] eqn:Ev; [|eauto using X_undefined].
      destruct (IHk (rank (chars (concat ps))) (Bp P) v (HE _ _ Ev)) as (m2 & d2 & E2). eauto using X_var.
    + destruct (Bs n key r Su) as (Lt & Op).
      destruct (e (chars n)) as [v|] eqn:Ev; [|eauto using X_subst_undefined].
      destruct (IHk (rank (chars n)) Lt v (HE _ _ Ev)) as (m2 & d2 & E2).
      destruct (cut_substituted_total fst (made 32%N) key r m2) as (out & So). eauto using X_subst.
Qed.

Theorem ranked_expands : forall e rank, (forall x v, e x = Some v -> refs_below e rank (rank x) v) ->
  forall k a, refs_below e rank k a -> exists m d, expands e a m d.
Proof. intros e rank H k a R. destruct (ranked_pieces e rank H k a R) as (ps & d & X). exists (concat ps), d, ps. auto. Qed.

(** * Expansion only depends on what is looked up; it is unique *)
Lemma pieces_frame : forall e e' a m d, pieces_of e a m d -> (forall x, In x d -> e' x = e x) -> pieces_of e' a m d.
Proof.
  intros e e' a m d H. revert a m d H.
  apply (pieces_mut e (fun a m d _ => (forall x, In x d -> e' x = e x) -> pieces_of e' a m d)
                       (fun ns m d _ => (forall x, In x d -> e' x = e x) -> pieces_of_all e' ns m d));
    try (intros; constructor; fail); intros.
  - apply X_concat. auto.
  - apply X_undefined; auto. + apply H. intros. apply H0, in_or_app. auto. + rewrite H0; auto. apply in_or_app. right. left. reflexivity.
  - apply X_var with v; auto. + apply H. intros. apply H1, in_or_app. auto.
    + rewrite H1; auto. apply in_or_app. right. left. reflexivity.
    + apply H0. intros. apply H1, in_or_app. right. right. auto.
  - apply X_subst_undefined with p1 k r; auto. + apply H. intros. apply H0, in_or_app. auto. + rewrite H0; auto. apply in_or_app. right. left. reflexivity.
  - apply X_subst with p1 k r v p2; auto. + apply H. intros. apply H1, in_or_app. auto.
    + rewrite H1; auto. apply in_or_app. right. left. reflexivity.
    + apply H0. intros. apply H1, in_or_app. right. right. auto.
  - apply X_cons; [apply H|apply H0]; intros; apply H1, in_or_app; auto.
Qed.

Lemma expands_frame : forall e e' a m d, expands e a m d -> (forall x, In x d -> e' x = e x) -> expands e' a m d.
Proof. intros e e' a m d (ps & X & ->) H. exists ps. split; [eapply pieces_frame; eauto|reflexivity]. Qed.

Lemma is_subst_det : forall m n k r n' k' r', is_subst m n k r -> is_subst m n' k' r' -> n' = n /\ k' = k /\ r' = r.
Proof.
  intros m n k r n' k' r' (c & q & E & Ec & Eq & Nk & Nr) (c' & q' & E' & Ec' & Eq' & Nk' & Nr'). rewrite E in E'.
  destruct (last_unique 58%N _ _ _ _ _ _ E' Ec Ec' Nk Nk') as (-> & _ & E2).
  destruct (last_unique 61%N _ _ _ _ _ _ E2 Eq Eq' Nr Nr') as (-> & _ & ->). auto.
Qed.

Lemma pieces_det : forall e a m d, pieces_of e a m d -> forall m' d', pieces_of e a m' d' -> m' = m /\ d' = d.
Proof.
  intros e.
  apply (pieces_mut e (fun a m d _ => forall m' d', pieces_of e a m' d' -> m' = m /\ d' = d)
                       (fun ns m d _ => forall m' d', pieces_of_all e ns m' d' -> m' = m /\ d' = d)).
  - intros l m' d' X. inversion X; auto.
  - intros l s m' d' X. inversion X; auto.
  - intros l b m' d' X. inversion X; auto.
  - intros l ns m d _ IH m' d' X. inversion X; subst; auto.
  - intros l nm m1 d1 _ IH P U m' d' X. inversion X; subst; match goal with Y : pieces_of e nm _ _ |- _ => apply IH in Y as (-> & ->) end;
      try congruence; try (match goal with I : is_subst _ _ _ _ |- _ => destruct (P _ _ _ I) end). auto.
  - intros l nm m1 d1 v m2 d2 _ IH P U _ IH2 m' d' X. inversion X; subst; match goal with Y : pieces_of e nm _ _ |- _ => apply IH in Y as (-> & ->) end;
      try congruence; try (match goal with I : is_subst _ _ _ _ |- _ => destruct (P _ _ _ I) end).
    match goal with Y : e _ = Some ?w |- _ => assert (w = v) by congruence; subst end.
    match goal with Y : pieces_of e v _ _ |- _ => apply IH2 in Y as (-> & ->) end. auto.
  - intros l nm m1 d1 n k r _ IH Op Su U m' d' X. inversion X; subst; match goal with Y : pieces_of e nm _ _ |- _ => apply IH in Y as (-> & ->) end;
      try (match goal with I : plain _ |- _ => destruct (I _ _ _ Su) end);
      match goal with I : is_subst _ _ _ _, J : is_subst _ _ _ _ |- _ => destruct (is_subst_det _ _ _ _ _ _ _ I J) as (-> & -> & ->) end; try congruence. auto.
  - intros l nm m1 d1 n k r v m2 d2 out _ IH Op Su U _ IH2 So m' d' X. inversion X; subst; match goal with Y : pieces_of e nm _ _ |- _ => apply IH in Y as (-> & ->) end;
      try (match goal with I : plain _ |- _ => destruct (I _ _ _ Su) end);
      match goal with J : is_subst (concat m1) ?x ?y ?z |- _ => lazymatch J with Su => fail | _ => destruct (is_subst_det _ _ _ _ _ _ _ Su J) as (-> & -> & ->) end end; try congruence.
    match goal with Y : e _ = Some ?w |- _ => assert (w = v) by congruence; subst end.
    match goal with Y : pieces_of e v _ _ |- _ => apply IH2 in Y as (-> & ->) end. split; auto. f_equal. eapply cut_substituted_det; eauto.
  - intros m' d' X. inversion X; auto.
  - intros a ns m1 d1 m2 d2 _ IH _ IH2 m' d' X. inversion X; subst.
    match goal with Y : pieces_of e a _ _ |- _ => apply IH in Y as (-> & ->) end.
    match goal with Y : pieces_of_all e ns _ _ |- _ => apply IH2 in Y as (-> & ->) end. auto.
Qed.

Lemma expands_det : forall e a m d, expands e a m d -> forall m' d', expands e a m' d' -> m' = m /\ d' = d.
Proof. intros e a m d (ps & X & ->) m' d' (qs & Y & ->). destruct (pieces_det e a ps d X qs d' Y) as (-> & ->). auto. Qed.
