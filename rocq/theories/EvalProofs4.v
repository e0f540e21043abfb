(** Proofs about the evaluator: concatenation, appending, simple and recursive
    variables. *)
From Verif Require Import Base LocModel EvdModel NomModel AstModel ParseModel EvdSpec ParseSpec DbSpec EvalSpec DbProofs
  EvdProofs EvdProofs2 EvdProofs3 ParseProofs ParseProofs2 ParseProofs3 ParseProofs4 ParseProofs5 SubstProofs EvalProofs EngineModel
  EvalProofs2 FuelProofs EvalProofs3.

Lemma expands_evaluates : forall fs w a m d, world_ok w -> ast_ok a -> expands (world_env w) a m d -> evaluates fs w a m d.
Proof.
  intros fs w a m d Wok Aok (ps & H & ->). destruct (pieces_good fs _ a ps d H) as (f0 & G). exists (S f0). intros fuel L.
  destruct fuel as [|f]; [lia|].
  destruct (good_eval fs f _ a ps d (G f ltac:(lia)) w Wok Aok (fun _ => eq_refl)) as (w' & b & E & Wb & M & Sb & R & _).
  exists w', b. ands; auto. rewrite (block_into_string_ok b Wb), <- block_marks_text, M. reflexivity.
Qed.

Lemma needs_diverges : forall fs w (S : str -> Prop) a,
  (forall x, S x -> exists v, world_env w x = Some v /\ needs (world_env w) S v) ->
  world_ok w -> ast_ok a -> needs (world_env w) S a -> diverges fs w a.
Proof.
  intros fs w S a HS Wok Aok N [|f]; [reflexivity|]. cbn [eval_fuel]. unfold eval_step.
  rewrite (needs_stuck fs (world_env w) S HS f a N w Wok Aok (fun _ => eq_refl)). reflexivity.
Qed.

(** * References by constant name *)
Lemma located_chars : forall s, chars (located_marks s) = l_str s.
Proof.
  intros s. unfold chars, located_marks. generalize (l_loc s). induction (l_str s) as [|c t IH]; intros l; cbn; [reflexivity|]. f_equal. apply IH.
Qed.

Lemma expands_reference : forall e l s v m d, plain (located_marks s) -> e (l_str s) = Some v -> expands e v m d ->
  expands e (reference l s) m (l_str s :: d).
Proof.
  intros e l s v m d P E X. pose proof (located_chars s) as Lc.
  change (l_str s :: d) with ([] ++ l_str s :: d). rewrite <- Lc in E |- *. apply (E_var e l (AConst l s) (located_marks s) [] v); auto. apply E_const.
Qed.

(** * A finite expansion does not depend on itself *)
Lemma pieces_inner : forall e a m d, pieces_of e a m d -> forall x v, In x d -> e x = Some v ->
  exists m' d', pieces_of e v m' d' /\ length d' < length d.
Proof.
  intros e.
  assert (K : forall m2 d2 (x : str) v d1, pieces_of e v m2 d2 -> exists m' d', pieces_of e v m' d' /\ length d' < length (d1 ++ x :: d2)).
  { intros. exists m2, d2. split; auto. rewrite app_length. cbn. lia. }
  apply (pieces_mut e (fun a m d _ => forall x v, In x d -> e x = Some v -> exists m' d', pieces_of e v m' d' /\ length d' < length d)
                       (fun ns m d _ => forall x v, In x d -> e x = Some v -> exists m' d', pieces_of e v m' d' /\ length d' < length d)); intros;
    try (match goal with H : In _ [] |- _ => destruct H end).
  - eauto.
  - apply in_app_or in H0 as [I|[<-|[]]]; [|congruence]. destruct (H _ _ I H1) as (m' & d' & X & L). exists m', d'. split; auto. rewrite app_length. lia.
  - apply in_app_or in H1 as [I|[<-|I]].
    + destruct (H _ _ I H2) as (m' & d' & X & L). exists m', d'. split; auto. rewrite app_length. lia.
    + assert (v0 = v) by congruence. subst. eauto.
    + destruct (H0 _ _ I H2) as (m' & d' & X & L). exists m', d'. split; auto. rewrite app_length. cbn. lia.
  - apply in_app_or in H0 as [I|[<-|[]]]; [|congruence]. destruct (H _ _ I H1) as (m' & d' & X & L). exists m', d'. split; auto. rewrite app_length. lia.
  - apply in_app_or in H1 as [I|[<-|I]].
    + destruct (H _ _ I H2) as (m' & d' & X & L). exists m', d'. split; auto. rewrite app_length. lia.
    + assert (v0 = v) by congruence. subst. eauto.
    + destruct (H0 _ _ I H2) as (m' & d' & X & L). exists m', d'. split; auto. rewrite app_length. cbn. lia.
  - apply in_app_or in H1 as [I|I].
    + destruct (H _ _ I H2) as (m' & d' & X & L). exists m', d'. split; auto. rewrite app_length. lia.
    + destruct (H0 _ _ I H2) as (m' & d' & X & L). exists m', d'. split; auto. rewrite app_length. lia.
Qed.


Lemma expands_inner : forall e a m d, expands e a m d -> forall x v, In x d -> e x = Some v ->
  exists m' d', expands e v m' d' /\ length d' < length d.
Proof.
  intros e a m d (ps & X & _) x v I E. destruct (pieces_inner e a ps d X x v I E) as (qs & d' & Y & L).
  exists (concat qs), d'. split; [exists qs; auto|exact L].
Qed.

Lemma not_circular : forall e x v m d, e x = Some v -> expands e v m d -> ~ In x d.
Proof.
  intros e x v m d E X I. destruct (expands_inner e v m d X x v I E) as (m' & d' & X' & L).
  destruct (expands_det e v m d X m' d' X') as (_ & ->). lia.
Qed.

(** * Changing one variable *)
Lemma env_set : forall w d id x vp, variable_name (w_names w) x = Some id -> get_variable d id = Some vp ->
  world_env (set_db w d) x = Some (v_ast vp).
Proof. intros w d id x vp V G. unfold world_env, set_db. cbn [w_names w_db]. rewrite V, G. reflexivity. Qed.

Lemma env_other : forall w d id x y, variable_name (w_names w) x = Some id -> y <> x ->
  (forall j, j <> id -> get_variable d j = get_variable (w_db w) j) -> world_env (set_db w d) y = world_env w y.
Proof.
  intros w d id x y V N H. unfold world_env, set_db. cbn [w_names w_db]. destruct (variable_name (w_names w) y) as [j|] eqn:E; [|reflexivity].
  rewrite H; auto. intros ->. apply N. eapply variable_name_inj; eauto.
Qed.

Lemma nonempty_pieces : forall e ns ps d, pieces_of_all e ns ps d -> pieces_of_all e (filter a_nonempty ns) ps d.
Proof.
  intros e ns ps d H. induction H as [|a ns m1 d1 m2 d2 Ha Hns IH]; [constructor|]. cbn [filter]. destruct a; cbn [a_nonempty]; try (constructor; auto; fail).
  inversion Ha; subst. exact IH.
Qed.

Lemma collapsing_pieces : forall e l ns ps d, pieces_of_all e ns ps d -> pieces_of e (collapsing_concat l ns) ps d.
Proof.
  intros e l ns ps d H. apply nonempty_pieces in H as F.
  unfold collapsing_concat. destruct (filter a_nonempty ns) as [|a [|a' l']]; try (apply X_concat; exact F).
  inversion F as [|? ? ? ? ? ? Xa Xn]; subst. inversion Xn; subst. rewrite !app_nil_r. exact Xa.
Qed.

Lemma collapsing_expands : forall e l ns m d, expands_all e ns m d -> expands e (collapsing_concat l ns) m d.
Proof. intros e l ns m d (ps & X & ->). exists ps. split; [exact (collapsing_pieces e l ns ps d X)|reflexivity]. Qed.

Lemma append_get : forall d id l v sp, get_variable (append_to_variable d id l v sp) id =
  Some (match get_variable d id with
        | Some old => VParams (append_value l (v_ast old) (v_ast v) sp) (v_flavor old) (v_origin old)
        | None => v end).
Proof. intros. unfold get_variable, append_to_variable. cbn [db_vars]. apply mget_mset_same. Qed.
Lemma append_other : forall d id l v sp j, j <> id -> get_variable (append_to_variable d id l v sp) j = get_variable d j.
Proof. intros. unfold get_variable, append_to_variable. cbn [db_vars]. apply mget_mset_other. auto. Qed.

Lemma append_world_ok : forall w id x l v sp, world_ok w -> variable_name (w_names w) x = Some id -> ast_ok (v_ast v) ->
  world_ok (set_db w (append_to_variable (w_db w) id l v sp)).
Proof.
  intros w id x l v sp Wok V Av j vp G. cbn [w_db set_db w_names] in *.
  destruct (N.eq_dec j id) as [->|Q]; [|rewrite append_other in G by auto; auto].
  split.
  - unfold variable_name in V. destruct (interned x (n_vars (w_names w))) eqn:I; inversion V. apply interned_lt in I. cbn in *. lia.
  - rewrite append_get in G. inversion G; subst vp. destruct (get_variable (w_db w) id) as [old|] eqn:Go; [|exact Av].
    cbn [v_ast]. destruct (Wok _ _ Go) as (_ & Ao). unfold append_value.
    assert (C : forall ns, Forall ast_ok ns -> ast_ok (collapsing_concat l ns)).
    { intros ns F. unfold collapsing_concat. assert (F' : Forall ast_ok (filter a_nonempty ns)).
      { clear - F. induction F; cbn; [constructor|]. destruct (a_nonempty x); auto. }
      destruct (filter a_nonempty ns) as [|a [|a' t]]; [exact I|inversion F'; auto|].
      cbn [ast_ok]. clear - F'. induction F'; cbn; auto. }
    apply C. destruct sp; repeat constructor; auto.
Qed.

Lemma append_expands : forall w id x l old new m1 d1 m2 d2, world_ok w -> variable_name (w_names w) x = Some id ->
  get_variable (w_db w) id = Some old -> expands (world_env w) (v_ast old) m1 d1 -> expands (world_env w) (v_ast new) m2 d2 -> ~ In x d2 ->
  forall sp, expands (world_env (set_db w (append_to_variable (w_db w) id l new sp)))
    (match get_variable (append_to_variable (w_db w) id l new sp) id with Some v => v_ast v | None => AEmpty l end)
    (m1 ++ (if sp : bool then [made 32%N] else []) ++ m2) (d1 ++ d2).
Proof.
  intros w id x l old new m1 d1 m2 d2 Wok V G X1 X2 N sp. rewrite append_get, G. cbn [v_ast].
  assert (N1 : ~ In x d1). { eapply not_circular; [|exact X1]. unfold world_env. rewrite V, G. reflexivity. }
  assert (Fr : forall a m d, expands (world_env w) a m d -> ~ In x d -> expands (world_env (set_db w (append_to_variable (w_db w) id l new sp))) a m d).
  { intros a m d X Nx. eapply expands_frame; [exact X|]. intros y Iy. apply (env_other w _ id x); auto; [congruence|].
    intros j Q. apply append_other. exact Q. }
  apply Fr in X1; auto. apply Fr in X2; auto. unfold append_value. apply collapsing_expands. destruct sp.
  - apply E_cons; [exact X1|]. change d2 with ([] ++ d2). apply E_cons; [apply E_const|].
    rewrite <- (app_nil_r m2), <- (app_nil_r d2). apply E_cons; [exact X2|apply E_nil].
  - apply E_cons; [exact X1|]. cbn [app]. rewrite <- (app_nil_r m2), <- (app_nil_r d2). apply E_cons; [exact X2|apply E_nil].
Qed.

Lemma append_expands_new : forall w id x l new m2 d2, world_ok w -> variable_name (w_names w) x = Some id ->
  get_variable (w_db w) id = None -> expands (world_env w) (v_ast new) m2 d2 -> ~ In x d2 ->
  forall sp, expands (world_env (set_db w (append_to_variable (w_db w) id l new sp))) (v_ast new) m2 d2.
Proof.
  intros w id x l new m2 d2 Wok V G X2 N sp.
  eapply expands_frame; [exact X2|]. intros y Iy. apply (env_other w _ id x); auto; [congruence|].
  intros j Q. apply append_other. exact Q.
Qed.

(** `x += $(x)` is circular. *)
Lemma append_self_diverges : forall fs w id x l sp lr s, world_ok w -> variable_name (w_names w) x = Some id -> l_str s = x -> plain (located_marks s) -> asciis x ->
  (exists old m1 d1, get_variable (w_db w) id = Some old /\ expands (world_env w) (v_ast old) m1 d1) ->
  diverges fs (set_db w (append_to_variable (w_db w) id l (VParams (reference lr s) FlRecursive OrFile) sp)) (reference lr s).
Proof.
  intros fs w id x l sp lr s Wok V Es P As (old & m1 & d1 & G & X1). set (new := VParams (reference lr s) FlRecursive OrFile).
  set (w' := set_db w (append_to_variable (w_db w) id l new sp)).
  assert (N1 : ~ In x d1). { eapply not_circular; [|exact X1]. unfold world_env. rewrite V, G. reflexivity. }
  assert (X1' : expands (world_env w') (v_ast old) m1 d1).
  { eapply expands_frame; [exact X1|]. intros y Iy. apply (env_other w _ id x); auto; [congruence|]. intros j Q. apply append_other. exact Q. }
  assert (Nr : needs (world_env w') (eq x) (reference lr s)).
  { apply (N_var (world_env w') (eq x) lr (AConst lr s) (located_marks s) []); auto; [apply E_const|]. rewrite located_chars. auto. }
  apply needs_diverges with (eq x); auto.
  - intros y <-. eexists. split.
    + apply env_set with id; auto. apply append_get.
    + rewrite G. cbn [v_ast]. unfold append_value, collapsing_concat.
      assert (Q : forall pre, (forall ns, expands_all (world_env w') (filter a_nonempty pre) (fst ns) (snd ns) -> 
         match filter a_nonempty (pre ++ [reference lr s]) with [a] => needs (world_env w') (eq x) a | v' => needs (world_env w') (eq x) (AConcat l v') end)).
      { intros pre ns X. rewrite filter_app. cbn [filter a_nonempty reference]. fold (reference lr s).
        destruct (filter a_nonempty pre) as [|a t] eqn:Fp; cbn [app]; [exact Nr|].
        assert (needs (world_env w') (eq x) (AConcat l ((a :: t) ++ reference lr s :: []))) by (eapply N_concat; eauto).
        destruct t; exact H. }
      destruct sp.
      * specialize (Q [v_ast old; a_space]). cbn [app] in Q.
        assert (X : exists m d, expands_all (world_env w') (filter a_nonempty [v_ast old; a_space]) m d).
        { cbn [filter a_nonempty a_space a_constant]. destruct (a_nonempty (v_ast old)); eexists; eexists; [apply E_cons; [exact X1'|]|]; (apply E_cons; [apply E_const|apply E_nil]). }
        destruct X as (m & d & X). specialize (Q (m, d) X). fold new in Q |- *. cbn [v_ast new].
        destruct (filter a_nonempty [v_ast old; a_space; reference lr s]) as [|a [|a' t]]; exact Q.
      * specialize (Q [v_ast old]). cbn [app] in Q.
        assert (X : exists m d, expands_all (world_env w') (filter a_nonempty [v_ast old]) m d).
        { cbn [filter]. destruct (a_nonempty (v_ast old)); eexists; eexists; [apply E_cons; [exact X1'|]|]; apply E_nil. }
        destruct X as (m & d & X). specialize (Q (m, d) X). cbn [v_ast new].
        destruct (filter a_nonempty [v_ast old; reference lr s]) as [|a [|a' t]]; exact Q.
  - apply append_world_ok with x; auto. cbn. rewrite Es. exact As.
  - cbn. rewrite Es. exact As.
Qed.

(** * Concatenation, for every expression *)
Section Seq.
  Context (fs : str -> file) (f : nat).
  Notation run := (eval_fuel fs (S f)).
  Notation internal := (eval_internal (eval_fuel fs f) (process_fuel fs f)).

  Lemma run_eq : forall w a, run w a = (let* '(w, s, c) := internal w a in let* b := block_new s c in Ok (w, b)).
  Proof. reflexivity. Qed.

  Lemma block_new_app : forall s1 s2 s3 c1 c2 b1 b2, block_new s1 c1 = Ok b1 -> block_new s2 c2 = Ok b2 ->
    exists b, block_new s3 (c1 ++ c2) = Ok b /\ b_content b = b_content b1 ++ b_content b2.
  Proof.
    intros s1 s2 s3 c1 c2 b1 b2 E1 E2. unfold block_new, block_simplify in *. cbn [b_content b_sens] in *.
    apply bind_ok in E1 as (x1 & E1 & Q1). apply bind_ok in E2 as (x2 & E2 & Q2). inversion Q1; inversion Q2; subst.
    assert (M : mapM cref_simplify (filter (fun c => negb (c_len c =? 0)) c1 ++ filter (fun c => negb (c_len c =? 0)) c2) = Ok (x1 ++ x2)).
    { clear - E1 E2. revert x1 E1. induction (filter (fun c => negb (c_len c =? 0)) c1) as [|c t IH]; intros x1 E1; cbn [mapM app] in *.
      - inversion E1; subst. exact E2.
      - destruct (cref_simplify c); cbn [bind] in *; try discriminate. apply bind_ok in E1 as (y & Ey & E1). inversion E1; subst.
        rewrite (IH y Ey). reflexivity. }
    rewrite filter_app, M. cbn [bind]. eexists. split; [reflexivity|]. reflexivity.
  Qed.

  Lemma block_new_split : forall s c1 c2 b, block_new s (c1 ++ c2) = Ok b -> forall s1 s2,
    exists b1 b2, block_new s1 c1 = Ok b1 /\ block_new s2 c2 = Ok b2 /\ b_content b = b_content b1 ++ b_content b2.
  Proof.
    intros s c1 c2 b E s1 s2. unfold block_new, block_simplify in *. cbn [b_content b_sens] in *.
    apply bind_ok in E as (x & E & Q). inversion Q; subst. clear Q. rewrite filter_app in E.
    assert (M : exists x1 x2, mapM cref_simplify (filter (fun c => negb (c_len c =? 0)) c1) = Ok x1 /\
       mapM cref_simplify (filter (fun c => negb (c_len c =? 0)) c2) = Ok x2 /\ x = x1 ++ x2).
    { clear - E. revert x E. induction (filter (fun c => negb (c_len c =? 0)) c1) as [|c t IH]; intros x E; cbn [mapM app] in *.
      - exists [], x. auto.
      - destruct (cref_simplify c); cbn [bind] in *; try discriminate. apply bind_ok in E as (y & Ey & E). inversion E; subst.
        destruct (IH y Ey) as (x1 & x2 & -> & -> & ->). cbn [bind]. eexists; eexists; ands; eauto. }
    destruct M as (x1 & x2 & E1 & E2 & ->). rewrite E1, E2. cbn [bind]. eexists; eexists; ands; eauto.
  Qed.

  (** Sets. *)
  Definition from_parts (s : list N) (bs : list block) : Prop := forall id, In id s <-> exists b, In b bs /\ In id (b_sens b).

  Lemma nodes_of_seq : forall w ns w' bs, eval_seq run w ns w' bs -> forall s0 c0 b0, block_new s0 c0 = Ok b0 ->
    exists s c b, eval_nodes (eval_fuel fs f) (process_fuel fs f) w ns s0 c0 = Ok (w', s, c) /\ block_new s c = Ok b /\
      b_content b = b_content b0 ++ concat (List.map b_content bs) /\
      (forall id, In id s <-> In id s0 \/ exists b, In b bs /\ In id (b_sens b)).
  Proof.
    intros w ns w' bs H. induction H as [w|w a w1 b ns w2 bs Ha Hs IH]; intros s0 c0 b0 E0; cbn [eval_nodes].
    - exists s0, c0, b0. ands; auto.
      + cbn. rewrite app_nil_r. reflexivity.
      + intros id. split; auto. intros [I|(b & [] & _)]; auto.
    - rewrite run_eq in Ha. apply bind3_ok in Ha as (w1' & s1 & c1 & Ei & Ha). apply bind_ok in Ha as (b' & Eb & Q). inversion Q; subst w1' b'.
      rewrite Ei. cbn [bind]. destruct (block_new_app s0 s1 (set_union s0 s1) c0 c1 b0 b E0 Eb) as (b1 & E1 & C1).
      destruct (IH (set_union s0 s1) (c0 ++ c1) b1 E1) as (s & c & bb & En & Ebb & C & Ss). exists s, c, bb. ands; auto.
      + rewrite C, C1. cbn [List.map concat]. rewrite app_assoc. reflexivity.
      + intros id. rewrite Ss, set_union_In, <- (block_new_sens _ _ _ Eb). cbn. split.
        * intros [[I|I]|(x & I & J)]; eauto.
        * intros [I|(x & [<-|I] & J)]; eauto.
  Qed.

  Lemma seq_of_nodes : forall ns w s0 c0 w' s c b, eval_nodes (eval_fuel fs f) (process_fuel fs f) w ns s0 c0 = Ok (w', s, c) ->
    block_new s c = Ok b -> exists bs, eval_seq run w ns w' bs.
  Proof.
    induction ns as [|a ns IH]; intros w s0 c0 w' s c b E Eb; cbn [eval_nodes] in E.
    - inversion E; subst. exists []. constructor.
    - apply bind3_ok in E as (w1 & s1 & c1 & Ei & E). destruct (IH _ _ _ _ _ _ _ E Eb) as (bs & Hs).
      assert (X : exists t, c = (c0 ++ c1) ++ t).
      { clear - E. revert E. generalize (set_union s0 s1) (c0 ++ c1). revert w1. induction ns as [|n ns IH]; intros w1 x y E; cbn [eval_nodes] in E.
        - inversion E; subst. exists []. rewrite app_nil_r. reflexivity.
        - apply bind3_ok in E as (w2 & s2 & c2 & _ & E). apply IH in E as (t & ->). exists (c2 ++ t). rewrite app_assoc. reflexivity. }
      destruct X as (t & ->). rewrite <- app_assoc in Eb.
      destruct (block_new_split _ _ _ _ Eb s s) as (b1 & b2 & _ & E2 & _).
      destruct (block_new_split _ _ _ _ E2 s1 s) as (b3 & _ & E3 & _ & _).
      exists (b3 :: bs). econstructor; [|exact Hs]. rewrite run_eq, Ei. cbn [bind]. rewrite E3. reflexivity.
  Qed.

  Lemma run_empty : forall l w, run w (AEmpty l) = Ok (w, block_empty).
  Proof. reflexivity. Qed.

  (** Empty parts contribute nothing. *)
  Lemma seq_filter : forall ns w w' bs, eval_seq run w ns w' bs ->
    exists bs', eval_seq run w (filter a_nonempty ns) w' bs' /\ concat (List.map b_content bs') = concat (List.map b_content bs) /\
      (forall id, (exists b, In b bs' /\ In id (b_sens b)) <-> exists b, In b bs /\ In id (b_sens b)).
  Proof.
    intros ns w w' bs H. induction H as [w|w a w1 b ns w2 bs Ha Hs (bs' & S' & C' & I')].
    - exists []. split; [constructor|]. split; [reflexivity|tauto].
    - cbn [filter]. destruct (a_nonempty a) eqn:Q.
      + exists (b :: bs'). split; [econstructor; eauto|]. split; [cbn; rewrite C'; reflexivity|].
        intros id. cbn. split; intros (x & [<-|I] & J); eauto.
        * assert (K : exists b, In b bs' /\ In id (b_sens b)) by eauto. apply I' in K as (y & ? & ?). eauto.
        * assert (K : exists b, In b bs /\ In id (b_sens b)) by eauto. apply I' in K as (y & ? & ?). eauto.
      + destruct a; try discriminate. rewrite run_empty in Ha. inversion Ha; subst. exists bs'. split; [exact S'|]. split; [exact C'|].
        intros id. rewrite I'. cbn. split; [intros (x & I & J); eauto|]. intros (x & [<-|I] & J); [destruct J|eauto].
  Qed.

  Lemma seq_unfilter : forall ns w w' bs', eval_seq run w (filter a_nonempty ns) w' bs' -> exists bs, eval_seq run w ns w' bs.
  Proof.
    induction ns as [|a ns IH]; intros w w' bs' H; cbn [filter] in H.
    - inversion H; subst. exists []. constructor.
    - destruct (a_nonempty a) eqn:Q.
      + inversion H as [|? ? w1 b ? ? bs1 Ha H1]; subst. destruct (IH _ _ _ H1) as (bs & Hs). exists (b :: bs). econstructor; eauto.
      + destruct a; try discriminate. destruct (IH _ _ _ H) as (bs & Hs). exists (block_empty :: bs). econstructor; [apply run_empty|exact Hs].
  Qed.

  Lemma concat_seq : forall ns l w w' bs, eval_seq run w ns w' bs ->
    exists b, run w (AConcat l ns) = Ok (w', b) /\ b_content b = concat (List.map b_content bs) /\
      (forall id, In id (b_sens b) <-> exists p, In p bs /\ In id (b_sens p)).
  Proof.
    intros ns l w w' bs H. destruct (nodes_of_seq w ns w' bs H [] [] block_empty eq_refl) as (s & c & b & En & Eb & C & I).
    exists b. rewrite run_eq, eval_concat, En. cbn [bind]. rewrite Eb. split; [reflexivity|]. split; [exact C|].
    intros id. rewrite (block_new_sens _ _ _ Eb), I. split; auto. intros [[]|H']; auto.
  Qed.
  Lemma concat_seq_inv : forall ns l w w' b, run w (AConcat l ns) = Ok (w', b) -> exists bs, eval_seq run w ns w' bs.
  Proof.
    intros ns l w w' b E. rewrite run_eq, eval_concat in E. apply bind3_ok in E as (w1 & s & c & En & E). apply bind_ok in E as (b' & Eb & Q).
    inversion Q; subst. eapply seq_of_nodes; eauto.
  Qed.

  Lemma collapsing_seq : forall ns l w w' bs, eval_seq run w ns w' bs ->
    exists b, run w (collapsing_concat l ns) = Ok (w', b) /\ b_content b = concat (List.map b_content bs) /\
      (forall id, In id (b_sens b) <-> exists p, In p bs /\ In id (b_sens p)).
  Proof.
    intros ns l w w' bs H. apply seq_filter in H as (bs' & H & C & I). unfold collapsing_concat.
    assert (G : exists b, run w (AConcat l (filter a_nonempty ns)) = Ok (w', b) /\ b_content b = concat (List.map b_content bs) /\
      (forall id, In id (b_sens b) <-> exists p, In p bs /\ In id (b_sens p))).
    { destruct (concat_seq _ l _ _ _ H) as (b & E & C' & I'). exists b. split; [exact E|]. split; [congruence|]. intros id. rewrite I'. apply I. }
    destruct (filter a_nonempty ns) as [|a [|a' t]]; auto.
    inversion H as [|? ? ? b ? ? ? Ha Hs]; subst. inversion Hs; subst. exists b. split; [exact Ha|]. split.
    - rewrite <- C. cbn. rewrite app_nil_r. reflexivity.
    - intros id. rewrite <- I. cbn. split; [eauto|]. intros (x & [<-|[]] & J). exact J.
  Qed.
  Lemma collapsing_seq_inv : forall ns l w w' b, run w (collapsing_concat l ns) = Ok (w', b) -> exists bs, eval_seq run w ns w' bs.
  Proof.
    intros ns l w w' b E. unfold collapsing_concat in E.
    assert (G : run w (AConcat l (filter a_nonempty ns)) = Ok (w', b) \/ exists a, filter a_nonempty ns = [a] /\ run w a = Ok (w', b)).
    { destruct (filter a_nonempty ns) as [|a [|a' t]]; eauto. }
    destruct G as [G|(a & Fa & G)]; [apply concat_seq_inv in G as (bs & H)|assert (H : eval_seq run w (filter a_nonempty ns) w' [b]); [rewrite Fa; econstructor; [exact G|constructor]|]];
      eapply seq_unfilter; eauto.
  Qed.
End Seq.

(** * Substitution references as documented *)
Section Intended.
  Context {A : Type} (ch : A -> char).
  Lemma intended_det : forall pk qk pr qr (w : list A) r1 r2, intended ch pk qk pr qr w r1 -> intended ch pk qk pr qr w r2 -> r1 = r2.
  Proof.
    intros pk qk pr qr w r1 r2 H1 H2. inversion H1 as [a1 s1 z1 A1 Z1 E1 Q1|w1 N1 E1 Q1]; subst; inversion H2 as [a2 s2 z2 A2 Z2 E2 Q2|w2 N2 E2 Q2]; subst; auto.
    - destruct qr; [|reflexivity].
      assert (La : List.length a1 = List.length a2) by (rewrite <- (map_length ch a1), <- (map_length ch a2); congruence).
      assert (Lz : List.length z1 = List.length z2) by (rewrite <- (map_length ch z1), <- (map_length ch z2); congruence).
      symmetry in E2. apply app_inj_len in E2 as (-> & E2); [|exact La]. pose proof E2 as E3. apply (f_equal (@List.length A)) in E3. rewrite !app_length in E3.
      apply app_inj_len in E2 as (-> & _); [reflexivity|lia].
    - exfalso. eapply N2; eauto.
    - exfalso. eapply N1; eauto.
  Qed.
  Lemma intended_out_det : forall sp k r v o1 o2, intended_out ch sp k r v o1 -> intended_out ch sp k r v o2 -> o1 = o2.
  Proof.
    intros sp k r v o1 o2 (pk & qk & pr & qr & ws & P & F & ->) (pk' & qk' & pr' & qr' & ws' & P' & F' & ->).
    assert (Q : pk' = pk /\ qk' = qk /\ pr' = pr /\ qr' = qr).
    { destruct P; inversion P'; subst;
        repeat match goal with H : unquote _ _ _ ?x = ?a, H' : unquote _ _ _ ?x = ?b |- _ =>
          assert (a = b) as H'' by congruence; inversion H''; subst; clear H'' H' end; auto; try congruence. }
    destruct Q as (-> & -> & -> & ->). f_equal. revert ws' F'. induction F; intros ws' F'; inversion F'; subst; auto.
    f_equal; [eapply intended_det; eauto|auto].
  Qed.

  (** Where the key's tail occurs only at the end of a word, the code does what is
      documented. *)
  Lemma replaced_intended : forall pk qk pr qr (w w' : list A), replaced ch pk qk pr qr w w' ->
    (forall a p z q, w = a ++ p ++ z ++ q -> List.map ch a = pk -> List.map ch z = qk -> q = []) -> intended ch pk qk pr (Some qr) w w'.
  Proof.
    intros pk qk pr qr w w' R H. destruct R as [w stem (a & z & E & Ea & Ez & M)|w N].
    - subst w. apply (I_match ch pk qk pr (Some qr)); auto.
    - apply I_keep. intros a stem z E Ea Ez. apply (N stem). exists a, z. ands; auto. intros p q Q.
      (* an earlier occurrence would be followed by something *)
      assert (X : exists p' z' q', stem ++ z = p' ++ z' ++ q' /\ List.map ch p' = p /\ List.map ch z' = qk /\ List.map ch q' = q).
      { exists (firstn (length p) (stem ++ z)), (firstn (length qk) (skipn (length p) (stem ++ z))), (skipn (length qk) (skipn (length p) (stem ++ z))).
        rewrite !firstn_skipn. split; [reflexivity|]. repeat (rewrite <- firstn_map || rewrite <- skipn_map). rewrite Q.
        rewrite firstn_app, firstn_all, Nat.sub_diag, firstn_O, app_nil_r. split; [reflexivity|].
        rewrite skipn_app, skipn_all, Nat.sub_diag. cbn [app skipn].
        split; [rewrite firstn_app, firstn_all, Nat.sub_diag, firstn_O, app_nil_r|rewrite skipn_app, skipn_all, Nat.sub_diag]; reflexivity. }
      destruct X as (p' & z' & q' & X & Ep & Ez' & Eq). assert (q' = []) by (apply (H a p' z' q'); auto; subst w; rewrite X; reflexivity).
      subst q'. rewrite app_nil_r in X. apply (f_equal (@List.length A)) in X. rewrite !app_length in X.
      assert (Lz : List.length z = List.length z') by (rewrite <- (map_length ch z), <- (map_length ch z'); congruence).
      subst p. rewrite map_length. lia.
  Qed.

  Lemma substituted_intended : forall sp key repl value out, substituted ch sp key repl value out ->
    (forall c rest o, unquote ch percent [] key = (o, Stopped c rest) -> exists ro rc rrest, unquote ch percent [] repl = (ro, Stopped rc rrest)) ->
    (forall pk qk pr qr w, pattern ch key repl pk qk pr qr -> In w (split_at ch blank [] value) ->
       forall a p z q, w = a ++ p ++ z ++ q -> List.map ch a = pk -> List.map ch z = qk -> q = []) ->
    (forall pk qk pr qr, pattern ch key repl pk qk pr qr -> qk <> []) ->
    intended_out ch sp key repl value out.
  Proof.
    intros sp key repl value out (pk & qk & pr & qr & ws & P & F & ->) HS HW HQ. pose proof (HQ _ _ _ _ P) as Nq.
    assert (IP : intended_pattern ch key repl pk qk pr (Some qr)).
    { destruct P.
      - apply IP_suffix; auto.
      - eapply IP_stem; eauto.
      - destruct (HS _ _ _ H) as (ro' & rc & rr & E). congruence. }
    unfold subst_words in F. assert (HW' := fun w => HW pk qk pr qr w P). clear HW.
    assert (G : forall l ws, (forall w, In w l -> forall a p z q, w = a ++ p ++ z ++ q -> List.map ch a = pk -> List.map ch z = qk -> q = []) ->
       Forall2 (replaced ch pk qk pr qr) l ws -> Forall2 (intended ch pk qk pr (Some qr)) l ws).
    { clear. intros l ws HW F. induction F as [|w w' l ws R F IH]; constructor.
      - apply replaced_intended; auto. intros a p z q. apply HW. left. reflexivity.
      - apply IH. intros v I. apply HW. right. exact I. }
    destruct value as [|v0 value].
    - inversion F; subst. exists pk, qk, pr, (Some qr), []. split; [exact IP|]. split; [constructor|reflexivity].
    - destruct (split_at ch blank [] (v0 :: value)) as [|w0 wl] eqn:Sp.
      + inversion F as [|? w1 ? ? R Fn]; subst. inversion Fn; subst.
        inversion R as [w stem Mt Q1 Q2|w N Q1 Q2]; subst.
        * destruct Mt as (a & z & E & Ea & Ez & M). subst qk. symmetry in E. apply app_eq_nil in E as (-> & E). apply app_eq_nil in E as (-> & ->). cbn in Nq. congruence.
        * exists pk, qk, pr, (Some qr), []. split; [exact IP|]. split; [rewrite Sp; constructor|auto].
      + exists pk, qk, pr, (Some qr), ws. split; [exact IP|]. split; [|reflexivity]. rewrite Sp. apply G; [|exact F]. intros w I. apply HW'. exact I.
  Qed.
End Intended.

(** * Simple and recursive variables *)
Lemma plain_no_colon : forall m, ~ has fst 58%N m -> plain m.
Proof.
  intros m N n k r (c & q & E & Ec & _). apply N. exists c. split; auto. rewrite E. apply in_or_app. right. left. reflexivity.
Qed.

Lemma stored_value : forall w id x v D ops, variable_name (w_names w) x = Some id ->
  w_db w = db_run (set_variable D id v) ops -> Forall (fun o => ~ writes_global id o) ops -> world_env w x = Some (v_ast v).
Proof.
  intros w id x v D ops V Ed F. unfold world_env. rewrite V, Ed.
  destruct (run_other ops (set_variable D id v)) as (H & _). rewrite (H id F).
  unfold get_variable, set_variable. cbn [db_vars]. rewrite mget_mset_same. reflexivity.
Qed.

Lemma simple_frozen : forall fs w a m d, world_ok w -> ast_ok a -> expands (world_env w) a m d ->
  exists enough, forall fuel, enough <= fuel -> exists w1 b, eval_fuel fs fuel w a = Ok (w1, b) /\ block_marks b = m /\
  forall fs' w2 id l s loc fl og D ops, world_ok w2 -> variable_name (w_names w2) (l_str s) = Some id -> asciis (l_str s) -> plain (located_marks s) ->
    w_db w2 = db_run (set_variable D id (VParams (APre loc b) fl og)) ops -> Forall (fun o => ~ writes_global id o) ops ->
    evaluates fs' w2 (reference l s) m [l_str s].
Proof.
  intros fs w a m d Wok Aok X. destruct (expands_evaluates fs w a m d Wok Aok X) as (f0 & H). exists f0. intros fuel L.
  destruct (H fuel L) as (w1 & b & E & M & _). exists w1, b. split; [exact E|]. split; [exact M|]. 
  intros fs' w2 id l s loc fl og D ops Wok2 V As P Ed F.
  apply expands_evaluates; auto. pose proof (stored_value w2 id (l_str s) _ D ops V Ed F) as Ev. cbn [v_ast] in Ev.
  eapply expands_reference; eauto. subst m. apply E_pre.
Qed.

Lemma recursive_tracks : forall fs w a m d id l s fl og D ops, world_ok w -> variable_name (w_names w) (l_str s) = Some id ->
  asciis (l_str s) -> plain (located_marks s) ->
  w_db w = db_run (set_variable D id (VParams a fl og)) ops -> Forall (fun o => ~ writes_global id o) ops ->
  expands (world_env w) a m d -> evaluates fs w (reference l s) m (l_str s :: d).
Proof.
  intros fs w a m d id l s fl og D ops Wok V As P Ed F X. apply expands_evaluates; auto.
  eapply expands_reference; eauto. apply (stored_value w id (l_str s) (VParams a fl og) D ops V Ed F).
Qed.

Lemma undefined_empty : forall fs w l nm m d, world_ok w -> ast_ok nm -> expands (world_env w) nm m d ->
  plain m -> world_env w (chars m) = None -> evaluates fs w (AVar l nm) [] (d ++ [chars m]).
Proof. intros. apply expands_evaluates; auto. apply E_undefined; auto. Qed.

Lemma ranked_terminates : forall fs w rank k a, world_ok w -> ast_ok a ->
  (forall x v, world_env w x = Some v -> refs_below (world_env w) rank (rank x) v) -> refs_below (world_env w) rank k a ->
  exists m d, expands (world_env w) a m d /\ evaluates fs w a m d.
Proof.
  intros fs w rank k a Wok Aok H R. destruct (ranked_expands _ rank H k a R) as (m & d & X). exists m, d. split; auto. apply expands_evaluates; auto.
Qed.

(** * Statements for the property file *)
Lemma non_interference : forall fs fs' fuel w1 w2 a w1' b, eval_fuel fs fuel w1 a = Ok (w1', b) -> w_names w2 = w_names w1 -> eval_free a ->
  (forall id v, In id (b_sens b) -> get_variable (w_db w1) id = Some v -> eval_free (v_ast v)) ->
  (forall id, In id (b_sens b) -> get_variable (w_db w2) id = get_variable (w_db w1) id) ->
  exists w2', eval_fuel fs' fuel w2 a = Ok (w2', b) /\ w_names w2' = w_names w1' /\ w_db w2' = w_db w2.
Proof.
  intros fs fs' fuel w1 w2 a w1' b E Nm Fr Hf Ha.
  destruct (same_run_eval fs fs' (w_db w1) (w_db w2) (b_sens b)) with (f := fuel) (a := a) (w1 := w1) (w2 := w2) (w1' := w1') (b := b)
    as (w2' & E2 & (_ & P2 & PN) & _); auto.
  - intros. symmetry. auto.
  - unfold pair_ok. auto.
  - apply incl_refl.
  - exists w2'. auto.
Qed.

Lemma lookups_recorded : forall fs fuel w a w' b x, world_ok w -> ast_ok a -> eval_free a ->
  (forall id v, get_variable (w_db w) id = Some v -> eval_free (v_ast v)) ->
  eval_fuel fs fuel w a = Ok (w', b) -> looks_up (world_env w) a x ->
  exists id, variable_name (w_names w') x = Some id /\ In id (b_sens b).
Proof.
  intros fs [|f] w a w' b x Wok Aok Fr Frs E L; [discriminate|]. cbn [eval_fuel] in E. unfold eval_step in E.
  apply bind3_ok in E as (w1 & s & cs & Ei & E). apply bind_ok in E as (b' & Eb & Q). inversion Q; subst.
  rewrite (block_new_sens _ _ _ Eb). eapply looks_up_recorded; eauto.
Qed.

Lemma append_existing : forall fs w id s l lr old new m1 d1 m2 d2, world_ok w -> variable_name (w_names w) (l_str s) = Some id ->
  asciis (l_str s) -> plain (located_marks s) -> get_variable (w_db w) id = Some old -> ast_ok (v_ast new) ->
  expands (world_env w) (v_ast old) m1 d1 -> expands (world_env w) (v_ast new) m2 d2 -> ~ In (l_str s) d2 ->
  evaluates fs (set_db w (append_to_variable (w_db w) id l new true)) (reference lr s) (m1 ++ made 32%N :: m2) (l_str s :: d1 ++ d2).
Proof.
  intros fs w id s l lr old new m1 d1 m2 d2 Wok V As P G An X1 X2 N.
  pose proof (append_expands w id (l_str s) l old new m1 d1 m2 d2 Wok V G X1 X2 N true) as X. rewrite append_get in X.
  apply expands_evaluates; [eapply append_world_ok; eauto|exact As|].
  eapply expands_reference; eauto. eapply env_set; [exact V|]. apply append_get.
Qed.
Lemma append_undefined : forall fs w id s l lr new m2 d2, world_ok w -> variable_name (w_names w) (l_str s) = Some id ->
  asciis (l_str s) -> plain (located_marks s) -> get_variable (w_db w) id = None -> ast_ok (v_ast new) ->
  expands (world_env w) (v_ast new) m2 d2 -> ~ In (l_str s) d2 ->
  evaluates fs (set_db w (append_to_variable (w_db w) id l new true)) (reference lr s) m2 (l_str s :: d2).
Proof.
  intros fs w id s l lr new m2 d2 Wok V As P G An X2 N.
  pose proof (append_expands_new w id (l_str s) l new m2 d2 Wok V G X2 N true) as X.
  apply expands_evaluates; [eapply append_world_ok; eauto|exact As|].
  eapply expands_reference; eauto. rewrite (env_set w _ id (l_str s) _ V (append_get _ _ _ _ _)), G. reflexivity.
Qed.
Lemma append_rest : forall d id l v, 
  (forall j, j <> id -> get_variable (append_to_variable d id l v true) j = get_variable d j) /\
  (forall t j, get_variable_for_target (append_to_variable d id l v true) t j = get_variable_for_target d t j) /\
  (forall t, get_rule (append_to_variable d id l v true) t = get_rule d t) /\
  (forall old new, get_variable d id = Some old -> get_variable (append_to_variable d id l v true) id = Some new ->
     v_flavor new = v_flavor old /\ v_origin new = v_origin old).
Proof.
  intros d id l v. ands; auto.
  - intros. apply append_other. auto.
  - intros old new G G'. rewrite append_get, G in G'. inversion G'; subst. auto.
Qed.

Lemma collapsing_both : forall fs fuel w l ns,
  (forall w' bs, eval_seq (eval_fuel fs fuel) w ns w' bs -> 0 < fuel ->
    exists b, eval_fuel fs fuel w (collapsing_concat l ns) = Ok (w', b) /\ block_text b = concat (List.map block_text bs) /\
      block_marks b = concat (List.map block_marks bs) /\ (forall id, In id (b_sens b) <-> exists p, In p bs /\ In id (b_sens p))) /\
  (forall w' b, eval_fuel fs fuel w (collapsing_concat l ns) = Ok (w', b) -> exists bs, eval_seq (eval_fuel fs fuel) w ns w' bs).
Proof.
  intros fs fuel w l ns. split.
  - intros w' bs H L. destruct fuel as [|f]; [lia|]. destruct (collapsing_seq fs f ns l w w' bs H) as (b & E & C & I). exists b. ands; auto.
    + unfold block_text. rewrite C. unfold crefs_text. clear. induction bs as [|b bs IH]; [reflexivity|]. cbn. rewrite map_app, concat_app, IH. reflexivity.
    + unfold block_marks. rewrite C. unfold crefs_marks. clear. induction bs as [|b bs IH]; [reflexivity|]. cbn. rewrite map_app, concat_app, IH. reflexivity.
  - intros w' b E. destruct fuel as [|f]; [discriminate|]. eapply collapsing_seq_inv; eauto.
Qed.
