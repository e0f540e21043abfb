(** Proofs about names, the database and the visitor. *)
From Verif Require Import Base LocModel EvdModel AstModel EvdSpec EvdProofs DbSpec.
Local Open Scope nat_scope.

(** * Names *)
Lemma interned_some : forall s l i, interned s l = Some i <->
  nth_error l i = Some s /\ (forall j, j < i -> nth_error l j <> Some s).
Proof.
  induction l as [|t l IH]; intros i; cbn [interned].
  - split; [discriminate|]. intros (H & _). destruct i; discriminate.
  - destruct (str_eqb s t) eqn:E.
    + apply str_eqb_eq in E. subst t. split.
      * intros H. injection H as <-. split; [reflexivity|]. intros j Hj. lia.
      * intros (H & F). destruct i as [|i]; [reflexivity|]. exfalso. apply (F 0); [lia|reflexivity].
    + assert (N : s <> t) by (intros ->; rewrite str_eqb_refl in E; discriminate).
      split.
      * intros H. destruct (interned s l) as [k|] eqn:Ek; [|discriminate].
        injection H as <-. destruct (proj1 (IH k) eq_refl) as (A & B). split; [exact A|].
        intros [|j] Hj; [intros H; injection H as ->; now apply N|]. apply B. lia.
      * intros (H & F). destruct i as [|i]; [injection H as ->; now destruct N|].
        assert (X : interned s l = Some i).
        { apply IH. split; [exact H|]. intros j Hj. apply (F (S j)). lia. }
        now rewrite X.
Qed.

Lemma interned_none : forall s l, interned s l = None <-> ~ In s l.
Proof.
  induction l as [|t l IH]; cbn [interned].
  - split; [intros _ []|reflexivity].
  - destruct (str_eqb s t) eqn:E.
    + apply str_eqb_eq in E. subst. split; [discriminate|]. intros H. exfalso. apply H. now left.
    + assert (N : s <> t) by (intros ->; rewrite str_eqb_refl in E; discriminate).
      destruct (interned s l) as [k|].
      * split; [discriminate|]. intros H. exfalso. destruct IH as (_ & IH).
        discriminate IH. intros X. apply H. now right.
      * split; [|reflexivity]. intros _ [X|X]; [now apply N|]. now apply (proj1 IH).
Qed.

Lemma interned_app : forall s l m i, interned s l = Some i -> interned s (l ++ m) = Some i.
Proof.
  induction l as [|t l IH]; intros m i H; [discriminate|]. cbn [interned app] in *.
  destruct (str_eqb s t); [assumption|]. destruct (interned s l) as [k|]; [|discriminate].
  now rewrite (IH m k eq_refl).
Qed.

Lemma interned_new : forall s l, interned s l = None -> interned s (l ++ [s]) = Some (length l).
Proof.
  induction l as [|t l IH]; intros H; cbn [interned app] in *.
  - now rewrite str_eqb_refl.
  - destruct (str_eqb s t); [discriminate|]. destruct (interned s l); [discriminate|].
    now rewrite (IH eq_refl).
Qed.

Lemma intern_spec : forall s l, exists k, fst (get_or_intern s l) = l ++ k /\
  interned s (fst (get_or_intern s l)) = Some (N.to_nat (snd (get_or_intern s l))) /\
  (k = [] \/ (k = [s] /\ ~ In s l)).
Proof.
  intros s l. unfold get_or_intern. destruct (interned s l) as [i|] eqn:E; cbn [fst snd].
  - exists []. rewrite app_nil_r, Nnat.Nat2N.id. auto.
  - exists [s]. rewrite Nnat.Nat2N.id, interned_new by assumption. repeat split; auto.
    right. split; [reflexivity|]. now apply interned_none.
Qed.

Lemma step_grows : forall n o, exists f v,
  n_files (name_step n o) = n_files n ++ f /\ n_vars (name_step n o) = n_vars n ++ v.
Proof.
  intros n [s|s]; cbn [name_step]; unfold intern_file_name, intern_variable_name.
  - destruct (intern_spec s (n_files n)) as (k & E & _). destruct (get_or_intern s (n_files n)) as [l i].
    cbn [fst n_files n_vars] in *. exists k, []. now rewrite app_nil_r.
  - destruct (intern_spec s (n_vars n)) as (k & E & _). destruct (get_or_intern s (n_vars n)) as [l i].
    cbn [fst n_files n_vars] in *. exists [], k. now rewrite app_nil_r.
Qed.

Lemma run_grows : forall ops n, exists f v,
  n_files (name_run n ops) = n_files n ++ f /\ n_vars (name_run n ops) = n_vars n ++ v.
Proof.
  induction ops as [|o ops IH]; intros n; cbn [name_run fold_left].
  - exists [], []. now rewrite !app_nil_r.
  - destruct (step_grows n o) as (f & v & A & B). destruct (IH (name_step n o)) as (f' & v' & A' & B').
    unfold name_run in *. rewrite A', B', A, B. exists (f ++ f'), (v ++ v'). now rewrite !app_assoc.
Qed.

Lemma file_id : forall n s i n', intern_file_name n s = (n', i) -> file_name n' s = Some i.
Proof.
  intros n s i n' H. unfold intern_file_name in H. unfold file_name.
  destruct (intern_spec s (n_files n)) as (k & _ & E & _).
  destruct (get_or_intern s (n_files n)) as [l j]. injection H as <- <-. cbn [fst snd n_files] in *.
  rewrite E. cbn. now rewrite Nnat.N2Nat.id.
Qed.
Lemma var_id : forall n s i n', intern_variable_name n s = (n', i) -> variable_name n' s = Some i.
Proof.
  intros n s i n' H. unfold intern_variable_name in H. unfold variable_name.
  destruct (intern_spec s (n_vars n)) as (k & _ & E & _).
  destruct (get_or_intern s (n_vars n)) as [l j]. injection H as <- <-. cbn [fst snd n_vars] in *.
  rewrite E. cbn. now rewrite Nnat.N2Nat.id.
Qed.

Lemma file_name_stable : forall n s i ops, file_name n s = Some i -> file_name (name_run n ops) s = Some i.
Proof.
  intros n s i ops H. unfold file_name in *. destruct (run_grows ops n) as (f & v & A & _). rewrite A.
  destruct (interned s (n_files n)) as [k|] eqn:E; [|discriminate]. now rewrite (interned_app _ _ _ _ E).
Qed.
Lemma variable_name_stable : forall n s i ops, variable_name n s = Some i -> variable_name (name_run n ops) s = Some i.
Proof.
  intros n s i ops H. unfold variable_name in *. destruct (run_grows ops n) as (f & v & _ & A). rewrite A.
  destruct (interned s (n_vars n)) as [k|] eqn:E; [|discriminate]. now rewrite (interned_app _ _ _ _ E).
Qed.

Lemma file_name_inj : forall n s t i, file_name n s = Some i -> file_name n t = Some i -> s = t.
Proof.
  intros n s t i Hs Ht. unfold file_name in *.
  destruct (interned s (n_files n)) as [k|] eqn:Es; [|discriminate].
  destruct (interned t (n_files n)) as [m|] eqn:Et; [|discriminate].
  cbn in *. injection Hs as Hs. injection Ht as Ht. assert (k = m) by lia. subst m.
  apply interned_some in Es. apply interned_some in Et. destruct Es as (A & _), Et as (B & _). congruence.
Qed.
Lemma variable_name_inj : forall n s t i, variable_name n s = Some i -> variable_name n t = Some i -> s = t.
Proof.
  intros n s t i Hs Ht. unfold variable_name in *.
  destruct (interned s (n_vars n)) as [k|] eqn:Es; [|discriminate].
  destruct (interned t (n_vars n)) as [m|] eqn:Et; [|discriminate].
  cbn in *. injection Hs as Hs. injection Ht as Ht. assert (k = m) by lia. subst m.
  apply interned_some in Es. apply interned_some in Et. destruct Es as (A & _), Et as (B & _). congruence.
Qed.

Lemma intern_known_file : forall n s i, file_name n s = Some i -> intern_file_name n s = (n, i).
Proof.
  intros [f v] s i H. unfold file_name, intern_file_name, get_or_intern in *. cbn [n_files n_vars] in *.
  destruct (interned s f); [|discriminate]. cbn in H. now injection H as <-.
Qed.
Lemma intern_known_variable : forall n s i, variable_name n s = Some i -> intern_variable_name n s = (n, i).
Proof.
  intros [f v] s i H. unfold variable_name, intern_variable_name, get_or_intern in *. cbn [n_files n_vars] in *.
  destruct (interned s v); [|discriminate]. cbn in H. now injection H as <-.
Qed.

Lemma names_stable : forall n s ops,
  (forall n1 i, intern_variable_name n s = (n1, i) ->
     intern_variable_name (name_run n1 ops) s = (name_run n1 ops, i)) /\
  (forall n1 i, intern_file_name n s = (n1, i) ->
     intern_file_name (name_run n1 ops) s = (name_run n1 ops, i)).
Proof.
  intros n s ops. split; intros n1 i H.
  - apply intern_known_variable, variable_name_stable. exact (var_id _ _ _ _ H).
  - apply intern_known_file, file_name_stable. exact (file_id _ _ _ _ H).
Qed.

Lemma names_injective : forall n s t ops,
  (forall n1 i n2 j, intern_variable_name n s = (n1, i) -> intern_variable_name (name_run n1 ops) t = (n2, j) ->
     (i = j <-> s = t)) /\
  (forall n1 i n2 j, intern_file_name n s = (n1, i) -> intern_file_name (name_run n1 ops) t = (n2, j) ->
     (i = j <-> s = t)).
Proof.
  intros n s t ops. split; intros n1 i n2 j H1 H2.
  - split.
    + intros <-. pose proof (var_id _ _ _ _ H1) as A. pose proof (var_id _ _ _ _ H2) as B.
      assert (A' : variable_name n2 s = Some i).
      { replace n2 with (name_run n1 (ops ++ [InternVariable t])).
        - now apply variable_name_stable.
        - unfold name_run in *. rewrite fold_left_app. cbn [fold_left name_step]. now rewrite H2. }
      exact (variable_name_inj _ _ _ _ A' B).
    + intros <-. destruct (names_stable n s ops) as (X & _). rewrite (X _ _ H1) in H2. congruence.
  - split.
    + intros <-. pose proof (file_id _ _ _ _ H1) as A. pose proof (file_id _ _ _ _ H2) as B.
      assert (A' : file_name n2 s = Some i).
      { replace n2 with (name_run n1 (ops ++ [InternFile t])).
        - now apply file_name_stable.
        - unfold name_run in *. rewrite fold_left_app. cbn [fold_left name_step]. now rewrite H2. }
      exact (file_name_inj _ _ _ _ A' B).
    + intros <-. destruct (names_stable n s ops) as (_ & X). rewrite (X _ _ H1) in H2. congruence.
Qed.

Lemma names_resolve : forall n s n1 i ops, intern_file_name n s = (n1, i) ->
  resolve_file_name (name_run n1 ops) i = Some s.
Proof.
  intros n s n1 i ops H. apply file_id in H. apply file_name_stable with (ops := ops) in H.
  unfold file_name in H. unfold resolve_file_name, resolve.
  destruct (interned s _) as [k|] eqn:E; [|discriminate]. cbn in H. injection H as <-.
  rewrite Nnat.Nat2N.id. now apply interned_some in E.
Qed.

Lemma run_in : forall ops n s,
  (In s (n_vars (name_run n ops)) <-> In s (n_vars n) \/ In (InternVariable s) ops) /\
  (In s (n_files (name_run n ops)) <-> In s (n_files n) \/ In (InternFile s) ops).
Proof.
  induction ops as [|o ops IH]; intros n s; cbn [name_run fold_left].
  - cbn. tauto.
  - destruct (IH (name_step n o) s) as (A & B). unfold name_run in *. rewrite A, B. clear A B IH.
    destruct o as [t|t]; cbn [name_step In]; unfold intern_file_name, intern_variable_name.
    + destruct (intern_spec t (n_files n)) as (k & E & _ & K). 
      pose proof (intern_spec t (n_files n)) as Q.
      destruct (get_or_intern t (n_files n)) as [l i] eqn:G. cbn [fst snd n_files n_vars] in *. subst l.
      split; [intuition congruence|]. rewrite in_app_iff.
      destruct K as [->|(-> & _)]; cbn [In].
      * destruct Q as (k & _ & Q & _). apply interned_some in Q. destruct Q as (Q & _). apply nth_error_In in Q.
        rewrite app_nil_r in Q. split; [intuition|]. intros [H|[H|H]]; auto. injection H as ->. auto.
      * split; [intuition congruence|]. intros [H|[H|H]]; auto. injection H as ->. auto.
    + destruct (intern_spec t (n_vars n)) as (k & E & _ & K). 
      pose proof (intern_spec t (n_vars n)) as Q.
      destruct (get_or_intern t (n_vars n)) as [l i] eqn:G. cbn [fst snd n_files n_vars] in *. subst l.
      split; [|intuition congruence]. rewrite in_app_iff.
      destruct K as [->|(-> & _)]; cbn [In].
      * destruct Q as (k & _ & Q & _). apply interned_some in Q. destruct Q as (Q & _). apply nth_error_In in Q.
        rewrite app_nil_r in Q. split; [intuition|]. intros [H|[H|H]]; auto. injection H as ->. auto.
      * split; [intuition congruence|]. intros [H|[H|H]]; auto. injection H as ->. auto.
Qed.

Lemma names_known : forall ops s,
  (variable_name (name_run names_new ops) s <> None <-> In (InternVariable s) ops) /\
  (file_name (name_run names_new ops) s <> None <-> In (InternFile s) ops).
Proof.
  intros ops s. destruct (run_in ops names_new s) as (A & B). cbn [names_new n_vars n_files In] in A, B.
  unfold variable_name, file_name. split.
  - destruct (interned s _) as [k|] eqn:E.
    + cbn. split; [|discriminate]. intros _. apply interned_some in E. destruct E as (E & _).
      apply nth_error_In in E. tauto.
    + cbn. apply interned_none in E. tauto.
  - destruct (interned s _) as [k|] eqn:E.
    + cbn. split; [|discriminate]. intros _. apply interned_some in E. destruct E as (E & _).
      apply nth_error_In in E. tauto.
    + cbn. apply interned_none in E. tauto.
Qed.

(** * Maps *)
Lemma mget_mset_same : forall {V} k (v : V) m, mget k (mset k v m) = Some v.
Proof. intros. unfold mset. cbn [mget]. now rewrite N.eqb_refl. Qed.
Lemma mget_filter_ne : forall {V} k j (m : map V), k <> j ->
  mget k (filter (fun kv => negb (fst kv =? j)%N) m) = mget k m.
Proof.
  intros V k j m H. induction m as [|[i v] m IH]; [reflexivity|]. cbn [filter fst].
  destruct (i =? j)%N eqn:E; cbn [negb].
  - apply N.eqb_eq in E. subst i. rewrite IH. cbn [mget]. now rewrite (proj2 (N.eqb_neq k j) H).
  - cbn [mget]. now rewrite IH.
Qed.
Lemma mget_mset_other : forall {V} k j (v : V) m, k <> j -> mget k (mset j v m) = mget k m.
Proof.
  intros V k j v m H. unfold mset. cbn [mget]. rewrite (proj2 (N.eqb_neq k j) H). now apply mget_filter_ne.
Qed.
Lemma mget_In : forall {V} k (v : V) m, mget k m = Some v -> In (k, v) m.
Proof.
  induction m as [|[i w] m IH]; [discriminate|]. cbn [mget]. destruct (k =? i)%N eqn:E.
  - apply N.eqb_eq in E. subst. intros H. injection H as ->. now left.
  - intros H. right. now apply IH.
Qed.
Lemma mget_None : forall {V} k (m : map V), mget k m = None <-> ~ In k (List.map fst m).
Proof.
  intros V k m. induction m as [|[i w] m IH]; [cbn; tauto|]. cbn [mget List.map fst In].
  destruct (k =? i)%N eqn:E.
  - apply N.eqb_eq in E. subst. split; [discriminate|]. intros H. exfalso. apply H. now left.
  - apply N.eqb_neq in E. rewrite IH. split; [intros H [X|X]; [now apply E|now apply H]|tauto].
Qed.
Lemma In_mget : forall {V} k (v : V) m, NoDup (List.map fst m) -> In (k, v) m -> mget k m = Some v.
Proof.
  induction m as [|[i w] m IH]; intros H X; [destruct X|]; destruct X as [X|X]; cbn [mget List.map fst] in *.
  - injection X as -> ->. now rewrite N.eqb_refl.
  - inversion H; subst. destruct (k =? i)%N eqn:E; [|now apply IH].
    apply N.eqb_eq in E. subst. exfalso. apply H2. apply in_map_iff. now exists (i, v).
Qed.
Lemma mset_keys : forall {V} k (v : V) m, NoDup (List.map fst m) -> NoDup (List.map fst (mset k v m)).
Proof.
  intros V k v m H. unfold mset. cbn [List.map fst]. constructor.
  - intros X. apply in_map_iff in X. destruct X as ((i, w) & E & X). cbn in E. subst i.
    apply filter_In in X. destruct X as (_ & X). cbn in X. now rewrite N.eqb_refl in X.
  - induction m as [|[i w] m IH]; [constructor|]. cbn [List.map fst filter] in *. inversion H; subst.
    destruct (i =? k)%N; cbn [negb]; [now apply IH|]. cbn [List.map fst]. constructor; [|now apply IH].
    intros X. apply H2. apply in_map_iff in X. destruct X as ((j, u) & E & X). cbn in E. subst j.
    apply filter_In in X. apply in_map_iff. exists (i, u). tauto.
Qed.

(** * Variable store *)
Lemma step_global_other : forall d o n, ~ writes_global n o -> get_variable (db_step d o) n = get_variable d n.
Proof.
  intros d [m v|m l v sp|t m v|r] n H; cbn [writes_global] in H; unfold get_variable; cbn [db_step].
  - apply mget_mset_other. congruence.
  - apply mget_mset_other. congruence.
  - reflexivity.
  - reflexivity.
Qed.
Lemma step_target_other : forall d o t n, ~ writes_target t n o ->
  get_variable_for_target (db_step d o) t n = get_variable_for_target d t n.
Proof.
  intros d [m v|m l v sp|u m v|r] t n H; cbn [writes_target] in H; unfold get_variable_for_target; cbn [db_step];
    try reflexivity.
  unfold set_variable_for_target. cbn [db_tvars].
  destruct (N.eq_dec t u) as [->|T].
  - rewrite mget_mset_same. assert (n <> m) by (intros ->; now apply H).
    rewrite mget_mset_other by assumption. destruct (mget u (db_tvars d)); reflexivity.
  - now rewrite mget_mset_other.
Qed.
Lemma step_rule_other : forall d o t, ~ writes_rule t o -> get_rule (db_step d o) t = get_rule d t.
Proof.
  intros d [m v|m l v sp|u m v|r] t H; cbn [writes_rule] in H; unfold get_rule; cbn [db_step]; try reflexivity.
  apply mget_mset_other. congruence.
Qed.

Lemma run_other : forall ops d,
  (forall n, Forall (fun o => ~ writes_global n o) ops -> get_variable (db_run d ops) n = get_variable d n) /\
  (forall t n, Forall (fun o => ~ writes_target t n o) ops ->
     get_variable_for_target (db_run d ops) t n = get_variable_for_target d t n) /\
  (forall t, Forall (fun o => ~ writes_rule t o) ops -> get_rule (db_run d ops) t = get_rule d t).
Proof.
  induction ops as [|o ops IH]; intros d; [cbn; auto|].
  destruct (IH (db_step d o)) as (A & B & C). unfold db_run in *. cbn [fold_left].
  split; [|split].
  - intros n H. inversion H; subst. rewrite A by assumption. now apply step_global_other.
  - intros t n H. inversion H; subst. rewrite B by assumption. now apply step_target_other.
  - intros t H. inversion H; subst. rewrite C by assumption. now apply step_rule_other.
Qed.

Lemma last_write : forall d before after,
  (forall n v, Forall (fun o => ~ writes_global n o) after ->
     get_variable (db_run d (before ++ SetGlobal n v :: after)) n = Some v) /\
  (forall t n v, Forall (fun o => ~ writes_target t n o) after ->
     get_variable_for_target (db_run d (before ++ SetForTarget t n v :: after)) t n = Some v) /\
  (forall r, Forall (fun o => ~ writes_rule (r_fname r) o) after ->
     get_rule (db_run d (before ++ AddRule r :: after)) (r_fname r) = Some r).
Proof.
  intros d before after. unfold db_run. repeat split; intros; rewrite fold_left_app; cbn [fold_left];
    match goal with |- context [fold_left db_step after ?d'] => destruct (run_other after d') as (A & B & C) end;
    unfold db_run in *.
  - rewrite A by assumption. apply mget_mset_same.
  - rewrite B by assumption. unfold get_variable_for_target. cbn [db_step set_variable_for_target db_tvars]. now rewrite !mget_mset_same.
  - rewrite C by assumption. apply mget_mset_same.
Qed.

Lemma append_write : forall d before after n l v sp, Forall (fun o => ~ writes_global n o) after ->
  get_variable (db_run d (before ++ AppendGlobal n l v sp :: after)) n =
  Some (match get_variable (db_run d before) n with
        | None => v
        | Some old => VParams (append_value l (v_ast old) (v_ast v) sp) (v_flavor old) (v_origin old)
        end).
Proof.
  intros d before after n l v sp H. unfold db_run. rewrite fold_left_app. cbn [fold_left].
  match goal with |- context [fold_left db_step after ?d'] => destruct (run_other after d') as (A & _) end.
  unfold db_run in *. rewrite A by assumption. unfold get_variable. cbn [db_step append_to_variable db_vars].
  now rewrite mget_mset_same.
Qed.

Lemma never_written : forall ops,
  (forall n, Forall (fun o => ~ writes_global n o) ops <-> get_variable (db_run db_empty ops) n = None) /\
  (forall t n, Forall (fun o => ~ writes_target t n o) ops <->
     get_variable_for_target (db_run db_empty ops) t n = None) /\
  (forall t, Forall (fun o => ~ writes_rule t o) ops <-> get_rule (db_run db_empty ops) t = None).
Proof.
  intros ops. repeat split.
  - intros H. destruct (run_other ops db_empty) as (A & _). now rewrite A.
  - induction ops as [|o ops IH] using rev_ind; [constructor|]. unfold db_run. rewrite fold_left_app. cbn [fold_left].
    intros H. apply Forall_app. split.
    + apply IH. clear IH. destruct o as [m v|m l v sp|t m v|r]; cbn [db_step] in H; try exact H.
      * unfold get_variable in H. cbn [set_variable db_vars] in H. destruct (N.eq_dec n m) as [->|E].
        -- now rewrite mget_mset_same in H.
        -- now rewrite mget_mset_other in H.
      * unfold get_variable in H. cbn [append_to_variable db_vars] in H. destruct (N.eq_dec n m) as [->|E].
        -- now rewrite mget_mset_same in H.
        -- now rewrite mget_mset_other in H.
    + constructor; [|constructor]. intros W. destruct o as [m v|m l v sp|t m v|r]; cbn [writes_global] in W; subst;
        try contradiction; unfold get_variable in H; cbn in H; now rewrite N.eqb_refl in H.
  - intros H. destruct (run_other ops db_empty) as (_ & A & _). now rewrite A.
  - induction ops as [|o ops IH] using rev_ind; [constructor|]. unfold db_run. rewrite fold_left_app. cbn [fold_left].
    intros H. apply Forall_app.
    assert (W : ~ writes_target t n o).
    { intros W. destruct o as [m v|m l v sp|u m v|r]; cbn [writes_target] in W; try contradiction.
      destruct W as (-> & ->). unfold get_variable_for_target in H.
      cbn [db_step set_variable_for_target db_tvars] in H. now rewrite !mget_mset_same in H. }
    split; [|auto]. apply IH. rewrite step_target_other in H by assumption. exact H.
  - intros H. destruct (run_other ops db_empty) as (_ & _ & A). now rewrite A.
  - induction ops as [|o ops IH] using rev_ind; [constructor|]. unfold db_run. rewrite fold_left_app. cbn [fold_left].
    intros H. apply Forall_app.
    assert (W : ~ writes_rule t o).
    { intros W. destruct o as [m v|m l v sp|u m v|r]; cbn [writes_rule] in W; try contradiction.
      subst. unfold get_rule in H. cbn in H. now rewrite N.eqb_refl in H. }
    split; [|auto]. apply IH. rewrite step_rule_other in H by assumption. exact H.
Qed.

(** * Rules *)
Lemma grows_refl : forall n, grows n n. Proof. intros n t i H. exact H. Qed.
Lemma grows_trans : forall a b c, grows a b -> grows b c -> grows a c.
Proof. intros a b c H K t i X. now apply K, H. Qed.
Lemma intern_grows : forall n s n' i, intern_file_name n s = (n', i) -> grows n n' /\ file_name n' s = Some i.
Proof.
  intros n s n' i H. split; [|exact (file_id _ _ _ _ H)]. intros t j X.
  replace n' with (name_run n [InternFile s]) by (cbn; now rewrite H). now apply file_name_stable.
Qed.

Lemma deps_ok_grows : forall n n' deps dn, grows n n' -> deps_ok n deps dn -> deps_ok n' deps dn.
Proof.
  intros n n' deps dn G (A & B). split.
  - intros b Hb. destruct (A b Hb) as (i & X & Y). exists i. split; [now apply G|assumption].
  - intros i Hi. destruct (B i Hi) as (b & X & Y). exists b. split; [assumption|now apply G].
Qed.
Lemma rule_ok_grows : forall n n' k r, grows n n' -> rule_ok n k r -> rule_ok n' k r.
Proof.
  intros n n' k r G (A & B & C). split; [assumption|]. split; [now apply G|]. now apply (deps_ok_grows n).
Qed.
Lemma rules_ok_grows : forall n n' rules, grows n n' -> rules_ok n rules -> rules_ok n' rules.
Proof. intros n n' rules G (A & B). split; [assumption|]. intros k r H. now apply (rule_ok_grows n), B. Qed.

Lemma mem_In : forall x s, mem x s = true <-> In x s.
Proof.
  intros x s. unfold mem. rewrite existsb_exists. split.
  - intros (y & H & E). apply N.eqb_eq in E. now subst.
  - intros H. exists x. split; [assumption|apply N.eqb_refl].
Qed.
Lemma set_add_In : forall x y s, In y (set_add x s) <-> y = x \/ In y s.
Proof.
  intros x y s. unfold set_add. destruct (mem x s) eqn:E.
  - apply mem_In in E. split; [auto|]. intros [->|H]; assumption.
  - rewrite in_app_iff. cbn [In]. split; intuition.
Qed.
Lemma set_union_In : forall t s y, In y (set_union s t) <-> In y s \/ In y t.
Proof.
  unfold set_union. induction t as [|x t IH]; intros s y; cbn [fold_left].
  - cbn. tauto.
  - rewrite IH, set_add_In. cbn [In]. split; intuition.
Qed.

Lemma intern_deps_ok : forall deps n done acc, Forall readable deps -> deps_ok n done acc ->
  exists n' dn, intern_deps n deps acc = Ok (n', dn) /\ grows n n' /\ deps_ok n' (done ++ deps) dn.
Proof.
  induction deps as [|d deps IH]; intros n done acc R D; cbn [intern_deps].
  - exists n, acc. rewrite app_nil_r. split; [reflexivity|]. split; [apply grows_refl|assumption].
  - inversion R; subst. unfold readable in H1. rewrite H1. cbn [bind].
    destruct (intern_file_name n (block_text d)) as [n1 i] eqn:E.
    destruct (intern_grows _ _ _ _ E) as (G & I).
    destruct (IH n1 (done ++ [d]) (set_add i acc)) as (n' & dn & A & B & C); [assumption| |].
    { destruct (deps_ok_grows _ _ _ _ G D) as (P & Q). split.
      - intros b Hb. apply in_app_iff in Hb. destruct Hb as [Hb|[<-|[]]].
        + destruct (P b Hb) as (j & X & Y). exists j. split; [assumption|]. apply set_add_In. auto.
        + exists i. split; [assumption|]. apply set_add_In. auto.
      - intros j Hj. apply set_add_In in Hj. destruct Hj as [->|Hj].
        + exists d. split; [|assumption]. apply in_app_iff. cbn. auto.
        + destruct (Q j Hj) as (b & X & Y). exists b. split; [|assumption]. apply in_app_iff. auto. }
    exists n', dn. split; [exact A|]. split; [now apply (grows_trans n n1)|].
    now rewrite <- app_assoc in C.
Qed.

Definition rule_in (n : names) (rules : map rule) (t : str) : option rule :=
  match file_name n t with Some i => mget i rules | None => None end.

Lemma rule_in_grows : forall n n' rules t, rules_ok n rules -> grows n n' -> rule_in n' rules t = rule_in n rules t.
Proof.
  intros n n' rules t (_ & R) G. unfold rule_in. destruct (file_name n t) as [i|] eqn:E.
  - now rewrite (G _ _ E).
  - destruct (file_name n' t) as [i|] eqn:E'; [|reflexivity]. destruct (mget i rules) as [r|] eqn:M; [|reflexivity].
    destruct (R i r M) as (_ & X & _). pose proof (G _ _ X) as Y. rewrite (file_name_inj _ _ _ _ Y E') in X. congruence.
Qed.

Lemma target_ok : forall p dn n rules target fn, rules_ok n rules -> deps_ok n (pr_deps p) dn ->
  file_name n (block_text target) = Some fn ->
  rules_ok n (protorule_target p dn rules target fn) /\
  (forall t, option_map view (rule_in n (protorule_target p dn rules target fn) t) =
     iter_mention (mentions t [target]) p (option_map view (rule_in n rules t))) /\
  (forall t, mentions t [target] = 0 -> rule_in n (protorule_target p dn rules target fn) t = rule_in n rules t).
Proof.
  intros p dn n rules target fn (ND & R) D F.
  assert (X : exists r, protorule_target p dn rules target fn = mset fn r rules /\ rule_ok n fn r /\
                view r = mention p (option_map view (mget fn rules))).
  { unfold protorule_target, mention. destruct (pr_recipe p) as [|a rec] eqn:E.
    - destruct (mget fn rules) as [r|] eqn:M.
      + exists (extend_rule r (pr_deps p) dn). split; [reflexivity|]. split; [|reflexivity].
        destruct (R fn r M) as (A & B & (P & Q)). destruct D as (P' & Q').
        split; [exact A|]. split; [exact B|]. cbn [extend_rule r_deps r_depnames]. split.
        * intros b Hb. apply in_app_iff in Hb. destruct Hb as [Hb|Hb].
          -- destruct (P b Hb) as (j & U & V). exists j. split; [assumption|]. apply set_union_In. auto.
          -- destruct (P' b Hb) as (j & U & V). exists j. split; [assumption|]. apply set_union_In. auto.
        * intros j Hj. apply set_union_In in Hj. destruct Hj as [Hj|Hj].
          -- destruct (Q j Hj) as (b & U & V). exists b. split; [|assumption]. apply in_app_iff. auto.
          -- destruct (Q' j Hj) as (b & U & V). exists b. split; [|assumption]. apply in_app_iff. auto.
      + exists (Rule target fn (pr_deps p) dn [] (pr_type p)). split; [reflexivity|]. split; [|reflexivity].
        split; [reflexivity|]. split; [exact F|exact D].
    - exists (Rule target fn (pr_deps p) dn (a :: rec) (pr_type p)). split; [reflexivity|]. split; [|reflexivity].
      split; [reflexivity|]. split; [exact F|exact D]. }
  destruct X as (r & -> & RO & V).
  assert (K : forall t, mentions t [target] = 0 -> rule_in n (mset fn r rules) t = rule_in n rules t).
  { intros t. cbn [mentions]. destruct (list_eq_dec N.eq_dec (block_text target) t) as [<-|NE]; [discriminate|]. intros _.
    unfold rule_in. destruct (file_name n t) as [i|] eqn:E; [|reflexivity].
    rewrite mget_mset_other; [reflexivity|]. intros ->. apply NE. exact (file_name_inj _ _ _ _ F E). }
  split; [|split; [|exact K]].
  - split; [now apply mset_keys|]. intros k r' M. destruct (N.eq_dec k fn) as [->|NE].
    + rewrite mget_mset_same in M. injection M as <-. exact RO.
    + rewrite mget_mset_other in M by assumption. now apply R.
  - intros t. cbn [mentions]. rewrite Nat.add_0_r. destruct (list_eq_dec N.eq_dec (block_text target) t) as [<-|NE].
    + unfold rule_in. rewrite F, mget_mset_same. cbn [option_map iter_mention]. now rewrite V.
    + cbn [iter_mention]. rewrite K; [reflexivity|]. cbn [mentions].
      destruct (list_eq_dec N.eq_dec (block_text target) t); [contradiction|reflexivity].
Qed.

Lemma iter_mention_add : forall a b p old, iter_mention (a + b) p old = iter_mention b p (iter_mention a p old).
Proof. induction a as [|a IH]; intros b p old; [reflexivity|]. cbn. apply IH. Qed.

Lemma targets_ok : forall p dn ts n rules, Forall readable ts -> rules_ok n rules -> deps_ok n (pr_deps p) dn ->
  exists n' rules', protorule_targets p dn n rules ts = Ok (n', rules') /\ grows n n' /\ rules_ok n' rules' /\
  (forall t, option_map view (rule_in n' rules' t) =
     iter_mention (mentions t ts) p (option_map view (rule_in n rules t))) /\
  (forall t, mentions t ts = 0 -> rule_in n' rules' t = rule_in n rules t).
Proof.
  intros p dn. induction ts as [|b ts IH]; intros n rules R RO D; cbn [protorule_targets].
  - exists n, rules. split; [reflexivity|]. split; [apply grows_refl|]. auto.
  - inversion R as [|x y Hb Hr]; subst. unfold readable in Hb. rewrite Hb. cbn [bind].
    destruct (intern_file_name n (block_text b)) as [n1 fn] eqn:E.
    destruct (intern_grows _ _ _ _ E) as (G & I).
    destruct (target_ok p dn n1 rules b fn) as (RO1 & V1 & K1); [now apply (rules_ok_grows n)|now apply (deps_ok_grows n)|assumption|].
    destruct (IH n1 _ Hr RO1) as (n' & rules' & A & B & C & V & K); [now apply (deps_ok_grows n)|].
    exists n', rules'. split; [exact A|]. split; [now apply (grows_trans n n1)|]. split; [exact C|]. split.
    + intros t. rewrite V, V1. rewrite (rule_in_grows n n1 rules t RO G).
      cbn [mentions]. rewrite Nat.add_0_r. now rewrite iter_mention_add.
    + intros t M. cbn [mentions] in M. rewrite K, K1; [now apply rule_in_grows| |lia]. cbn [mentions]. lia.
Qed.

Lemma from_protorule_ok : forall n d p, readable_rule p -> rules_ok n (db_rules d) ->
  exists n' d', from_protorule d n p = Ok (n', d') /\ grows n n' /\ rules_ok n' (db_rules d') /\
  db_vars d' = db_vars d /\ db_tvars d' = db_tvars d /\
  (forall t, option_map view (rule_of n' d' t) =
     iter_mention (mentions t (pr_targets p)) p (option_map view (rule_of n d t))) /\
  (forall t, mentions t (pr_targets p) = 0 -> rule_of n' d' t = rule_of n d t).
Proof.
  intros n d p (RT & RD) RO. unfold from_protorule.
  destruct (intern_deps_ok (pr_deps p) n [] [] RD) as (n1 & dn & E1 & G1 & D1).
  { split; [intros b []|intros i []]. }
  rewrite E1. cbn [bind]. destruct (targets_ok p dn (pr_targets p) n1 (db_rules d) RT) as (n2 & rules & E2 & G2 & R2 & V & K).
  { now apply (rules_ok_grows n). } { exact D1. }
  rewrite E2. cbn [bind]. exists n2, (Db (db_vars d) (db_tvars d) rules).
  split; [reflexivity|]. split; [now apply (grows_trans n n1)|]. split; [exact R2|]. split; [reflexivity|]. split; [reflexivity|].
  split; intros t; change (rule_of n2 (Db (db_vars d) (db_tvars d) rules) t) with (rule_in n2 rules t);
    change (rule_of n d t) with (rule_in n (db_rules d) t).
  - rewrite V. now rewrite (rule_in_grows n n1 _ t RO G1).
  - intros M. rewrite K by assumption. now apply rule_in_grows.
Qed.

Lemma rules_ok_empty : forall n, rules_ok n [].
Proof. intros n. split; [constructor|]. intros k r H. discriminate. Qed.

Lemma define_rules_ok : forall ps n d, Forall readable_rule ps -> rules_ok n (db_rules d) ->
  exists n' d', define_rules n d ps = Ok (n', d') /\ rules_ok n' (db_rules d') /\
    db_vars d' = db_vars d /\ db_tvars d' = db_tvars d /\
    (forall t, option_map view (rule_of n' d' t) = rule_after t (option_map view (rule_of n d t)) ps).
Proof.
  induction ps as [|p ps IH]; intros n d R RO; cbn [define_rules rule_after].
  - exists n, d. auto.
  - inversion R; subst. destruct (from_protorule_ok n d p H1 RO) as (n1 & d1 & E & _ & RO1 & V1 & T1 & W1 & _).
    rewrite E. cbn [bind]. destruct (IH n1 d1 H2 RO1) as (n' & d' & E' & RO' & V & T & W).
    exists n', d'. split; [exact E'|]. split; [exact RO'|]. split; [congruence|]. split; [congruence|].
    intros t. now rewrite W, W1.
Qed.

(** ** Readable statements *)
Lemma rule_history : forall ps n, Forall readable_rule ps ->
  exists n' d', define_rules n db_empty ps = Ok (n', d') /\
    forall t, option_map view (rule_of n' d' t) = rule_after t None ps.
Proof.
  intros ps n R. destruct (define_rules_ok ps n db_empty R (rules_ok_empty n)) as (n' & d' & E & _ & _ & _ & V).
  exists n', d'. split; [exact E|]. intros t. rewrite V. unfold rule_of. cbn. destruct (file_name n t); reflexivity.
Qed.

Lemma iter_mention_recipe : forall k p old, pr_recipe p <> [] ->
  iter_mention (S k) p old = Some (RView (pr_deps p) (pr_recipe p) (pr_type p)).
Proof.
  induction k as [|k IH]; intros p old H.
  - cbn. unfold mention. destruct (pr_recipe p) eqn:E; [contradiction|]. reflexivity.
  - change (iter_mention (S (S k)) p old) with (iter_mention (S k) p (Some (mention p old))). now apply IH.
Qed.

Lemma mentions_in : forall t ts, mentions t ts <> 0 <-> exists b, In b ts /\ block_text b = t.
Proof.
  intros t ts. induction ts as [|b ts IH]; cbn [mentions].
  - split; [congruence|]. intros (b & [] & _).
  - destruct (list_eq_dec N.eq_dec (block_text b) t) as [E|E].
    + split; [|discriminate]. intros _. exists b. split; [now left|exact E].
    + cbn [Nat.add]. rewrite IH. split.
      * intros (c & H & X). exists c. split; [now right|exact X].
      * intros (c & [->|H] & X); [contradiction|]. now exists c.
Qed.

Lemma no_mentions : forall t ts, (forall b, In b ts -> block_text b <> t) -> mentions t ts = 0.
Proof.
  intros t ts H. destruct (mentions t ts) eqn:E; [reflexivity|]. exfalso.
  assert (X : mentions t ts <> 0) by lia. apply mentions_in in X. destruct X as (b & I & B). now apply (H b I).
Qed.

Lemma mentions_once : forall b ts, NoDup (List.map block_text ts) -> In b ts -> mentions (block_text b) ts = 1.
Proof.
  intros b ts. induction ts as [|c ts IH]; intros ND I; [destruct I|]. inversion ND as [|x y N1 N2]; subst. cbn [mentions].
  destruct (list_eq_dec N.eq_dec (block_text c) (block_text b)) as [E|E].
  - rewrite no_mentions; [reflexivity|]. intros d Hd X. apply N1. rewrite E, <- X. now apply in_map.
  - destruct I as [->|I]; [contradiction|]. cbn [Nat.add]. now apply IH.
Qed.

Lemma multi_target : forall n ps p, Forall readable_rule (ps ++ [p]) ->
  exists n1 d1 n2 d2, define_rules n db_empty ps = Ok (n1, d1) /\ from_protorule d1 n1 p = Ok (n2, d2) /\
  (pr_recipe p <> [] -> forall b, In b (pr_targets p) ->
     option_map view (rule_of n2 d2 (block_text b)) = Some (RView (pr_deps p) (pr_recipe p) (pr_type p))) /\
  (pr_recipe p = [] -> NoDup (List.map block_text (pr_targets p)) -> forall b, In b (pr_targets p) ->
     option_map view (rule_of n2 d2 (block_text b)) =
     match rule_of n1 d1 (block_text b) with
     | None => Some (RView (pr_deps p) [] (pr_type p))
     | Some old => Some (RView (r_deps old ++ pr_deps p) (r_recipe old) (r_type old))
     end) /\
  (forall t, (forall b, In b (pr_targets p) -> block_text b <> t) -> rule_of n2 d2 t = rule_of n1 d1 t) /\
  (forall v, get_variable d2 v = get_variable d1 v) /\
  (forall f v, get_variable_for_target d2 f v = get_variable_for_target d1 f v).
Proof.
  intros n ps p R. apply Forall_app in R. destruct R as (R1 & R2). inversion R2; subst.
  destruct (define_rules_ok ps n db_empty R1 (rules_ok_empty n)) as (n1 & d1 & E1 & RO & _).
  destruct (from_protorule_ok n1 d1 p H1 RO) as (n2 & d2 & E2 & _ & _ & V1 & V2 & V & K).
  exists n1, d1, n2, d2. split; [exact E1|]. split; [exact E2|]. split; [|split; [|split; [|split]]].
  - intros NE b I. rewrite V. assert (M : mentions (block_text b) (pr_targets p) <> 0).
    { apply mentions_in. now exists b. }
    destruct (mentions (block_text b) (pr_targets p)); [contradiction|]. now apply iter_mention_recipe.
  - intros E ND b I. rewrite V, (mentions_once _ _ ND I). cbn [iter_mention]. unfold mention. rewrite E.
    destruct (rule_of n1 d1 (block_text b)); reflexivity.
  - intros t H. apply K. now apply no_mentions.
  - intros v. unfold get_variable. now rewrite V1.
  - intros f v. unfold get_variable_for_target. now rewrite V2.
Qed.

Lemma rule_names : forall ps n, Forall readable_rule ps -> exists n' d', define_rules n db_empty ps = Ok (n', d') /\
  NoDup (List.map r_fname (db_all_rules d')) /\
  (forall r, In r (db_all_rules d') <-> exists t, rule_of n' d' t = Some r) /\
  (forall t r, rule_of n' d' t = Some r ->
     block_text (r_target r) = t /\ file_name n' t = Some (r_fname r) /\
     forall i, In i (r_depnames r) <-> exists b, In b (r_deps r) /\ file_name n' (block_text b) = Some i).
Proof.
  intros ps n R. destruct (define_rules_ok ps n db_empty R (rules_ok_empty n)) as (n' & d' & E & (ND & RO) & _).
  exists n', d'. split; [exact E|].
  assert (M : List.map r_fname (db_all_rules d') = List.map fst (db_rules d')).
  { unfold db_all_rules. rewrite map_map. apply map_ext_in. intros (k, r) I. cbn.
    exact (proj1 (RO k r (In_mget _ _ _ ND I))). }
  split; [now rewrite M|]. split.
  - intros r. unfold db_all_rules. rewrite in_map_iff. split.
    + intros ((k, r') & X & I). cbn in X. subst r'. pose proof (In_mget _ _ _ ND I) as G.
      exists (block_text (r_target r)). unfold rule_of. destruct (RO k r G) as (_ & F & _). rewrite F. exact G.
    + intros (t & X). unfold rule_of in X. destruct (file_name n' t) as [i|]; [|discriminate].
      exists (i, r). split; [reflexivity|]. now apply mget_In.
  - intros t r X. unfold rule_of in X. destruct (file_name n' t) as [i|] eqn:F; [|discriminate].
    destruct (RO i r X) as (A & B & (P & Q)). split; [exact (file_name_inj _ _ _ _ B F)|]. split; [now rewrite A|].
    intros j. split; [apply Q|]. intros (b & I & J). destruct (P b I) as (j' & U & W). congruence.
Qed.

(** * Visitor *)
Section AstInd.
  Context (P : ast -> Prop).
  Context (HEmpty : forall l, P (AEmpty l)) (HConst : forall l s, P (AConst l s)) (HPre : forall l b, P (APre l b)).
  Context (HConcat : forall l ns, Forall P ns -> P (AConcat l ns)).
  Context (HVar : forall l a, P a -> P (AVar l a)) (HEval : forall l a, P a -> P (AEval l a)).
  Context (HStrip : forall l a, P a -> P (AStrip l a)).
  Context (HWord : forall l i w, P i -> P w -> P (AWord l i w)) (HWords : forall l a, P a -> P (AWords l a)).
  Fixpoint ast_ind' (a : ast) : P a :=
    match a with
    | AEmpty l => HEmpty l
    | AConst l s => HConst l s
    | APre l b => HPre l b
    | AConcat l ns => HConcat l ns ((fix go ns := match ns return Forall P ns with
                                       | [] => Forall_nil _
                                       | n :: ns' => Forall_cons n (ast_ind' n) (go ns')
                                       end) ns)
    | AVar l a => HVar l a (ast_ind' a)
    | AEval l a => HEval l a (ast_ind' a)
    | AStrip l a => HStrip l a (ast_ind' a)
    | AWord l i w => HWord l i w (ast_ind' i) (ast_ind' w)
    | AWords l a => HWords l a (ast_ind' a)
    end.
End AstInd.

Lemma visit_ast_eq : forall a, visit_ast a = VAst a :: callback a :: flat_map visit_ast (children a).
Proof. intros []; cbn [visit_ast callback children flat_map]; rewrite ?app_nil_r; reflexivity. Qed.
Lemma visited_app : forall a b, visited (a ++ b) = visited a ++ visited b.
Proof. induction a as [|v a IH]; intros b; [reflexivity|]. destruct v; cbn [visited app]; now rewrite IH. Qed.

(** Paths in document order. *)
Definition tagged (k : nat) (ps : list (list nat)) : list (list nat) := List.map (cons k) ps.
Definition visits_ok (a : ast) : Prop := exists ps,
  List.map (fun p => node_at p a) ps = List.map Some (visited (visit_ast a)) /\
  ordered_paths ps /\ (forall p, node_at p a <> None <-> In p ps).

Definition forest_ok (k : nat) (cs : list ast) : Prop := exists ps,
  Forall (fun p => match p with i :: _ => k <= i | [] => False end) ps /\
  List.map (fun p => match p with i :: q => match nth_error cs (i - k) with Some c => node_at q c | None => None end | [] => None end) ps =
    List.map Some (visited (flat_map visit_ast cs)) /\
  ordered_paths ps /\
  (forall i q, k <= i -> (match nth_error cs (i - k) with Some c => node_at q c | None => None end) <> None <-> In (i :: q) ps).

(** One line per child: the paths of a forest start with the child's number. *)
Lemma ordered_app : forall a b, ordered_paths a -> ordered_paths b ->
  (forall p q, In p a -> In q b -> path_before p q) -> ordered_paths (a ++ b).
Proof.
  intros a b A B X i j p q L Hp Hq. destruct (Nat.lt_ge_cases j (length a)) as [J|J].
  - rewrite nth_error_app1 in Hp, Hq by lia. exact (A i j p q L Hp Hq).
  - rewrite nth_error_app2 in Hq by assumption. destruct (Nat.lt_ge_cases i (length a)) as [I|I].
    + rewrite nth_error_app1 in Hp by assumption. apply X; [now apply nth_error_In in Hp|now apply nth_error_In in Hq].
    + rewrite nth_error_app2 in Hp by assumption. apply (B (i - length a) (j - length a)); [lia|assumption|assumption].
Qed.

Lemma forest : forall cs k, Forall visits_ok cs -> forest_ok k cs.
Proof.
  induction cs as [|c cs IH]; intros k H.
  - exists []. split; [constructor|]. split; [reflexivity|]. split; [intros i j p q _ Hp; destruct i; discriminate|].
    intros i q _. destruct (i - k); cbn; tauto.
  - inversion H as [|x y (ps & M & O & C) HC]; subst. destruct (IH (S k) HC) as (qs & Q1 & Q2 & Q3 & Q4).
    exists (tagged k ps ++ qs). split; [|split; [|split]].
    + apply Forall_app. split.
      * unfold tagged. apply Forall_forall. intros p Hp. apply in_map_iff in Hp. destruct Hp as (p' & <- & _). lia.
      * apply Forall_impl with (2 := Q1). intros [|i q]; [auto|]. lia.
    + cbn [flat_map]. rewrite visited_app, !map_app. f_equal.
      * unfold tagged. rewrite map_map, <- M. apply map_ext. intros p. rewrite Nat.sub_diag. reflexivity.
      * rewrite <- Q2. apply map_ext_in. intros p Hp. rewrite Forall_forall in Q1. specialize (Q1 p Hp).
        destruct p as [|i q]; [destruct Q1|]. replace (i - k) with (S (i - S k)) by lia. reflexivity.
    + apply ordered_app; [|exact Q3|].
      * intros i j p q L Hp Hq. unfold tagged in *. rewrite nth_error_map in Hp, Hq.
        destruct (nth_error ps i) as [p'|] eqn:Ep; [|discriminate]. destruct (nth_error ps j) as [q'|] eqn:Eq; [|discriminate].
        injection Hp as <-. injection Hq as <-. cbn [path_before]. right. split; [reflexivity|]. exact (O i j _ _ L Ep Eq).
      * intros p q Hp Hq. unfold tagged in Hp. apply in_map_iff in Hp. destruct Hp as (p' & <- & _).
        rewrite Forall_forall in Q1. specialize (Q1 q Hq). destruct q as [|j q]; [destruct Q1|]. cbn [path_before]. left. lia.
    + intros i q L. rewrite in_app_iff. destruct (Nat.eq_dec i k) as [->|NE].
      * rewrite Nat.sub_diag. cbn [nth_error]. rewrite C. unfold tagged. split.
        -- intros I. left. now apply in_map.
        -- intros [I|I].
           ++ apply in_map_iff in I. destruct I as (q' & E & I). now injection E as ->.
           ++ exfalso. rewrite Forall_forall in Q1. specialize (Q1 _ I). cbn in Q1. lia.
      * replace (i - k) with (S (i - S k)) by lia. cbn [nth_error]. rewrite (Q4 i q) by lia. split; [auto|].
        intros [I|I]; [|assumption]. unfold tagged in I. apply in_map_iff in I. destruct I as (q' & E & _). congruence.
Qed.

Lemma visits_step : forall a, Forall visits_ok (children a) -> visits_ok a.
Proof.
  intros a H. destruct (forest (children a) 0 H) as (ps & P1 & P2 & P3 & P4).
  exists ([] :: ps). rewrite visit_ast_eq. split; [|split].
  - cbn [List.map node_at visited]. f_equal. destruct a; cbn [callback visited]; rewrite <- P2; apply map_ext_in; intros p Hp;
      rewrite Forall_forall in P1; specialize (P1 p Hp); (destruct p as [|i q]; [destruct P1|]); cbn [node_at];
      now rewrite Nat.sub_0_r.
  - intros i j p q L Hp Hq. destruct i as [|i], j as [|j]; try lia; cbn [nth_error] in *.
    + injection Hp as <-. apply nth_error_In in Hq. rewrite Forall_forall in P1. specialize (P1 q Hq).
      destruct q; [destruct P1|exact I].
    + apply (P3 i j); [lia|assumption|assumption].
  - intros [|i q].
    + cbn. split; [auto|discriminate].
    + cbn [node_at In]. specialize (P4 i q (Nat.le_0_l i)). rewrite Nat.sub_0_r in P4. rewrite P4.
      split; [auto|]. intros [E|E]; [discriminate|assumption].
Qed.

Lemma visits_all : forall a, visits_ok a.
Proof.
  apply ast_ind'; intros; apply visits_step; cbn [children]; auto.
Qed.

Lemma visit_callbacks : forall a k b, nth_error (visit_ast a) k = Some (VAst b) ->
  nth_error (visit_ast a) (S k) = Some (callback b).
Proof.
  assert (X : forall cs, Forall (fun a => forall k b, nth_error (visit_ast a) k = Some (VAst b) ->
            nth_error (visit_ast a) (S k) = Some (callback b)) cs ->
          forall k b, nth_error (flat_map visit_ast cs) k = Some (VAst b) ->
            nth_error (flat_map visit_ast cs) (S k) = Some (callback b)).
  { induction cs as [|c cs IH]; intros H k b E; [destruct k; discriminate|]. inversion H; subst.
    cbn [flat_map] in *. destruct (Nat.lt_ge_cases k (length (visit_ast c))) as [L|L].
    - rewrite nth_error_app1 in E by assumption. specialize (H2 k b E).
      rewrite nth_error_app1; [assumption|]. apply nth_error_Some. congruence.
    - rewrite nth_error_app2 in E by assumption. rewrite nth_error_app2 by lia.
      replace (S k - length (visit_ast c)) with (S (k - length (visit_ast c))) by lia. now apply IH. }
  assert (Y : forall a, Forall (fun a => forall k b, nth_error (visit_ast a) k = Some (VAst b) ->
            nth_error (visit_ast a) (S k) = Some (callback b)) (children a) ->
          forall k b, nth_error (visit_ast a) k = Some (VAst b) ->
            nth_error (visit_ast a) (S k) = Some (callback b)).
  { intros a H k b. rewrite visit_ast_eq. destruct k as [|[|k]]; cbn [nth_error].
    - intros E. now injection E as ->.
    - intros E. destruct a; discriminate.
    - now apply X. }
  apply (ast_ind' (fun a => forall k b, nth_error (visit_ast a) k = Some (VAst b) ->
            nth_error (visit_ast a) (S k) = Some (callback b))); intros; revert H; try revert H0; auto;
    try (intros E; revert E; apply Y; cbn [children]; now auto);
    intros; eapply Y; cbn [children]; eauto.
Qed.
