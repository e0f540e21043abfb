(** Proofs about the evaluator: how names are read. *)
From Verif Require Import Base LocModel EvdModel NomModel AstModel ParseModel EvdSpec ParseSpec EvalSpec DbProofs
  EvdProofs EvdProofs2 EvdProofs3 ParseProofs ParseProofs2 ParseProofs3 ParseProofs4 ParseProofs5 SubstProofs EngineModel.

(** [s'] was cut from the front of [s]. *)
Definition later (s s' : span) : Prop :=
  exists pre, sp_contents s = pre ++ sp_contents s' /\ (pre = [] -> sp_off s <= sp_off s').

Lemma later_refl : forall s, later s s.
Proof. intros s. exists []. auto. Qed.
Lemma later_trans : forall a b c, later a b -> later b c -> later a c.
Proof.
  intros a b c (p & E1 & O1) (q & E2 & O2). exists (p ++ q). rewrite E1, E2, app_assoc. split; auto.
  intros H. apply app_eq_nil in H as (-> & ->). specialize (O1 eq_refl). specialize (O2 eq_refl). lia.
Qed.

Lemma reval_later : forall cs off off' cs', reval off cs = Ok (off', cs') ->
  exists pre, cs = pre ++ cs' /\ (pre = [] -> off' = off).
Proof.
  induction cs as [|c cs IH]; cbn; intros off off' cs' E; [discriminate|].
  destruct (c_len c <=? off).
  - apply IH in E as (pre & -> & _). exists (c :: pre). split; [reflexivity|discriminate].
  - inversion E; subst. exists []. auto.
Qed.

Lemma slice_from_later : forall s n s', slice_from s n = Ok s' -> later s s'.
Proof.
  intros s n s' E. unfold slice_from in E. destruct (usub (sp_len s) n) as [l| |]; try discriminate. cbn [bind] in E.
  unfold revalidate in E. cbn [sp_len sp_off sp_contents sp_parent] in E. destruct (l =? 0).
  - inversion E; subst. exists []. cbn. split; auto. lia.
  - destruct (reval (sp_off s + n) (sp_contents s)) as [[o cs]| |] eqn:R; try discriminate. cbn [bind] in E.
    inversion E; subst. apply reval_later in R as (pre & P & O). exists pre. cbn. split; auto. intros H. rewrite (O H). lia.
Qed.

Lemma offset_later : forall s s', wf_span s -> 0 < sp_len s -> later s s' -> exists n, offset s s' = Ok n.
Proof.
  intros s s' W L (pre & E & O). unfold offset. rewrite E, app_length. rewrite usub_ok by lia. cbn [bind].
  replace (length pre + length (sp_contents s') - length (sp_contents s')) with (length pre) by lia.
  destruct pre as [|c pre].
  - cbn. rewrite usub_ok by (apply O; reflexivity). eauto.
  - cbn [length app]. destruct W as (_ & _ & _ & H). destruct (H L) as (c' & cs & E' & Lt). rewrite E in E'. inversion E'; subst.
    rewrite usub_ok by lia. cbn [bind]. eauto.
Qed.

Section ManyConsume.
  Context (c : char) (Ac : ascii c).

  Lemma many_last : forall fuel s, wf_span s -> sp_len s < fuel ->
    exists s' k, many_loop fuel (take_until_and_consume [c]) s = Ok (POk s' tt) /\ sub s k (sp_len s - k) s' /\
      later s s' /\ ~ has mch c (span_marks s') /\ k <= sp_len s /\
      (k = 0 \/ exists pre m, span_marks s = pre ++ m :: span_marks s' /\ fst m = c) /\
      (flat1 s -> s' = shift s k).
  Proof.
    induction fuel as [|fuel IH]; intros s W L; [lia|]. cbn [many_loop].
    pose proof (take_until_and_consume_ok s c W Ac) as T. rewrite span_text_marks in T.
    destruct (index_of (is_char c) (List.map mch (span_marks s))) as [n|] eqn:I.
    - destruct T as (r & p & T & Sr & Sp & Ln).
      assert (Sl : slice_from s (S n) = Ok r).
      { unfold take_until_and_consume in T. rewrite find_char in T by auto. rewrite span_text_marks, I in T. cbn [bind] in T.
        replace (n + blen [c]) with (S n) in T.
        2:{ cbn. unfold len_utf8. replace (c <? 128)%N with true by (symmetry; apply N.ltb_lt; exact Ac). lia. }
        destruct (slice_from s (S n)); cbn in T; inversion T; reflexivity. }
      rewrite T. cbn [bind].
      assert (Wr := sub_wf _ _ _ _ Sr). assert (Lr : sp_len r = sp_len s - S n) by apply Sr.
      replace (sp_len r =? sp_len s) with false by (symmetry; apply Nat.eqb_neq; lia).
      destruct (IH r Wr) as (s' & k & E & S' & La & N & Lk & Last & Fl); [lia|].
      exists s', (S n + k). rewrite E. split; [reflexivity|].
      split; [replace (sp_len s - (S n + k)) with (sp_len r - k) by lia; eapply sub_sub; eauto|].
      split; [eapply later_trans; [eapply slice_from_later; exact Sl|exact La]|].
      split; auto. split; [lia|]. split.
      + right. assert (Mr := sub_end s _ _ W Sr).
        destruct Last as [->|(pre & m & E' & Em)].
        * assert (Ms := sub_end r _ _ Wr S'). rewrite skipn_O in Ms.
          apply index_of_Some in I as (Li & _ & ch & post & Sk & Ec). rewrite map_length in Li.
          rewrite skipn_map in Sk. destruct (skipn n (span_marks s)) as [|m t] eqn:Q; [discriminate|].
          exists (firstn n (span_marks s)), m. cbn in Sk. inversion Sk; subst. split.
          -- rewrite Ms, Mr, (skipn_S _ _ _ _ Q), <- Q. symmetry. apply firstn_skipn.
          -- apply N.eqb_eq in Ec. symmetry. exact Ec.
        * exists (firstn (S n) (span_marks s) ++ pre), m. split; auto.
          rewrite <- app_assoc, <- E', Mr. symmetry. apply firstn_skipn.
      + intros F. rewrite Fl by (apply (sub_flat _ _ _ _ Sr F)). rewrite slice_from_flat in Sl by (auto; lia). inversion Sl.
        apply shift_shift.
    - rewrite T. cbn [bind pok]. exists s, 0. rewrite Nat.sub_0_r. ands; auto using sub_refl, later_refl; try lia.
      + apply index_none. exact I.
      + intros _. symmetry. apply shift_0.
  Qed.

  (** `recognize!(many1!(take_until_and_consume!(c)))`: up to the last [c]. *)
  Lemma recognize_last : forall s, wf_span s ->
    (~ has mch c (span_marks s) /\ recognize (many1 (take_until_and_consume [c])) s = Ok (PError [KNom])) \/
    (exists s' p pre m k, recognize (many1 (take_until_and_consume [c])) s = Ok (POk s' p) /\ sub s k (sp_len s - k) s' /\
       ~ has mch c (span_marks s') /\ span_marks s = pre ++ m :: span_marks s' /\ fst m = c /\
       (flat1 s -> flat1 s' /\ sub s 0 k p /\ span_marks p = pre ++ [m])).
  Proof.
    intros s W. unfold recognize, many1. pose proof (take_until_and_consume_ok s c W Ac) as T. rewrite span_text_marks in T.
    destruct (index_of (is_char c) (List.map mch (span_marks s))) as [n|] eqn:I.
    2:{ left. rewrite T. cbn. split; [apply index_none; exact I|reflexivity]. }
    right. destruct T as (r & q & T & Sr & Sq & Ln).
    assert (Wr := sub_wf _ _ _ _ Sr).
    destruct (many_last (S (S (sp_len s))) s W) as (s' & k & E & S' & La & N & Lk & Last & Fl); [lia|].
    assert (Lr : sp_len r = sp_len s - S n) by apply Sr.
    rewrite T. cbn [bind pbind].
    (* the loop after the first round is the tail of the whole loop *)
    assert (E1 : forall f, sp_len r < f -> many_loop f (take_until_and_consume [c]) r = Ok (POk s' tt)).
    { intros f Lf. cbn [many_loop] in E. rewrite T in E. cbn [bind] in E.
      replace (sp_len r =? sp_len s) with false in E by (symmetry; apply Nat.eqb_neq; lia).
      assert (FI : forall f1 f2 i, wf_span i -> sp_len i < f1 -> sp_len i < f2 ->
        many_loop f1 (take_until_and_consume [c]) i = many_loop f2 (take_until_and_consume [c]) i).
      { clear - Ac. induction f1 as [|f1 IH]; intros f2 i Wi L1 L2; [lia|]. destruct f2 as [|f2]; [lia|]. cbn [many_loop].
        pose proof (take_until_and_consume_ok i c Wi Ac) as T.
        destruct (index_of (is_char c) (span_text i)) as [n|].
        - destruct T as (r & p & T & Sr & _ & Ln). rewrite T. cbn [bind]. assert (Lr : sp_len r = sp_len i - S n) by apply Sr.
          destruct (sp_len r =? sp_len i); auto. apply IH; [apply Sr|lia..].
        - rewrite T. reflexivity. }
      rewrite (FI f (S (sp_len s)) r Wr); auto; lia. }
    rewrite E1 by lia. cbn [bind pbind].
    destruct (offset_later s s' W ltac:(lia) La) as (o & Eo). rewrite Eo. cbn [bind pok].
    destruct Last as [->|(pre & m & Es & Em)].
    { exfalso. assert (Ms := sub_end s _ _ W S'). rewrite skipn_O in Ms. rewrite Ms in N. apply index_none in N. congruence. }
    exists s', (slice_to s o), pre, m, k. split; [reflexivity|]. ands; auto.
    intros F. rewrite (Fl F) in Eo. rewrite offset_shift in Eo. inversion Eo; subst o.
    assert (Sp := slice_to_sub s k W Lk). rewrite (Fl F). ands; auto.
    rewrite (sub_marks_firstn _ _ _ _ Sp), skipn_O, Es.
    assert (Ls : length (span_marks s) = length pre + S (length (span_marks s'))) by (rewrite Es, app_length; reflexivity).
    rewrite span_marks_len in Ls by auto. assert (L' : sp_len s' = sp_len s - k) by apply S'.
    rewrite (span_marks_len s') in Ls by apply S'.
    replace k with (length (pre ++ [m])) by (rewrite app_length; cbn; lia).
    change (m :: span_marks s') with ([m] ++ span_marks s'). rewrite app_assoc, firstn_app, Nat.sub_diag, firstn_all. apply app_nil_r.
  Qed.
End ManyConsume.

Lemma colon_find_plain : forall s, wf_span s -> plain (span_marks s) -> exists ks, colon_find s = Ok (PError ks).
Proof.
  intros s W P. unfold colon_find.
  destruct (recognize_last c_colon eq_refl s W) as [(_ & ->)|(s' & p & pre & m & k & E & S' & N & Ms & Em & _)]; [cbn; eauto|].
  rewrite E. cbn [pbind bind].
  destruct (recognize_last c_eq eq_refl s' (sub_wf _ _ _ _ S')) as [(_ & ->)|(s2 & p2 & pre2 & m2 & k2 & E2 & S2 & N2 & Ms2 & Em2 & _)]; [cbn; eauto|].
  exfalso. apply (P pre pre2 (span_marks s2)). exists m, m2. rewrite <- Ms2. ands; auto.
Qed.

Lemma last_unique : forall (c : char) (a b a' b' : list (N * location)) x y, a ++ x :: b = a' ++ y :: b' -> fst x = c -> fst y = c ->
  ~ has mch c b -> ~ has mch c b' -> a = a' /\ x = y /\ b = b'.
Proof.
  intros c a. induction a as [|z a IH]; intros b [|z' a'] b' x y E Ex Ey Hb Hb'; cbn in E; inversion E; subst; auto.
  - exfalso. apply Hb. apply has_app. right. apply has_cons. left. congruence.
  - exfalso. apply Hb'. apply has_app. right. apply has_cons. left. congruence.
  - destruct (IH b a' b' x y) as (-> & -> & ->); auto.
Qed.

Lemma colon_find_subst : forall s n k r, wf_span s -> flat1 s -> is_subst (span_marks s) n k r ->
  exists rest nm key c q, colon_find s = Ok (POk rest (nm, key)) /\ wf_span rest /\ wf_span nm /\ wf_span key /\
    span_marks nm = n ++ [c] /\ span_marks key = k ++ [q] /\ span_marks rest = r.
Proof.
  intros s n k r W F (c & q & E & Ec & Eq & Nc & Nq). unfold colon_find.
  destruct (recognize_last c_colon eq_refl s W) as [(N & _)|(s' & p & pre & m & j & E1 & S' & N & Ms & Em & Fl)].
  { exfalso. apply N. rewrite E. apply has_app. right. apply has_cons. left. exact Ec. }
  rewrite E1. cbn [pbind bind]. destruct (Fl F) as (F' & Sp & Mp).
  rewrite E in Ms. apply (last_unique 58%N) in Ms as (-> & -> & Ms'); auto. 
  destruct (recognize_last c_eq eq_refl s' (sub_wf _ _ _ _ S')) as [(N2 & _)|(s2 & p2 & pre2 & m2 & k2 & E2 & S2 & N2 & Ms2 & Em2 & Fl2)].
  { exfalso. apply N2. rewrite <- Ms'. apply has_app. right. apply has_cons. left. exact Eq. }
  rewrite E2. cbn [pbind bind pok]. destruct (Fl2 F') as (F2 & Sp2 & Mp2).
  rewrite <- Ms' in Ms2. apply (last_unique 61%N) in Ms2 as (-> & -> & Ms2'); auto.
  exists s2, p, p2, m, m2. ands; auto; [apply S2|apply Sp|apply Sp2].
Qed.

Lemma drop_last_ok : forall s l c, wf_span s -> span_marks s = l ++ [c] ->
  exists s', drop_last_byte s = Ok s' /\ wf_span s' /\ span_marks s' = l /\ sp_parent s' = sp_parent s.
Proof.
  intros s l c W M. unfold drop_last_byte.
  assert (L : sp_len s = S (length l)) by (rewrite <- (span_marks_len s W), M, app_length; cbn; lia).
  rewrite usub_ok by lia. cbn [bind]. assert (Sp := slice_to_sub s (sp_len s - 1) W ltac:(lia)).
  exists (slice_to s (sp_len s - 1)). ands; auto; [apply Sp|].
  rewrite (sub_marks_firstn _ _ _ _ Sp), skipn_O, M. replace (sp_len s - 1) with (length l) by lia.
  rewrite firstn_app, Nat.sub_diag, firstn_all. apply app_nil_r.
Qed.
