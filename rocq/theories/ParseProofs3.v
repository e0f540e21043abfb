(** Lemmas about unquoting. *)
From Verif Require Import Base LocModel EvdModel NomModel AstModel ParseModel EvdSpec EvdProofs EvdProofs2 EvdProofs3
  ParseSpec ParseProofs ParseProofs2.

(** The part of a list between two positions. *)
Definition part {A} (a b : nat) (l : list A) : list A := firstn (b - a) (skipn a l).

Lemma part_len : forall {A} a b (l : list A), b <= length l -> length (part a b l) = b - a.
Proof. intros. unfold part. rewrite firstn_length, skipn_length. lia. Qed.

Lemma firstn_add : forall {A} a b (l : list A), firstn (a + b) l = firstn a l ++ firstn b (skipn a l).
Proof.
  induction a; intros b l; [reflexivity|]. destruct l; [rewrite !firstn_nil; reflexivity|]. cbn. f_equal. apply IHa.
Qed.

Lemma part_split : forall {A} a b c (l : list A), a <= b -> b <= c -> part a c l = part a b l ++ part b c l.
Proof.
  intros A a b c l H1 H2. unfold part. replace (c - a) with ((b - a) + (c - b)) by lia.
  rewrite firstn_add, skipn_skipn'. replace (a + (b - a)) with b by lia. reflexivity.
Qed.

Lemma part_one : forall {A} a (l : list A) x t, skipn a l = x :: t -> part a (S a) l = [x].
Proof. intros A a l x t H. unfold part. rewrite H. replace (S a - a) with 1 by lia. reflexivity. Qed.

Lemma part_nil : forall {A} a (l : list A), part a a l = [].
Proof. intros. unfold part. rewrite Nat.sub_diag. reflexivity. Qed.

Lemma skipn_S : forall {A} a (l : list A) x t, skipn a l = x :: t -> skipn (S a) l = t.
Proof.
  intros A a l x t H. replace (S a) with (a + 1) by lia. rewrite <- skipn_skipn', H. reflexivity.
Qed.

Lemma odd_half : forall k, Nat.odd k = true -> k - k / 2 - 1 = k / 2.
Proof.
  intros k H. apply Nat.odd_spec in H as (m & E). subst.
  assert ((2 * m + 1) / 2 = m) by (symmetry; apply Nat.div_unique with 1; lia). lia.
Qed.
Lemma even_half : forall k, Nat.odd k = false -> k - k / 2 = k / 2.
Proof.
  intros k H. rewrite <- Nat.negb_even, negb_false_iff in H. apply Nat.even_spec in H as (m & E). subst.
  replace (2 * m) with (m * 2) by lia. rewrite Nat.div_mul by lia. lia.
Qed.
Lemma half_le : forall k, k / 2 <= k.
Proof. intros. apply Nat.div_le_upper_bound; lia. Qed.

Lemma part_prefix : forall {A} a b n (l : list A), n <= b - a -> part a (a + n) l = firstn n (part a b l).
Proof.
  intros. unfold part. rewrite firstn_firstn_le by lia. f_equal. lia.
Qed.

Section Loop.
  Context (i : span) (stop : char -> bool) (W : wf_span i) (Hstop : stop c_bslash = false).
  Let M := span_marks i.
  Let n := sp_len i.

  Lemma len_M : length M = n.
  Proof. apply span_marks_len. exact W. Qed.

  Definition pieces_out (tr : block) (nps last1 : nat) : list (char * location) := block_marks tr ++ part nps last1 M.

  Definition loop_post (tr : block) (sc : option span) (nps last1 p : nat)
    (r : block * option span * nat * nat * option nat) : Prop :=
    let '(tr', sc', last1', nps', found) := r in
    wf_block_w tr' /\
    (b_sens tr' = b_sens tr \/ exists s, b_sens tr' = s) /\
    match found with
    | Some idx =>
        exists c o, idx < n /\ nth_error M idx = Some c /\ stop (fst c) = true /\
          unquote mch stop (part last1 p M) (skipn p M) = (o, Stopped c (skipn (S idx) M)) /\
          block_marks tr' = pieces_out tr nps last1 ++ o /\
          exists s, sc' = Some s /\ sub i idx 1 s
    | None =>
        exists o, nps' <= last1' /\ last1' <= n /\
          unquote mch stop (part last1 p M) (skipn p M) = (o, Ended (part last1' n M)) /\
          pieces_out tr' nps' last1' = pieces_out tr nps last1 ++ o /\
          (sc' = None -> sc = None /\ tr' = tr /\ nps' = nps) /\
          (forall s, sc' = Some s -> sc' = sc \/ exists idx, sub i idx 1 s /\ length (block_marks tr' ++ part nps' n M) < length (block_marks tr ++ part nps n M)) /\
          length (block_marks tr' ++ part nps' n M) <= length (block_marks tr ++ part nps n M)
    end.

  Lemma unquote_loop_ok : forall l p tr sc last1 nps, skipn p M = l -> p <= n ->
    nps <= last1 -> last1 <= p -> wf_block_w tr ->
    exists r, unquote_loop i stop (combine (seq p (length l)) (List.map mch l)) false tr sc last1 nps = Ok r /\
      loop_post tr sc nps last1 p r.
  Proof.
    induction l as [|c l IH]; intros p tr sc last1 nps S P Hn H1 Wt; cbn [length seq List.map combine unquote_loop].
    - eexists. split; [reflexivity|]. cbn. ands; auto. exists [].
      assert (p = n).
      { assert (length (skipn p M) = 0) by (rewrite S; reflexivity). rewrite skipn_length, len_M in H. lia. }
      subst p. rewrite S. ands; auto.
      rewrite app_nil_r. reflexivity.
    - assert (LM := len_M).
      assert (P1 : p < n).
      { assert (length (skipn p M) = Datatypes.S (length l)) by (rewrite S; reflexivity). rewrite skipn_length in H. lia. }
      assert (S1 := skipn_S _ _ _ _ S).
      assert (N1 : nth_error M p = Some c).
      { rewrite <- (firstn_skipn p M), S, nth_error_app2; rewrite firstn_length, Nat.min_l by lia; auto.
        rewrite Nat.sub_diag. reflexivity. }
      set (bs := (fst c =? c_bslash)%N).
      assert (Lk : length (part last1 p M) = p - last1) by (apply part_len; lia).
      destruct (stop (fst c)) eqn:St.
      + (* a stop character *)
        assert (B : backslash (fst c) = false).
        { unfold backslash. destruct (fst c =? 92)%N eqn:Q; auto. apply N.eqb_eq in Q. rewrite Q in St. unfold c_bslash in Hstop. congruence. }
        assert (Bs : bs = false) by exact B. rewrite Bs.
        assert (Hh := half_le (p - last1)).
        destruct (slice_range_sub i p (p + 1) W) as (s & Es & Ss); [lia|unfold n in *; lia|].
        replace (p + 1 - p) with 1 in Ss by lia. rewrite Es. cbn [bind].
        destruct (Nat.odd (p - last1)) eqn:O.
        * assert (OH := odd_half _ O).
          assert (0 < p - last1) by (destruct (p - last1); [discriminate|lia]).
          destruct (slice_range_sub i nps (p - (p - last1) / 2 - 1) W) as (pc & Ep & Sp); [lia|unfold n in *; lia|].
          rewrite Ep. cbn [bind].
          destruct (push_all_contents_w tr pc Wt (sub_wf _ _ _ _ Sp)) as (tr1 & Et & Wt1 & Mt & _). rewrite Et. cbn [bind].
          assert (Mtr : block_marks tr1 = pieces_out tr nps last1 ++ firstn ((p - last1) / 2) (part last1 p M)).
          { rewrite Mt. unfold pieces_out. rewrite <- app_assoc. f_equal.
            rewrite (sub_marks_firstn _ _ _ _ Sp). fold M. change (firstn (p - (p - last1) / 2 - 1 - nps) (skipn nps M)) with (part nps (p - (p - last1) / 2 - 1) M).
            rewrite (part_split nps last1) by lia. f_equal.
            rewrite <- part_prefix by lia. f_equal. lia. }
          destruct (IH (Datatypes.S p) tr1 (Some s) (Datatypes.S p) p S1) as (r & Er & Post); auto; try lia.
          eexists. split; [exact Er|]. destruct r as [[[[tr' sc'] last1'] nps'] found]. unfold loop_post in Post |- *.
          destruct Post as (W' & _ & Post). ands; auto; [right; eauto|].
          rewrite S. cbn [unquote]. rewrite B, St, Lk. rewrite even_odd, O. cbn [negb]. rewrite S1 in Post. rewrite part_nil in Post.
          destruct found as [idx|].
          -- destruct Post as (c' & o & I1 & I2 & I3 & U & Mb & Sc). rewrite U. exists c'. eexists. ands; eauto.
             rewrite Mb. unfold pieces_out at 1. rewrite Mtr, (part_one p M c l S). rewrite <- !app_assoc. reflexivity.
          -- destruct Post as (o & I1 & I2 & U & Mb & Hs1 & Hs2 & Hs3). rewrite U. eexists. 
             assert (Lt : length (block_marks tr1 ++ part p n M) < length (block_marks tr ++ part nps n M)).
             { rewrite Mtr. unfold pieces_out. rewrite !app_length, firstn_length, Lk, !part_len by lia. lia. }
             ands; eauto.
             ++ rewrite Mb. unfold pieces_out at 1. rewrite Mtr, (part_one p M c l S). rewrite <- !app_assoc. reflexivity.
             ++ intros X. destruct (Hs1 X) as (Y & _). discriminate.
             ++ intros s0 X. right. destruct (Hs2 s0 X) as [Y|(idx & Y & Z)].
                ** rewrite X in Y. inversion Y; subst. exists p. split; auto. lia.
                ** exists idx. split; auto. lia.
             ++ lia.
        * assert (EH := even_half _ O).
          destruct (slice_range_sub i nps (p - (p - last1) / 2) W) as (pc & Ep & Sp); [lia|unfold n in *; lia|].
          rewrite Ep. cbn [bind].
          destruct (push_all_contents_w tr pc Wt (sub_wf _ _ _ _ Sp)) as (tr1 & Et & Wt1 & Mt & _). rewrite Et. cbn [bind].
          eexists. split; [reflexivity|]. unfold loop_post. ands; auto; [right; eauto|].
          exists c, (firstn ((p - last1) / 2) (part last1 p M)). rewrite S. cbn [unquote]. rewrite B, St, Lk.
          rewrite even_odd, O. cbn [negb]. rewrite S1. ands; auto.
          -- rewrite Mt. unfold pieces_out. rewrite <- app_assoc. f_equal.
             rewrite (sub_marks_firstn _ _ _ _ Sp). fold M. change (firstn (p - (p - last1) / 2 - nps) (skipn nps M)) with (part nps (p - (p - last1) / 2) M).
             rewrite (part_split nps last1) by lia. f_equal.
             rewrite <- part_prefix by lia. f_equal. lia.
          -- exists s. split; auto.
      + (* not a stop character *)
        assert (Pc : part last1 (Datatypes.S p) M = part last1 p M ++ [c]).
        { rewrite (part_split last1 p) by lia. rewrite (part_one p M c l S). reflexivity. }
        destruct (backslash (fst c)) eqn:B.
        * assert (Bs : bs = true) by exact B. rewrite Bs.
          destruct (IH (Datatypes.S p) tr sc last1 nps S1) as (r & Er & Post); auto; try lia.
          eexists. split; [exact Er|]. destruct r as [[[[tr' sc'] last1'] nps'] found]. unfold loop_post in Post |- *.
          rewrite S. cbn [unquote]. rewrite B. rewrite S1, Pc in Post. exact Post.
        * assert (Bs : bs = false) by exact B. rewrite Bs.
          destruct (IH (Datatypes.S p) tr sc (Datatypes.S p) nps S1) as (r & Er & Post); auto; try lia.
          eexists. split; [exact Er|]. destruct r as [[[[tr' sc'] last1'] nps'] found]. unfold loop_post in Post |- *.
          rewrite S. cbn [unquote]. rewrite B, St. rewrite S1, part_nil in Post.
          assert (Po : pieces_out tr nps (Datatypes.S p) = pieces_out tr nps last1 ++ part last1 p M ++ [c]).
          { unfold pieces_out. rewrite (part_split nps last1 (Datatypes.S p)) by lia. rewrite Pc, !app_assoc. reflexivity. }
          rewrite Po in Post. destruct Post as (W' & X & Post). ands; auto.
          destruct found as [idx|].
          -- destruct Post as (c' & o & I1 & I2 & I3 & U & Mb & Sc). rewrite U. exists c'. eexists. ands; eauto.
             rewrite Mb, <- !app_assoc. reflexivity.
          -- destruct Post as (o & I1 & I2 & U & Mb & Hs). rewrite U. eexists. ands; eauto; try apply Hs.
             rewrite Mb, <- !app_assoc. reflexivity.
  Qed.

  Lemma indices_marks : span_indices i = (combine (seq 0 (length M)) (List.map mch M), false).
  Proof. rewrite (span_indices_ok i W). unfold enumerate. rewrite span_text_marks, map_length. reflexivity. Qed.

  Lemma simplify_w : forall b, wf_block_w b -> exists b', block_simplify b = Ok b' /\ wf_block b' /\
    block_marks b' = block_marks b /\ b_sens b' = b_sens b.
  Proof.
    intros [sens cs] H. destruct (block_new_ok sens cs) as (b & E & Wb & Mb & Sb & _).
    - eapply Forall_impl; [|exact H]. exact wf_cref_w0.
    - exists b. ands; auto.
  Qed.

  (** The result when no NUL is among the stop characters. *)
  Lemma take_until_unquote_ok : stop 0%N = false ->
    exists pre r, makefile_take_until_unquote i stop = Ok (pre, r) /\ wf_block pre /\
      match unquote mch stop [] M with
      | (o, Stopped c rest) => block_marks pre = o /\
          exists s post k, r = Some (s, post) /\ wf_span s /\ span_marks s = [c] /\ span_marks post = rest /\
            sub i k (n - k) post /\ 0 < k
      | (o, Ended pend) => block_marks pre = o ++ pend /\ r = None
      end.
  Proof.
    intros Z. unfold makefile_take_until_unquote. rewrite indices_marks.
    destruct (unquote_loop_ok M 0 (Blk (b_sens (sp_parent i)) []) None 0 0) as (r & Er & Post); auto; try lia.
    { constructor. }
    rewrite Er. cbn [bind]. destruct r as [[[[tr' sc'] last1'] nps'] found]. unfold loop_post in Post. destruct Post as (Wt & _ & Post).
    rewrite part_nil, skipn_O in Post. fold n. assert (LM := len_M).
    destruct found as [idx|]; cbn [bind].
    - destruct Post as (c & o & I1 & I2 & I3 & U & Mb & s & Es & Ss). rewrite U. subst sc'.
      replace (idx <? n) with true by (symmetry; apply Nat.ltb_lt; exact I1). cbn [bind].
      destruct (simplify_w tr' Wt) as (b & Eb & Wb & Mb' & _). rewrite Eb. cbn [bind].
      destruct (slice_from_sub i (idx + 1) W) as (post & Ep & Sp); [unfold n in *; lia|]. rewrite Ep. cbn [bind].
      exists b. eexists. ands; auto.
      + rewrite Mb', Mb. reflexivity.
      + exists s, post, (Datatypes.S idx). ands; eauto using sub_wf; try lia.
        * rewrite (sub_marks_firstn _ _ _ _ Ss). fold M.
          destruct (skipn idx M) as [|x t] eqn:Q.
          { assert (length (skipn idx M) = 0) by (rewrite Q; reflexivity). rewrite skipn_length in H. lia. }
          cbn. f_equal. rewrite <- (firstn_skipn idx M), Q, nth_error_app2 in I2; rewrite firstn_length, Nat.min_l in * by lia; auto.
          rewrite Nat.sub_diag in I2. cbn in I2. congruence.
        * rewrite (sub_end _ _ _ W Sp). f_equal. lia.
        * replace (Datatypes.S idx) with (idx + 1) by lia. exact Sp.
    - destruct Post as (o & I1 & I2 & U & Mb & Hs1 & Hs2 & Hs3). rewrite U, Z. cbn [bind].
      replace (Datatypes.S n <? n) with false by (symmetry; apply Nat.ltb_ge; lia).
      replace (Datatypes.S n =? n) with false by (symmetry; apply Nat.eqb_neq; lia).
      assert (Po : block_marks tr' ++ part nps' n M = o ++ part last1' n M).
      { rewrite (part_split nps' last1' n) by lia. rewrite app_assoc. fold (pieces_out tr' nps' last1'). rewrite Mb. reflexivity. }
      destruct sc' as [s|].
      + destruct (slice_from_sub i nps' W) as (pc & Ep & Sp); [unfold n in *; lia|]. rewrite Ep. cbn [bind].
        destruct (push_all_contents_w tr' pc Wt (sub_wf _ _ _ _ Sp)) as (tr1 & Et & Wt1 & Mt & _). rewrite Et. cbn [bind].
        destruct (simplify_w tr1 Wt1) as (b & Eb & Wb & Mb' & _). rewrite Eb. cbn [bind].
        exists b, None. ands; auto. rewrite Mb', Mt, <- Po. f_equal.
        rewrite (sub_end _ _ _ W Sp). unfold part. rewrite firstn_all2; auto. rewrite skipn_length. fold M. lia.
      + destruct (Hs1 eq_refl) as (_ & -> & ->). destruct (to_new_block_ok i W) as (b & Eb & Wb & Mb' & _). rewrite Eb. cbn [bind].
        exists b, None. ands; auto. rewrite Mb'. fold M. rewrite <- Po. cbn. unfold part. rewrite Nat.sub_0_r, skipn_O, firstn_all2; auto. lia.
  Qed.

  (** The result when NUL is a stop character: the end of the text then stops
      the reading, too. *)
  Lemma take_until_unquote_nul : stop 0%N = true ->
    n = 0 /\ makefile_take_until_unquote i stop = Panic \/
    0 < n /\
    exists pre r, makefile_take_until_unquote i stop = Ok (pre, r) /\ wf_block pre /\
      match unquote mch stop [] M with
      | (o, Stopped c rest) => block_marks pre = o /\
          exists s post k, r = Some (s, post) /\ span_marks post = rest /\ sub i k (n - k) post /\ 0 < k
      | (o, Ended pend) =>
          let k := length pend in
          if Nat.even k then block_marks pre = o ++ firstn (k / 2) pend /\
            exists s post, r = Some (s, post) /\ span_marks post = [] /\ sub i n 0 post
          else block_marks pre = o ++ (if length (o ++ pend) =? n then pend else firstn (k - k / 2) pend) /\ r = None
      end.
  Proof.
    intros Z. unfold makefile_take_until_unquote. rewrite indices_marks.
    destruct (unquote_loop_ok M 0 (Blk (b_sens (sp_parent i)) []) None 0 0) as (r & Er & Post); auto; try lia.
    { constructor. }
    rewrite Er. cbn [bind]. destruct r as [[[[tr' sc'] last1'] nps'] found]. unfold loop_post in Post. destruct Post as (Wt & _ & Post).
    rewrite part_nil, skipn_O in Post. fold n. assert (LM := len_M).
    destruct found as [idx|]; cbn [bind].
    - right. destruct Post as (c & o & I1 & I2 & I3 & U & Mb & s & Es & Ss). rewrite U. subst sc'. split; [lia|].
      replace (idx <? n) with true by (symmetry; apply Nat.ltb_lt; exact I1). cbn [bind].
      destruct (simplify_w tr' Wt) as (b & Eb & Wb & Mb' & _). rewrite Eb. cbn [bind].
      destruct (slice_from_sub i (idx + 1) W) as (post & Ep & Sp); [unfold n in *; lia|]. rewrite Ep. cbn [bind].
      exists b. eexists. ands; auto.
      + rewrite Mb', Mb. reflexivity.
      + exists s, post, (Datatypes.S idx). ands; eauto using sub_wf; try lia.
        * rewrite (sub_end _ _ _ W Sp). f_equal. lia.
        * replace (Datatypes.S idx) with (idx + 1) by lia. exact Sp.
    - destruct Post as (o & I1 & I2 & U & Mb & Hs1 & Hs2 & Hs3). rewrite U, Z. set (k := n - last1').
      assert (Lp : length (part last1' n M) = k) by (apply part_len; lia). cbn zeta. rewrite Lp.
      assert (Hh := half_le k).
      destruct (slice_range_sub i nps' (n - k / 2) W) as (pc & Ep & Sp); [lia|unfold n in *; lia|]. rewrite Ep. cbn [bind].
      destruct (push_all_contents_w tr' pc Wt (sub_wf _ _ _ _ Sp)) as (tr1 & Et & Wt1 & Mt & _). rewrite Et. cbn [bind].
      assert (Po : block_marks tr' ++ part nps' n M = o ++ part last1' n M).
      { rewrite (part_split nps' last1' n) by lia. rewrite app_assoc. fold (pieces_out tr' nps' last1'). rewrite Mb. reflexivity. }
      assert (Mtr : block_marks tr1 = o ++ firstn (k - k / 2) (part last1' n M)).
      { rewrite Mt, (sub_marks_firstn _ _ _ _ Sp). fold M. change (firstn (n - k / 2 - nps') (skipn nps' M)) with (part nps' (n - k / 2) M).
        rewrite (part_split nps' last1') by lia. rewrite app_assoc. fold (pieces_out tr' nps' last1'). rewrite Mb. change (pieces_out (Blk (b_sens (sp_parent i)) []) 0 0) with (@nil (char * location)). cbn [app]. f_equal.
        rewrite <- part_prefix by lia. f_equal. lia. }
      rewrite even_odd. destruct (Nat.odd k) eqn:O; cbn [negb bind].
      + assert (Kp : 0 < k) by (destruct k; [discriminate|lia]). right. split; [lia|].
        replace (Datatypes.S n <? n) with false by (symmetry; apply Nat.ltb_ge; lia).
        replace (Datatypes.S n =? n) with false by (symmetry; apply Nat.eqb_neq; lia).
        destruct sc' as [s|].
        * destruct (slice_from_sub i n W) as (pc2 & Ep2 & Sp2); [unfold n in *; lia|]. rewrite Ep2. cbn [bind].
          destruct (push_all_contents_w tr1 pc2 Wt1 (sub_wf _ _ _ _ Sp2)) as (tr2 & Et2 & Wt2 & Mt2 & _). rewrite Et2. cbn [bind].
          destruct (simplify_w tr2 Wt2) as (b & Eb & Wb & Mb' & _). rewrite Eb. cbn [bind].
          exists b, None. ands; auto. rewrite Mb', Mt2, Mtr, (sub_marks_firstn _ _ _ _ Sp2).
          fold n. rewrite Nat.sub_diag. cbn. rewrite app_nil_r. f_equal.
          destruct (Hs2 s eq_refl) as [Y|(idx & Y & L)]; [discriminate|].
          rewrite Po in L. replace (length (o ++ part last1' n M) =? n) with false; auto. symmetry. apply Nat.eqb_neq.
          rewrite !app_length, !part_len in L by lia. rewrite app_length, part_len by lia. unfold block_marks in L. cbn in L. fold n k in L |- *. lia.
        * destruct (Hs1 eq_refl) as (_ & -> & ->). destruct (to_new_block_ok i W) as (b & Eb & Wb & Mb' & _). rewrite Eb. cbn [bind].
          exists b, None. ands; auto. rewrite Mb'. fold M.
          assert (Q : o ++ part last1' n M = M).
          { rewrite <- Po. cbn. unfold part. rewrite Nat.sub_0_r, skipn_O, firstn_all2; auto. lia. }
          rewrite Q. replace (length M =? n) with true by (symmetry; apply Nat.eqb_eq; lia). auto.
      + assert (EH := even_half _ O). rewrite EH in Mtr.
        destruct (Nat.eq_dec n 0) as [Hn|Hn].
        * left. rewrite Hn. split; auto.
        * right. split; [lia|]. rewrite usub_ok by lia. cbn [bind].
          replace (n - 1 <? n) with true by (symmetry; apply Nat.ltb_lt; lia).
          assert (Sc : exists s, match sc' with Some c => Ok c | None => slice_from i n end = Ok s).
          { destruct sc' as [s|]; eauto. destruct (slice_from_sub i n W) as (pc2 & Ep2 & Sp2); [unfold n in *; lia|]. eauto. }
          destruct Sc as (s & Sc). rewrite Sc. cbn [bind].
          destruct (simplify_w tr1 Wt1) as (b & Eb & Wb & Mb' & _). rewrite Eb. cbn [bind].
          destruct (slice_from_sub i (n - 1 + 1) W) as (post & Epo & Spo); [unfold n in *; lia|]. rewrite Epo. cbn [bind].
          exists b. eexists. ands; auto.
          -- rewrite Mb', Mtr. reflexivity.
          -- exists s, post. ands; auto.
             ++ rewrite (sub_end _ _ _ W Spo). apply skipn_all2. fold M. lia.
             ++ replace (n - 1 + 1) with n in Spo by lia. fold n in Spo. rewrite Nat.sub_diag in Spo. exact Spo.
  Qed.
End Loop.

(** Where unquoting stops. *)
Lemma tail_backslashes_all : forall {A} (ch : A -> char) l, Forall (fun a => backslash (ch a) = true) l ->
  tail_backslashes ch l = length l.
Proof.
  intros A ch l H. unfold tail_backslashes. rewrite <- (app_nil_r (rev l)), take_while_all.
  - cbn. rewrite app_nil_r, rev_length. reflexivity.
  - apply forallb_forall, Forall_forall, Forall_rev. exact H.
Qed.

Lemma tail_backslashes_after : forall {A} (ch : A -> char) p c l, backslash (ch c) = false ->
  tail_backslashes ch (p ++ c :: l) = tail_backslashes ch l.
Proof.
  intros A ch p c l H. unfold tail_backslashes. rewrite rev_app_distr. cbn [rev]. rewrite <- app_assoc. cbn [app].
  induction (rev l) as [|x t IH]; cbn; [rewrite H; reflexivity|]. destruct (backslash (ch x)); cbn; auto.
Qed.

Lemma unquote_where : forall {A} (ch : A -> char) stop, stop c_bslash = false ->
  forall t pend o e, Forall (fun a => backslash (ch a) = true) pend -> unquote ch stop pend t = (o, e) ->
  match e with
  | Stopped c rest => exists pre, t = pre ++ c :: rest /\ stop (ch c) = true /\
      Nat.even (tail_backslashes ch (pend ++ pre)) = true /\
      (forall p d q, pre = p ++ d :: q -> stop (ch d) = true -> Nat.even (tail_backslashes ch (pend ++ p)) = false)
  | Ended _ => forall p d q, t = p ++ d :: q -> stop (ch d) = true -> Nat.even (tail_backslashes ch (pend ++ p)) = false
  end.
Proof.
  intros A ch stop Hb. induction t as [|c t IH]; intros pend o e F E; cbn [unquote] in E.
  - inversion E; subst. intros p d q X. destruct p; discriminate.
  - destruct (backslash (ch c)) eqn:B.
    + assert (Sc : stop (ch c) = false).
      { unfold backslash in B. apply N.eqb_eq in B. rewrite B. exact Hb. }
      apply IH in E. 2:{ apply Forall_app. split; auto. }
      destruct e as [c' rest|pd].
      * destruct E as (pre & -> & S1 & S2 & S3). exists (c :: pre). rewrite <- app_assoc in S2. ands; auto.
        intros [|d0 p] d q X Y; cbn in X; inversion X; subst; [congruence|].
        specialize (S3 p d q eq_refl Y). rewrite <- app_assoc in S3. exact S3.
      * intros [|d0 p] d q X Y; cbn in X; inversion X; subst; [congruence|].
        specialize (E p d q eq_refl Y). rewrite <- app_assoc in E. exact E.
    + assert (R : forall o1, (let '(o2, e2) := unquote ch stop [] t in (o1 ++ o2, e2)) = (o, e) ->
        (stop (ch c) = true -> Nat.even (length pend) = false) ->
        match e with
        | Stopped c' rest => exists pre, c :: t = pre ++ c' :: rest /\ stop (ch c') = true /\
            Nat.even (tail_backslashes ch (pend ++ pre)) = true /\
            (forall p d q, pre = p ++ d :: q -> stop (ch d) = true -> Nat.even (tail_backslashes ch (pend ++ p)) = false)
        | Ended _ => forall p d q, c :: t = p ++ d :: q -> stop (ch d) = true -> Nat.even (tail_backslashes ch (pend ++ p)) = false
        end).
      { intros o1 X Y. destruct (unquote ch stop [] t) as [o2 e2] eqn:U. inversion X; subst.
        assert (Z := IH [] o2 e (Forall_nil _) U). destruct e as [c' rest|pd].
        - destruct Z as (pre & -> & S1 & S2 & S3). exists (c :: pre). ands; auto.
          + rewrite tail_backslashes_after by exact B. exact S2.
          + intros [|d0 p] d q X1 X2; cbn in X1; inversion X1; subst.
            * rewrite app_nil_r, tail_backslashes_all by exact F. auto.
            * rewrite tail_backslashes_after by exact B. eapply S3; eauto.
        - intros [|d0 p] d q X1 X2; cbn in X1; inversion X1; subst.
          + rewrite app_nil_r, tail_backslashes_all by exact F. auto.
          + rewrite tail_backslashes_after by exact B. eapply Z; eauto. }
      destruct (stop (ch c)) eqn:St.
      * destruct (Nat.even (length pend)) eqn:Ev.
        -- inversion E; subst. exists []. ands; auto.
           ++ rewrite app_nil_r, tail_backslashes_all by exact F. exact Ev.
           ++ intros [|d0 p] d q X; discriminate.
        -- apply (R (firstn (length pend / 2) pend ++ [c])); auto.
           destruct (unquote ch stop [] t). inversion E; subst. rewrite <- app_assoc. reflexivity.
      * apply (R (pend ++ [c])); [|discriminate].
        destruct (unquote ch stop [] t). inversion E; subst. rewrite <- app_assoc. reflexivity.
Qed.

(** What unquoting keeps: the last run of backslashes is halved. *)
Lemma unquote_ended_pending : forall {A} (ch : A -> char) stop t pend o pd,
  Forall (fun a => backslash (ch a) = true) pend -> unquote ch stop pend t = (o, Ended pd) ->
  Forall (fun a => backslash (ch a) = true) pd /\ length pd = tail_backslashes ch (pend ++ t).
Proof.
  intros A ch stop. induction t as [|c t IH]; intros pend o pd F E; cbn [unquote] in E.
  - inversion E; subst. split; auto. rewrite app_nil_r, tail_backslashes_all; auto.
  - destruct (backslash (ch c)) eqn:B.
    + apply IH in E. 2:{ apply Forall_app. split; auto. } rewrite <- app_assoc in E. exact E.
    + rewrite tail_backslashes_after by exact B.
      assert (exists o2, unquote ch stop [] t = (o2, Ended pd)) as (o2 & U).
      { destruct (unquote ch stop [] t) as [o2 e2]. destruct (stop (ch c)); [destruct (Nat.even (length pend)); [discriminate|]|]; inversion E; subst; eauto. }
      apply (IH [] o2 pd (Forall_nil _) U).
Qed.

(** Text in which no stop character follows a backslash is kept as it is. *)
Lemma unquote_plain : forall {A} (ch : A -> char) (stop : char -> bool), stop c_bslash = false ->
  forall t pend, (forall a, In a t -> stop (ch a) = false) ->
  forall rest, unquote ch stop pend (t ++ rest) =
    let k := take_while (fun a => backslash (ch a)) (rev t) in
    let pend' := if length k =? length t then pend ++ t else rev k in
    let kept := if length k =? length t then [] else pend ++ firstn (length t - length k) t in
    let '(o, e) := unquote ch stop pend' rest in (kept ++ o, e).
Proof.
  intros A ch stop Hb t. induction t as [|c t IH]; intros pend H rest.
  - cbn. rewrite app_nil_r. destruct (unquote ch stop pend rest); reflexivity.
  - cbn [app unquote rev]. 
    assert (Sc := H c (or_introl eq_refl)). rewrite Sc.
    set (K := take_while (fun a => backslash (ch a)) (rev t)).
    assert (LK : length K <= length t).
    { rewrite <- (rev_length t). unfold K. clear. induction (rev t); cbn; auto. destruct (backslash (ch a)); cbn; lia. }
    assert (HK : take_while (fun a => backslash (ch a)) (rev t ++ [c]) =
       if length K =? length t then (if backslash (ch c) then K ++ [c] else K) else K).
    { unfold K. rewrite <- (rev_length t). clear. induction (rev t) as [|x l IH]; cbn; [destruct (backslash (ch c)); reflexivity|].
      destruct (backslash (ch x)); cbn; [|reflexivity]. rewrite IH. destruct (_ =? _); [destruct (backslash (ch c))|]; reflexivity. }
    assert (KA : length K = length t -> K = rev t).
    { unfold K. rewrite <- (rev_length t). clear. induction (rev t) as [|x l IH]; cbn; auto.
      destruct (backslash (ch x)); cbn; [|discriminate]. intros E. f_equal. apply IH. lia. }
    rewrite HK. rewrite !IH by (intros; apply H; right; auto). cbn zeta. fold K.
    destruct (Nat.eqb_spec (length K) (length t)) as [E|E].
    + destruct (backslash (ch c)) eqn:B.
      * rewrite app_length. cbn [length]. replace (length K + 1 =? S (length t)) with true by (symmetry; apply Nat.eqb_eq; lia).
        rewrite <- app_assoc. reflexivity.
      * cbn [length]. replace (length K =? S (length t)) with false by (symmetry; apply Nat.eqb_neq; lia).
        replace (S (length t) - length K) with 1 by lia. cbn [firstn app]. rewrite (KA E), rev_involutive.
        destruct (unquote ch stop t rest). rewrite <- app_assoc. reflexivity.
    + cbn [length]. replace (length K =? S (length t)) with false by (symmetry; apply Nat.eqb_neq; lia).
      replace (S (length t) - length K) with (S (length t - length K)) by lia. cbn [firstn].
      destruct (backslash (ch c)) eqn:B; destruct (unquote ch stop (rev K) rest); rewrite <- ?app_assoc; reflexivity.
Qed.
