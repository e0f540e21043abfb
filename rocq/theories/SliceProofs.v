(** Proofs about slices of text of any script (C09). *)
From Verif Require Import Base LocModel EvdModel NomModel EvdSpec EvdProofs EvdProofs2 EvdProofs3 CutSpec.

Lemma source_ref : forall loc s b, block_new [] [ev_constant (Located loc s)] = Ok b -> s <> [] -> b = Blk [] [CRef 0 (blen s) (NConst (Located loc s))].
Proof.
  intros loc s b E Ns. unfold block_new, block_simplify, ev_constant, new_from_node in E. cbn [b_content b_sens filter c_len node_len l_str] in E.
  assert (Hp : 0 < blen s) by (destruct s as [|c s]; [contradiction|]; cbn; pose proof (len_utf8_pos c); lia).
  destruct (Nat.eqb_spec (blen s) 0); [lia|]. cbn [negb mapM cref_simplify simplify_ref] in E. unfold located_slice in E. cbn [l_str l_loc] in E.
  rewrite rassert_true in E by now apply Nat.ltb_lt. cbn [bind] in E. cbn [plus] in E.
  rewrite rassert_true in E by now apply Nat.leb_le. cbn [bind] in E.
  replace (bsplit 0 s) with (@Ok (list N * list N) ([], s)) in E by (destruct s; reflexivity). cbn [bind] in E.
  rewrite bsplit_all in E. cbn in E. injection E as <-. reflexivity.
Qed.
Lemma limit_reads : forall l n, read_bytes l n (st_collect (st_limit n l false)).
Proof.
  induction l as [|c l IH]; intros n.
  - destruct n as [|n]; [exact (RB_exact [] [])|]. cbn. apply RB_short. cbn. lia.
  - destruct n as [|n]; [exact (RB_exact [] (c :: l))|]. cbn [st_limit]. destruct (Nat.leb_spec (len_utf8 c) (S n)) as [L|L].
    + specialize (IH (S n - len_utf8 c)). destruct (st_limit (S n - len_utf8 c) l false) as [r b]. unfold st_collect in *. cbn [fst snd] in *.
      remember (S n - len_utf8 c) as m eqn:Em. remember (if b then Panic else Ok r) as o eqn:Eo. destruct IH as [p q|p m H|p c' q m H1 H2].
      * destruct b; [discriminate Eo|]. injection Eo as <-. replace (S n) with (blen (c :: p)) by (cbn [blen]; lia). apply (RB_exact (c :: p) q).
      * destruct b; [discriminate Eo|]. injection Eo as <-. apply RB_short. cbn [blen]. lia.
      * destruct b; [|discriminate Eo]. apply (RB_inside (c :: p) c' q); cbn [blen]; lia.
    + apply (RB_inside [] c l); cbn [blen]; lia.
Qed.
Lemma source_slice : forall loc s a len, s <> [] -> a + len <= blen s -> exists sp,
  revalidate (Span (Blk [] [CRef 0 (blen s) (NConst (Located loc s))]) [CRef 0 (blen s) (NConst (Located loc s))] a len) = Ok sp /\ read_bytes (skipn a s) len (span_into_string sp).
Proof.
  intros loc s a len Ns H. unfold revalidate. cbn [sp_len sp_off sp_contents sp_parent]. destruct (Nat.eqb_spec len 0) as [->|L].
  - eexists. split; [reflexivity|]. unfold span_into_string. cbn [sp_len Nat.eqb]. exact (RB_exact [] (skipn a s)).
  - cbn [reval c_len]. destruct (Nat.leb_spec (blen s) a); [lia|]. cbn [bind]. eexists. split; [reflexivity|]. unfold span_into_string. cbn [sp_len].
    destruct (Nat.eqb_spec len 0); [lia|]. unfold span_chars, iter_chars. cbn [sp_contents sp_off sp_len List.map fold_right]. cbv zeta.
    assert (E : cref_chars (CRef 0 (blen s) (NConst (Located loc s))) = (s, false)).
    { cbn [cref_chars node_chars l_str]. unfold st_take, st_skip. cbn [fst snd skipn]. destruct (Nat.leb_spec (blen s) (length s)); [|reflexivity]. rewrite firstn_all2 by apply blen_ge. reflexivity. }
    rewrite E. unfold st_app, st_skip. cbn [fst snd]. rewrite app_nil_r. apply limit_reads.
Qed.
Lemma slice_shown : forall loc s b a e, block_new [] [ev_constant (Located loc s)] = Ok b -> a <= e -> e <= blen s ->
  exists sp, slice_range (block_span b) a e = Ok sp /\ read_bytes (skipn a s) (e - a) (span_into_string sp).
Proof.
  intros loc s b a e E H1 H2. destruct s as [|c s].
  - cbn in H2. assert (a = 0) as -> by lia. assert (e = 0) as -> by lia. vm_compute in E. injection E as <-. eexists. split; [reflexivity|]. exact (RB_exact [] []).
  - rewrite (source_ref _ _ _ E) by discriminate. unfold slice_range, usub. destruct (Nat.leb_spec a e); [|lia]. cbn [bind].
    cbn [block_span sp_parent sp_contents sp_off b_content]. apply source_slice; [discriminate|lia].
Qed.
Lemma from_shown : forall loc pre rest b, block_new [] [ev_constant (Located loc (pre ++ rest))] = Ok b ->
  exists sp, slice_from (block_span b) (blen pre) = Ok sp /\ span_into_string sp = Ok (skipn (blen pre - length pre) rest).
Proof.
  intros loc pre rest b E. destruct (list_eq_dec N.eq_dec (pre ++ rest) []) as [Z|Z].
  - apply app_eq_nil in Z as [-> ->]. vm_compute in E. injection E as <-. eexists. split; reflexivity.
  - rewrite (source_ref _ _ _ E Z). unfold slice_from, block_span, block_len, sum_len, usub. cbn [sp_len sp_parent sp_contents sp_off b_content List.map list_sum fold_right c_len].
    rewrite Nat.add_0_r. pose proof (blen_app pre rest) as L. destruct (Nat.leb_spec (blen pre) (blen (pre ++ rest))); [|lia]. cbn [bind].
    destruct (source_slice loc (pre ++ rest) (blen pre) (blen (pre ++ rest) - blen pre) Z ltac:(lia)) as (sp & E1 & R). exists sp. split; [exact E1|].
    rewrite skipn_app in R. rewrite (@skipn_all2 _ (blen pre) pre) in R by apply blen_ge. cbn [app] in R.
    set (k := blen pre - length pre) in *. replace (blen (pre ++ rest) - blen pre) with (blen rest) in R by lia.
    assert (K : blen (skipn k rest) <= blen rest) by (rewrite <- (firstn_skipn k rest) at 2; rewrite blen_app; lia).
    inversion R as [p q E2 E3 E4|p m H2 E2 E3 E4|p c q m H2 H3 E2 E3 E4]; subst.
    + rewrite <- E2, blen_app in K. assert (q = []) as ->; [|rewrite app_nil_r; reflexivity]. destruct q as [|c q]; [reflexivity|]. cbn in K. pose proof (len_utf8_pos c). lia.
    + reflexivity.
    + rewrite <- E2, blen_app in K. cbn [blen] in K. lia.
Qed.
Lemma blen_ascii : forall s, blen s = length s -> asciis s.
Proof.
  induction s as [|c s IH]; intros H; [constructor|]. cbn [blen length] in H. pose proof (blen_ge s). pose proof (len_utf8_pos c). constructor; [|apply IH; lia].
  unfold len_utf8 in *. destruct (N.ltb_spec c 128); [assumption|]. repeat destruct (_ <? _)%N; lia.
Qed.
Lemma from_right : forall loc pre rest b sp, block_new [] [ev_constant (Located loc (pre ++ rest))] = Ok b -> rest <> [] ->
  slice_from (block_span b) (blen pre) = Ok sp -> (span_into_string sp = Ok rest <-> asciis pre).
Proof.
  intros loc pre rest b sp E Nr S. destruct (from_shown loc pre rest b E) as (sp' & S' & T). rewrite S in S'. injection S' as <-. rewrite T. split.
  - intros Q. injection Q as Q. apply (f_equal (@length N)) in Q. rewrite skipn_length in Q. assert (0 < length rest) by (destruct rest; [contradiction|cbn; lia]).
    apply blen_ascii. pose proof (blen_ge pre). lia.
  - intros A. rewrite (asciis_blen _ A), Nat.sub_diag. reflexivity.
Qed.
