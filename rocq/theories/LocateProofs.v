(** Proofs about cuts (C07). *)
From Verif Require Import Base LocModel EvdModel EvdSpec EvdProofs EvdProofs2 CutSpec.

Definition piece (k : nat) : list bool := flag_first (repeat false k).
Definition shape (l : list located) : list bool := concat (List.map (fun tr => piece (length (l_str tr))) l).

Lemma skipn_rep : forall {A} (x : A) k o, skipn o (repeat x k) = repeat x (k - o).
Proof. intros A x. induction k as [|k IH]; intros [|o]; cbn; auto. Qed.
Lemma firstn_rep : forall {A} (x : A) k a, a <= k -> firstn a (repeat x k) = repeat x a.
Proof. intros A x. induction k as [|k IH]; intros [|a] H; cbn; auto; [lia|]. f_equal. apply IH. lia. Qed.
Lemma piece_len : forall k, length (piece k) = k.
Proof. intros [|k]; cbn; [reflexivity|]. now rewrite repeat_length. Qed.
Lemma piece_cut : forall k o a, o + a <= k -> flag_first (firstn a (skipn o (piece k))) = piece a.
Proof.
  intros k o a H. destruct k as [|k]; [assert (a = 0) as -> by lia; reflexivity|]. unfold piece. cbn [repeat flag_first].
  destruct o as [|o]; cbn [skipn].
  - destruct a as [|a]; [reflexivity|]. cbn [firstn flag_first repeat]. rewrite firstn_rep by lia. reflexivity.
  - rewrite skipn_rep, firstn_rep by lia. reflexivity.
Qed.
Lemma piece_inside : forall k o, 0 < o -> o < k -> nth_error (piece k) o = Some false.
Proof.
  intros [|k] [|o] H L; try lia. unfold piece. cbn [repeat flag_first nth_error]. 
  rewrite (nth_error_nth' _ false) by (rewrite repeat_length; lia). f_equal. apply nth_repeat.
Qed.
Lemma flag_app : forall a b, a <> [] -> flag_first (a ++ b) = flag_first a ++ b.
Proof. intros [|x a] b H; [contradiction|reflexivity]. Qed.
Lemma flag_len : forall a, length (flag_first a) = length a.
Proof. intros [|x a]; reflexivity. Qed.
Lemma good_len : forall tr, seg_good tr -> 0 < length (l_str tr).
Proof. intros tr [_ G]. destruct (l_str tr); [easy|cbn; lia]. Qed.
Lemma shape_first : forall l, Forall seg_good l -> l = [] \/ exists r, shape l = true :: r.
Proof.
  intros l H. destruct H as [|tr l G H]; [now left|right]. unfold shape. cbn [List.map concat].
  pose proof (good_len _ G). destruct (length (l_str tr)); [lia|]. eexists. reflexivity.
Qed.
Lemma flag_shape : forall l a, Forall seg_good l -> flag_first (firstn a (shape l)) = firstn a (shape l).
Proof. intros l a H. destruct (shape_first l H) as [->|(r & ->)]; [destruct a; reflexivity|]. destruct a; reflexivity. Qed.

Lemma span_cref : forall l o len b, Forall seg_good l -> span_segs_of o len l b = cref_segs_of o len l b.
Proof.
  induction l as [|tr l IH]; intros o len b H; [reflexivity|]. inversion H as [|? ? G H']; subst.
  destruct len as [|len]; [reflexivity|]. cbn [span_segs_of cref_segs_of]. destruct (blen (l_str tr) <? o); [apply IH; assumption|].
  destruct (Nat.eqb_spec o 0) as [->|N].
  - pose proof (good_len _ G). rewrite (located_slice_ok tr 0 (blen (l_str tr) - 0)); [|apply G|lia|rewrite asciis_blen by apply G; lia]. cbn [firstn skipn].
    rewrite Nat.sub_0_r, asciis_blen, firstn_all by apply G. destruct tr as [loc s]. cbn [l_loc l_str] in *. change (advance_over loc []) with loc.
    rewrite IH by assumption. rewrite ?(asciis_blen s) by apply G. reflexivity.
  - destruct (located_slice tr o (blen (l_str tr) - o)); try reflexivity. rewrite IH by assumption. reflexivity.
Qed.

Definition hits (o : nat) (st : list bool) : Prop := 0 < o /\ (nth_error st o = Some true \/ length st <= o).
Lemma cut_shape : forall l o len b, Forall seg_good l -> 0 < len -> (b = false -> o + len <= length (shape l)) ->
  (hits o (shape l) -> cref_segs_of o len l b = ([], true)) /\
  (~ hits o (shape l) -> shape (fst (cref_segs_of o len l b)) = flag_first (firstn len (skipn o (shape l))) /\
    snd (cref_segs_of o len l b) = (length (shape l) <? o + len)).
Proof.
  induction l as [|tr l IH]; intros o len b H Hp Hb.
  - cbn [shape List.map concat length] in *. destruct b; [|specialize (Hb eq_refl); lia]. destruct len as [|len]; [lia|]. cbn [cref_segs_of].
    split; [reflexivity|]. intros _. cbn [fst snd]. split; [destruct o; reflexivity|]. symmetry. apply Nat.ltb_lt. lia.
  - inversion H as [|? ? G H']; subst. pose proof (good_len _ G) as K. set (k := length (l_str tr)) in *.
    assert (Es : shape (tr :: l) = piece k ++ shape l) by reflexivity. rewrite Es in *. rewrite app_length, piece_len in *.
    destruct len as [|len]; [lia|]. cbn [cref_segs_of]. rewrite asciis_blen by apply G. fold k.
    destruct (Nat.ltb_spec k o) as [Ho|Ho].
    + destruct (IH (o - k) (S len) b H' ltac:(lia)) as [I1 I2]; [intros E; specialize (Hb E); lia|].
      assert (Hh : hits o (piece k ++ shape l) <-> hits (o - k) (shape l)).
      { unfold hits. rewrite nth_error_app2 by (rewrite piece_len; lia). rewrite app_length, piece_len. intuition lia. }
      rewrite Hh. split; [exact I1|]. intros N. destruct (I2 N) as [E1 E2]. rewrite E1, E2. split.
      * rewrite skipn_app, piece_len, (@skipn_all2 _ o (piece k)) by (rewrite piece_len; lia). reflexivity.
      * destruct (Nat.ltb_spec (length (shape l)) (o - k + S len)), (Nat.ltb_spec (k + length (shape l)) (o + S len)); auto; lia.
    + destruct (Nat.eq_dec o k) as [->|Hk].
      * assert (Hh : hits k (piece k ++ shape l)).
        { split; [lia|]. rewrite nth_error_app2, piece_len, Nat.sub_diag by (rewrite piece_len; lia). rewrite app_length, piece_len.
          destruct (shape_first l H') as [->|(r & ->)]; [right; cbn; lia|left; reflexivity]. }
        split; [intros _|intros N; contradiction]. unfold located_slice. rewrite asciis_blen by apply G. fold k.
        destruct (Nat.ltb_spec k k); [lia|]. reflexivity.
      * assert (Hh : ~ hits o (piece k ++ shape l)).
        { intros [Q [R|R]]; [|rewrite app_length, piece_len in R; lia]. rewrite nth_error_app1 in R by (rewrite piece_len; lia). rewrite piece_inside in R by lia. discriminate. }
        split; [intros Q; contradiction|intros _].
        destruct (located_slice tr o (k - o)) as [tr1| |] eqn:E1; [|rewrite located_slice_ok in E1 by (apply G || (fold k; lia)); discriminate..].
        assert (L1 : length (l_str tr1) = k - o /\ seg_good tr1).
        { replace (k - o) with (blen (l_str tr) - o) in E1 by (rewrite asciis_blen by apply G; reflexivity).
          apply (sg_good_slice _ _ _ G) in E1 as (G1 & _ & _ & L1). auto. }
        destruct L1 as [L1 G1]. rewrite asciis_blen by apply G1. rewrite L1.
        destruct (Nat.ltb_spec (S len) (k - o)) as [Hl|Hl].
        -- rewrite located_slice_ok by (apply G1 || lia). cbn [fst snd]. unfold shape at 1. cbn [List.map concat l_str]. rewrite app_nil_r. cbn [skipn].
           rewrite firstn_length, L1, Nat.min_l by lia. rewrite skipn_app, firstn_app, skipn_length, piece_len.
           replace (S len - (k - o)) with 0 by lia. rewrite firstn_O, app_nil_r, piece_cut by lia. split; [reflexivity|].
           symmetry. apply Nat.ltb_ge. lia.
        -- assert (R : shape (fst (cref_segs_of 0 (S len - (k - o)) l b)) = firstn (S len - (k - o)) (shape l) /\
             snd (cref_segs_of 0 (S len - (k - o)) l b) = (length (shape l) <? S len - (k - o))).
           { destruct (S len - (k - o)) as [|m] eqn:Em; [destruct l; split; reflexivity|].
             destruct (IH 0 (S m) b H' ltac:(lia)) as [_ I2]; [intros E; specialize (Hb E); lia|]. destruct I2 as [E2 E3]; [intros [Q _]; lia|].
             rewrite E2, E3. cbn [skipn]. rewrite flag_shape by assumption. auto. }
           destruct R as [R1 R2]. destruct (cref_segs_of 0 (S len - (k - o)) l b) as [r b']. cbn [fst snd] in *. subst b'. split.
           ++ unfold shape at 1. cbn [List.map concat]. fold (shape r). rewrite L1, R1. rewrite skipn_app, piece_len. replace (o - k) with 0 by lia. cbn [skipn].
              rewrite firstn_app, skipn_length, piece_len. rewrite flag_app.
              ** f_equal. rewrite <- (piece_cut k o (k - o)) by lia. f_equal. rewrite !firstn_all2; auto; rewrite skipn_length, piece_len; lia.
              ** intros E. apply (f_equal (@length bool)) in E. rewrite firstn_length, skipn_length, piece_len in E. cbn [length] in E. lia.
           ++ destruct (Nat.ltb_spec (length (shape l)) (S len - (k - o))), (Nat.ltb_spec (k + length (shape l)) (o + S len)); auto; lia.
Qed.

(** What is known of the segments of a text: they are the pieces of the text up to the first place
    that cannot be reached. *)
Definition pieces_of (sg : segs) (st : list bool) (B : nat -> Prop) : Prop :=
  Forall seg_good (fst sg) /\ exists rest, st = shape (fst sg) ++ rest /\ (snd sg = true <-> rest <> []) /\
    forall p, p < length st -> (length (shape (fst sg)) <= p <-> B p).

Lemma flag_prefix : forall o len s r, exists rest, flag_first (firstn len (skipn o (s ++ r))) = flag_first (firstn len (skipn o s)) ++ rest.
Proof.
  intros o len s r. rewrite skipn_app, firstn_app. destruct (firstn len (skipn o s)) as [|x y]; [|eexists; reflexivity].
  eexists. reflexivity.
Qed.
Lemma cut_pieces : forall sg st B o len, pieces_of sg st B -> Forall seg_good (fst (cref_segs_of o len (fst sg) (snd sg))) -> 0 < len -> o + len <= length st ->
  pieces_of (cref_segs_of o len (fst sg) (snd sg)) (flag_first (firstn len (skipn o st))) (fun p => bad_cut o st \/ B (o + p)).
Proof.
  intros [l b] st B o len (G & rest & -> & Hr & HB) G' Hp Hle. cbn [fst snd] in *. split; [exact G'|].
  rewrite app_length in *.
  assert (Hb : b = false -> o + len <= length (shape l)).
  { intros ->. destruct rest; [cbn in Hle; lia|]. destruct Hr as [_ Hr]. discriminate Hr. discriminate. }
  destruct (cut_shape l o len b G Hp Hb) as [C1 C2].
  assert (Lt : length (flag_first (firstn len (skipn o (shape l ++ rest)))) = len) by (rewrite flag_len, firstn_length, skipn_length, app_length; lia).
  assert (D : hits o (shape l) \/ ~ hits o (shape l)).
  { unfold hits. destruct (Nat.eq_dec o 0); [right; lia|]. destruct (nth_error (shape l) o) as [[|]|] eqn:E; [left; split; [lia|auto]|right; intros [_ [Q|Q]]; [discriminate|]|left; split; [lia|right; apply nth_error_None; exact E]].
    apply nth_error_None in Q. congruence. }
  destruct D as [D|D].
  - rewrite (C1 D). cbn [fst snd]. exists (flag_first (firstn len (skipn o (shape l ++ rest)))). split; [reflexivity|]. split.
    + split; [|reflexivity]. intros _ E. rewrite E in Lt. cbn in Lt. lia.
    + intros p P. split; [intros _|cbn; lia]. rewrite Lt in P. destruct D as [Ho [D|D]].
      * left. split; [exact Ho|]. rewrite nth_error_app1; [exact D|]. apply nth_error_Some. congruence.
      * right. apply HB; lia.
  - destruct (C2 D) as [E1 E2]. rewrite E1, E2. destruct (flag_prefix o len (shape l) rest) as (rest' & Er). exists rest'. split; [exact Er|].
    assert (Ho : o = 0 \/ o < length (shape l)) by (unfold hits in D; destruct (Nat.eq_dec o 0); [auto|right]; apply Nat.nle_gt; intros Q; apply D; split; [lia|auto]).
    assert (Ls : length (flag_first (firstn len (skipn o (shape l)))) = Nat.min len (length (shape l) - o)) by (rewrite flag_len, firstn_length, skipn_length; reflexivity).
    assert (Lr : Nat.min len (length (shape l) - o) + length rest' = len) by (rewrite <- Ls, <- app_length, <- Er; exact Lt).
    split.
    + rewrite Nat.ltb_lt. destruct rest'; cbn in Lr; split; intros Q; try lia; try discriminate; congruence.
    + intros p P. rewrite Lt in P. rewrite Ls. split.
      * intros Q. right. apply HB; lia.
      * intros [[Q R]|Q].
        -- exfalso. apply D. split; [exact Q|]. left. rewrite nth_error_app1 in R by lia. exact R.
        -- apply HB in Q; lia.
Qed.

Lemma starts_len : (forall n, wf_node n -> length (node_starts n) = node_len n) /\ (forall c, wf_cref_w c -> length (cref_starts c) = c_len c).
Proof.
  assert (Hb : forall n v, node_block n = Some v -> Forall (fun c => wf_cref_w c -> length (cref_starts c) = c_len c) (b_content v) -> wf_node n -> length (node_starts n) = node_len n).
  { intros n [se cs] Hv HF HW. apply (wf_node_block _ _ Hv), wf_crefs_weak in HW. rewrite (node_len_block _ _ Hv). cbn [b_content] in *.
    replace (node_starts n) with (crefs_starts cs) by (destruct n; cbn in Hv; inversion Hv; subst; reflexivity). unfold block_len, crefs_starts, sum_len. cbn [b_content].
    clear Hv. induction HF as [|c cs Hc HF IH]; [reflexivity|]. inversion HW; subst. cbn [List.map concat list_sum fold_right]. rewrite app_length, Hc by assumption.
    f_equal. apply IH. assumption. }
  assert (Hr : forall o l n, (wf_node n -> length (node_starts n) = node_len n) -> wf_cref_w (CRef o l n) -> length (cref_starts (CRef o l n)) = c_len (CRef o l n)).
  { intros o l n HN (Hle & HW). cbn [cref_starts c_len]. rewrite flag_len, firstn_length, skipn_length, HN by assumption. lia. }
  assert (Hc : forall l, wf_node (NConst l) -> length (node_starts (NConst l)) = node_len (NConst l)).
  { intros l HW. cbn in *. rewrite flag_len, repeat_length. symmetry. now apply asciis_blen. }
  split; [apply (node_ind' _ _ Hc Hb Hr)|apply (cref_ind' _ _ Hc Hb Hr)].
Qed.

Definition blocked_list (cs : list cref) (p : nat) : Prop := exists pre c post q, cs = pre ++ c :: post /\ q < c_len c /\ sum_len pre + q <= p /\ blocked_ref c q.
Definition ref_pieces (c : cref) : Prop := wf_cref_w c -> 0 < c_len c -> pieces_of (cref_segs c) (cref_starts c) (blocked_ref c).

Lemma sum_len_cons : forall c cs, sum_len (c :: cs) = c_len c + sum_len cs.
Proof. reflexivity. Qed.
Lemma crefs_starts_len : forall cs, Forall wf_cref_w cs -> length (crefs_starts cs) = sum_len cs.
Proof. intros cs H. induction H as [|c cs Hc H IH]; [reflexivity|]. unfold crefs_starts in *. cbn [List.map concat]. rewrite app_length, IH, (proj2 starts_len) by assumption. reflexivity. Qed.
Lemma shape_app : forall a b, shape (a ++ b) = shape a ++ shape b.
Proof. intros a b. unfold shape. rewrite map_app, concat_app. reflexivity. Qed.

Lemma list_pieces : forall cs, Forall wf_cref_w cs -> Forall ref_pieces cs ->
  pieces_of (fold_right sg_app ([], false) (List.map cref_segs cs)) (crefs_starts cs) (blocked_list cs).
Proof.
  intros cs HW HF. induction HF as [|c cs Hc HF IH].
  - split; [constructor|]. exists []. split; [reflexivity|]. split; [split; [discriminate|congruence]|]. intros p P. cbn in P. lia.
  - inversion HW as [|? ? Wc HW']; subst. specialize (IH HW'). cbn [List.map fold_right]. unfold crefs_starts. cbn [List.map concat]. fold (crefs_starts cs).
    destruct (Nat.eq_dec (c_len c) 0) as [Z|Z].
    + destruct c as [o l n]. cbn [c_len] in Z. subst l. cbn [cref_starts firstn flag_first app].
      replace (cref_segs (CRef o 0 n)) with (([], false) : segs) by (cbn; destruct (fst (node_segs n)); reflexivity). unfold sg_app. cbn [fst snd app].
      destruct (fold_right _ _ _) as [l b]. cbn [fst snd]. destruct IH as (G & rest & E & Hr & HB). split; [exact G|]. exists rest. split; [exact E|]. split; [exact Hr|].
      intros p P. rewrite (HB p P). split; intros (pre & c & post & q & Ec & Q1 & Q2 & Q3).
      * exists (CRef o 0 n :: pre), c, post, q. rewrite Ec, sum_len_cons. cbn [c_len]. auto.
      * destruct pre as [|c0 pre]; injection Ec as <- ->; [cbn in Q1; lia|]. rewrite sum_len_cons in Q2. cbn [c_len] in Q2. exists pre, c, post, q. auto.
    + destruct (Hc Wc ltac:(lia)) as (G & rest & E & Hr & HB). pose proof (proj2 starts_len c Wc) as Lc.
      destruct (cref_segs c) as [l b]. destruct (fold_right _ _ _) as [l' b']. destruct IH as (G' & rest' & E' & Hr' & HB'). cbn [fst snd] in *. unfold sg_app. cbn [fst snd].
      destruct b; cbn [fst snd].
      * split; [exact G|]. exists (rest ++ crefs_starts cs). rewrite E, <- app_assoc. split; [reflexivity|]. split; [split; [|reflexivity]; intros _ Q; apply app_eq_nil in Q as [Q _]; apply Hr in Q; auto|].
        assert (Nr : rest <> []) by (apply Hr; reflexivity). assert (Lr : 0 < length rest) by (destruct rest; [contradiction|cbn; lia]).
        pose proof Lc as Lc'. rewrite E, app_length in Lc'.
        intros p _. cbn [fst]. split.
        -- intros P. exists [], c, cs, (Nat.min p (c_len c - 1)). split; [reflexivity|]. split; [lia|]. split; [change (sum_len []) with 0; lia|]. apply HB; lia.
        -- intros (pre & c1 & post & q & Ec & Q1 & Q2 & Q3). destruct pre as [|c0 pre]; injection Ec as -> ->.
           ++ cbn in Q2. apply HB in Q3; lia.
           ++ rewrite sum_len_cons in Q2. lia.
      * assert (rest = []) as -> by (destruct rest; [reflexivity|]; destruct Hr as [_ Hr]; discriminate Hr; discriminate). rewrite app_nil_r in E.
        split; [apply Forall_app; auto|]. exists rest'. cbn [fst snd]. rewrite E, E', shape_app, <- app_assoc. split; [reflexivity|]. split; [exact Hr'|].
        assert (Ls : length (shape l) = c_len c) by (rewrite <- E; exact Lc).
        intros p P. rewrite !app_length in P. rewrite app_length, Ls. split.
        -- intros Q. destruct (HB' (p - c_len c)) as [B1 _]; [rewrite E', app_length; lia|]. destruct B1 as (pre & c1 & post & q & -> & Q1 & Q2 & Q3); [lia|].
           exists (c :: pre), c1, post, q. rewrite sum_len_cons. repeat split; auto. lia.
        -- intros (pre & c1 & post & q & Ec & Q1 & Q2 & Q3). destruct pre as [|c0 pre]; injection Ec as -> ->.
           ++ apply HB in Q3; rewrite ?Lc; lia.
           ++ rewrite sum_len_cons in Q2. apply Nat.nlt_ge. intros Q.
              destruct (Nat.lt_ge_cases p (length (shape l))) as [Q'|Q']; [lia|].
              destruct (HB' (p - c_len c0)) as [_ B2]; [rewrite E', app_length; lia|].
              assert (length (shape l') <= p - c_len c0); [|lia]. apply B2. exists pre, c1, post, q. repeat split; auto. lia.
Qed.

Lemma tree_pieces : (forall n, wf_node n -> 0 < node_len n -> pieces_of (node_segs n) (node_starts n) (blocked n)) /\ (forall c, ref_pieces c).
Proof.
  assert (Hc : forall l, wf_node (NConst l) -> 0 < node_len (NConst l) -> pieces_of (node_segs (NConst l)) (node_starts (NConst l)) (blocked (NConst l))).
  { intros l HW Hl. cbn in *. rewrite asciis_blen in Hl by assumption. split; cbn [fst snd].
    - constructor; [split; [assumption|]|constructor]. intros E. rewrite E in Hl. cbn in Hl. lia.
    - exists []. unfold shape. cbn [List.map concat]. rewrite !app_nil_r. split; [reflexivity|]. split; [split; [discriminate|congruence]|].
      intros p P. rewrite flag_len, repeat_length in P. rewrite piece_len. split; [lia|]. intros Q. inversion Q as [? ? ? ? ? ? ? Hv]; subst. discriminate Hv. }
  assert (Hb : forall n v, node_block n = Some v -> Forall ref_pieces (b_content v) -> wf_node n -> 0 < node_len n -> pieces_of (node_segs n) (node_starts n) (blocked n)).
  { intros n [se cs] Hv HF HW Hl. pose proof (proj1 (segs_ok_trees) n HW Hl) as HS. rewrite (node_segs_block _ _ Hv) in *. rewrite (node_len_block _ _ Hv) in Hl.
    apply (wf_node_block _ _ Hv), wf_crefs_weak in HW. unfold block_len in *. cbn [b_content] in *.
    replace (node_starts n) with (crefs_starts cs) by (destruct n; cbn in Hv; inversion Hv; subst; reflexivity).
    pose proof (list_pieces cs HW HF) as L. unfold iter_segs in *. cbv zeta in *. destruct L as (G & L).
    rewrite span_cref in * by exact G.
    assert (P : pieces_of (fold_right sg_app ([], false) (List.map cref_segs cs)) (crefs_starts cs) (blocked_list cs)) by (split; assumption).
    apply (cut_pieces _ _ _ 0 (sum_len cs)) in P; [|apply HS|exact Hl|rewrite crefs_starts_len by assumption; lia].
    destruct P as (G' & rest & E & Hr & HB).
    assert (F : flag_first (firstn (sum_len cs) (skipn 0 (crefs_starts cs))) = crefs_starts cs).
    { cbn [skipn]. rewrite firstn_all2 by (rewrite crefs_starts_len by assumption; lia). clear - HW. induction HW as [|c cs Wc HW IH]; [reflexivity|].
      unfold crefs_starts. cbn [List.map concat]. fold (crefs_starts cs). destruct c as [o l n]. cbn [cref_starts]. destruct (firstn l (skipn o (node_starts n))); [cbn [flag_first app]; exact IH|reflexivity]. }
    rewrite F in *. split; [exact G'|]. exists rest. split; [exact E|]. split; [exact Hr|]. intros p Hp. rewrite (HB p Hp). cbn [Nat.add]. split.
    - intros [[Q _]|(pre & c & post & q & Ec & Q1 & Q2 & Q3)]; [lia|]. eapply BL_in; eauto.
    - intros Q. right. inversion Q as [? v pre c post q ? Hv' Ec Q1 Q2 Q3]; subst. rewrite Hv in Hv'. injection Hv' as <-. cbn [b_content] in Ec. exists pre, c, post, q. auto. }
  assert (Hr : forall o l n, (wf_node n -> 0 < node_len n -> pieces_of (node_segs n) (node_starts n) (blocked n)) -> ref_pieces (CRef o l n)).
  { intros o l n HN HWc Hp. pose proof (proj2 segs_ok_trees _ HWc) as HS. pose proof HWc as (Hle & HW). cbn [c_len] in Hp. cbn [cref_segs cref_starts] in *. cbv zeta in *.
    pose proof (HN HW ltac:(lia)) as P. apply (cut_pieces _ _ _ o l) in P; [|apply HS|exact Hp|rewrite (proj1 starts_len) by assumption; lia].
    destruct P as (G' & rest & E & Hr & HB). split; [exact G'|]. exists rest. split; [exact E|]. split; [exact Hr|]. intros p Hq. rewrite (HB p Hq). split.
    - intros [Q|Q]; [now apply BL_cut|now apply BL_deep].
    - intros Q. inversion Q; subst; auto. }
  split; [apply (node_ind' _ _ Hc Hb Hr)|apply (cref_ind' _ _ Hc Hb Hr)].
Qed.

Lemma span_pieces : forall s, wf_span s -> 0 < sp_len s -> exists st, length st = sp_len s /\ pieces_of (span_segs s) st (stuck s).
Proof.
  intros s H Hp. pose proof (span_segs_ok s H) as HS. pose proof (wf_span_contents _ H) as HC. destruct H as (_ & _ & Hle & _).
  assert (HF : Forall ref_pieces (sp_contents s)) by (apply Forall_forall; intros c _; apply tree_pieces).
  pose proof (list_pieces _ HC HF) as P. pose proof P as (G & _). unfold span_segs, iter_segs in *. cbv zeta in *. rewrite span_cref in * by exact G.
  apply (cut_pieces _ _ _ (sp_off s) (sp_len s)) in P; [|apply HS|exact Hp|rewrite crefs_starts_len by assumption; lia].
  eexists. split; [|exact P]. rewrite flag_len, firstn_length, skipn_length, crefs_starts_len by assumption. lia.
Qed.

Lemma segments_panic : forall s, wf_span s -> 0 < sp_len s -> (snd (span_segs s) = true <-> stuck s (sp_len s - 1)).
Proof.
  intros s H Hp. destruct (span_pieces s H Hp) as (st & L & _ & rest & E & Hr & HB). rewrite Hr, <- HB by lia.
  rewrite E, app_length in L. destruct rest; cbn in L; split; intros Q; try lia; try discriminate; congruence.
Qed.
Lemma location_panic : forall s, wf_span s -> 0 < sp_len s -> (span_location s = Panic <-> stuck s 0).
Proof.
  intros s H Hp. destruct (span_pieces s H Hp) as (st & L & G & rest & E & Hr & HB). rewrite <- HB by lia. unfold span_location.
  destruct (span_segs s) as [[|g gs] b]; cbn [fst snd] in *.
  - change (length (shape [])) with 0. split; [lia|intros _]. destruct b; [reflexivity|]. destruct rest; [subst st; cbn in L; lia|]. destruct Hr as [_ Hr]. discriminate Hr. discriminate.
  - inversion G as [|? ? G1 G2]; subst. pose proof (good_len _ G1). unfold shape. cbn [List.map concat]. rewrite app_length, piece_len. split; [discriminate|lia].
Qed.

Lemma flat_never : forall s, wf_span s -> Forall flat (sp_contents s) -> snd (span_segs s) = false /\ exists l, span_location s = Ok l.
Proof.
  intros s H F.
  assert (P : snd (span_segs s) = false).
  { destruct (Nat.eq_dec (sp_len s) 0) as [Z|Z]; [unfold span_segs, iter_segs; cbv zeta; rewrite Z; destruct (fst _); reflexivity|].
    destruct (snd (span_segs s)) eqn:Es; [|reflexivity]. apply (segments_panic s H ltac:(lia)) in Es. exfalso.
    pose proof (wf_span_contents _ H) as HC. destruct H as (_ & _ & _ & Hf). destruct (Hf ltac:(lia)) as (c & cs & Ec & Hlt).
    destruct Es as [[Q R]|(pre & c1 & post & q & Ep & Q1 & Q2 & Q3)].
    - rewrite Ec in *. inversion F as [|? ? Fc _]; subst. destruct Fc as (o & l & t & ->). inversion HC as [|? ? Wc _]; subst. destruct Wc as (Hle & Ha). cbn [c_len node_len wf_node] in *. rewrite asciis_blen in Hle by assumption.
      unfold crefs_starts in R. cbn [List.map concat cref_starts node_starts] in R. change (flag_first (repeat false (length (l_str t)))) with (piece (length (l_str t))) in R.
      rewrite piece_cut in R by lia. rewrite nth_error_app1 in R by (rewrite piece_len; exact Hlt). rewrite piece_inside in R by assumption. discriminate.
    - rewrite Ep in F, HC. apply Forall_app in F as [_ F], HC as [_ HC]. inversion F as [|? ? Fc _]; subst. destruct Fc as (o & l & t & ->). inversion HC as [|? ? Wc _]; subst. destruct Wc as (Hle & Ha). cbn [c_len node_len wf_node] in *. rewrite asciis_blen in Hle by assumption.
      inversion Q3 as [? ? ? ? [B1 B2]|? ? ? ? B]; subst.
      + cbn [node_starts] in B2. change (flag_first (repeat false (length (l_str t)))) with (piece (length (l_str t))) in B2. rewrite piece_inside in B2 by lia. discriminate.
      + inversion B as [? ? ? ? ? ? ? Hv]; subst. discriminate Hv. }
  split; [exact P|]. unfold span_location. destruct (span_segs s) as [[|g gs] b]; cbn in P; subst; eauto.
Qed.
