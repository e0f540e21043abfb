(** The evaluated-layer lemmas in the form used by the property theorems. *)
From Verif Require Import Base LocModel EvdModel NomModel EvdSpec EvdProofs EvdProofs2.

Lemma slices_exact : forall s, wf_span s ->
  (forall a b, a <= b -> b <= length (span_text s) ->
     exists s', slice_range s a b = Ok s' /\ wf_span s' /\
                span_into_string s' = Ok (firstn (b - a) (skipn a (span_text s)))) /\
  (forall a, a <= length (span_text s) ->
     exists s', slice_from s a = Ok s' /\ wf_span s' /\
                span_into_string s' = Ok (skipn a (span_text s))) /\
  (forall b, b <= length (span_text s) ->
     wf_span (slice_to s b) /\ take s b = Ok (slice_to s b) /\
     span_into_string (slice_to s b) = Ok (firstn b (span_text s))) /\
  (forall n, n <= length (span_text s) ->
     exists r p, take_split s n = Ok (r, p) /\ wf_span r /\ wf_span p /\
       span_into_string p = Ok (firstn n (span_text s)) /\
       span_into_string r = Ok (skipn n (span_text s))).
Proof.
  intros s H. rewrite span_text_len by assumption. ands.
  - intros a b Hab Hb. destruct (slice_range_ok s a b H Hab Hb) as (s' & E & W & T & _).
    exists s'. ands; try assumption. rewrite span_into_string_ok by assumption. now rewrite T.
  - intros a Ha. destruct (slice_from_ok s a H Ha) as (s' & E & W & T & _).
    exists s'. ands; try assumption. rewrite span_into_string_ok by assumption. now rewrite T.
  - intros b Hb. ands.
    + now apply slice_to_wf.
    + now apply take_ok.
    + rewrite span_into_string_ok by now apply slice_to_wf. now rewrite slice_to_text.
  - intros n Hn. destruct (take_split_ok s n H Hn) as (r & E & W & T & _).
    exists r, (slice_to s n). ands; try assumption.
    + now apply slice_to_wf.
    + rewrite span_into_string_ok by now apply slice_to_wf. now rewrite slice_to_text.
    + rewrite span_into_string_ok by assumption. now rewrite T.
Qed.

Lemma slices_out_of_range : forall s n, sp_len s < n ->
  take s n = Panic /\ take_split s n = Panic /\ slice_from s n = Panic.
Proof.
  intros s n H. unfold take, take_split, slice_from, usub.
  destruct (Nat.leb_spec n (sp_len s)); [lia|]. auto.
Qed.

Lemma into_strings : forall b, wf_block b ->
  block_into_string b = Ok (block_text b) /\
  span_into_string (block_span b) = Ok (block_text b) /\
  block_len b = length (block_text b).
Proof.
  intros b H. ands.
  - now apply block_into_string_ok.
  - rewrite span_into_string_ok by now apply block_span_wf. now rewrite block_span_text.
  - symmetry. now apply wf_block_len.
Qed.

Lemma block_simplify_ok : forall b, wf_block b ->
  exists b', block_simplify b = Ok b' /\ wf_block b' /\ block_marks b' = block_marks b /\ b_sens b' = b_sens b.
Proof.
  intros [sens cs] H. destruct (block_new_ok sens cs) as (b' & E & W & T & S & _).
  { apply Forall_impl with (2 := H). left; assumption. }
  exists b'. auto.
Qed.

Lemma find_substring_total : forall s needle, wf_span s -> asciis needle -> needle <> [] ->
  exists r, find_substring s needle = Ok r /\
    (forall i, r = Some i <->
       (occurs_at needle (span_text s) i /\ forall j, j < i -> ~ occurs_at needle (span_text s) j)) /\
    (r = None <-> forall j, ~ occurs_at needle (span_text s) j).
Proof.
  intros s needle HW HA Hne. pose proof (find_substring_spec s needle HW HA Hne) as S.
  destruct (find_substring s needle) as [[i|]| |]; try contradiction.
  - exists (Some i). destruct S as [S1 S2]. split; [reflexivity|]. split.
    + intros k. split; [intros E; inversion E; subst; auto|]. intros [K1 K2]. f_equal.
      destruct (Nat.lt_trichotomy i k) as [L|[L|L]]; [|assumption|].
      * exfalso. apply (K2 i L S1).
      * exfalso. apply (S2 k L K1).
    + split; [discriminate|]. intros K. exfalso. apply (K i S1).
  - exists None. split; [reflexivity|]. split.
    + intros i. split; [discriminate|]. intros [K _]. exfalso. apply (S i K).
    + split; auto.
Qed.

Lemma prefix_cases : forall a b : list N,
  (exists post, a = b ++ post) \/ (exists post, post <> [] /\ b = a ++ post) \/
  firstn (length b) a <> firstn (length a) b.
Proof.
  induction a as [|x a IH]; intros b.
  - destruct b as [|y b]; [left; exists []; reflexivity|]. right; left. exists (y :: b). split; [discriminate|reflexivity].
  - destruct b as [|y b]; [left; exists (x :: a); reflexivity|].
    destruct (N.eq_dec x y) as [->|Hn].
    + destruct (IH b) as [(p & ->)|[(p & Hp & ->)|H]].
      * left. exists p. reflexivity.
      * right; left. exists p. auto.
      * right; right. cbn. congruence.
    + right; right. cbn. congruence.
Qed.

Lemma compare_with_spec : forall l t, exists r,
  compare_with l false t (length l) (length t) = Ok r /\
  (r = CmpOk <-> exists post, l = t ++ post) /\
  (r = CmpIncomplete <-> exists post, post <> [] /\ t = l ++ post) /\
  (r = CmpError <-> ~ (exists post, l = t ++ post) /\ ~ (exists post, t = l ++ post)).
Proof.
  intros l t. unfold compare_with. rewrite zip_differs_ok. cbn [bind].
  destruct (str_eqb (firstn (length t) l) (firstn (length l) t)) eqn:E; cbn [negb].
  - apply str_eqb_eq in E. eexists. split; [reflexivity|].
    destruct (Nat.leb_spec (length t) (length l)) as [H|H].
    + assert (P : exists post, l = t ++ post).
      { exists (skipn (length t) l). rewrite (firstn_all2 t) in E by assumption.
        transitivity (firstn (length t) l ++ skipn (length t) l); [symmetry; apply firstn_skipn|now rewrite E]. }
      split; [tauto|]. split.
      * split; [discriminate|]. intros (post & Hp & ->). rewrite app_length in H.
        destruct post; [easy|cbn in H; lia].
      * split; [discriminate|]. tauto.
    + assert (P : exists post, post <> [] /\ t = l ++ post).
      { exists (skipn (length l) t). rewrite (firstn_all2 l) in E by lia. split.
        - intros E0. assert (L : length (skipn (length l) t) = 0) by now rewrite E0. rewrite skipn_length in L. lia.
        - transitivity (firstn (length l) t ++ skipn (length l) t); [symmetry; apply firstn_skipn|now rewrite <- E]. }
      split; [|split].
      * split; [discriminate|]. intros (post & ->). rewrite app_length in H. lia.
      * tauto.
      * split; [discriminate|]. intros [_ K]. exfalso. apply K. destruct P as (p & _ & P). exists p. assumption.
  - exists CmpError. split; [reflexivity|].
    assert (N1 : ~ exists post, l = t ++ post).
    { intros (post & ->). rewrite firstn_app, Nat.sub_diag, firstn_all, (firstn_all2 t) in E by (rewrite app_length; lia).
      cbn in E. rewrite app_nil_r, str_eqb_refl in E. discriminate. }
    assert (N2 : ~ exists post, t = l ++ post).
    { intros (post & ->). rewrite firstn_app, Nat.sub_diag, firstn_all, (firstn_all2 l) in E by (rewrite app_length; lia).
      cbn in E. rewrite app_nil_r, str_eqb_refl in E. discriminate. }
    split; [split; [discriminate|tauto]|]. split; [|tauto].
    split; [discriminate|]. intros (p & _ & P). exfalso. apply N2. exists p; assumption.
Qed.

Lemma compare_spec : forall s t, wf_span s -> asciis t -> exists r,
  compare s t = Ok r /\
  (r = CmpOk <-> exists post, span_text s = t ++ post) /\
  (r = CmpIncomplete <-> exists post, post <> [] /\ t = span_text s ++ post) /\
  (r = CmpError <-> ~ (exists post, span_text s = t ++ post) /\ ~ (exists post, t = span_text s ++ post)).
Proof.
  intros s t HW HA. unfold compare. rewrite span_chars_ok, asciis_blen by assumption. cbn [fst snd].
  rewrite <- span_text_len by assumption. apply compare_with_spec.
Qed.

Lemma lower_ascii : forall s, asciis s -> flat_map to_lowercase s = List.map ascii_lower s.
Proof.
  induction s as [|c s IH]; intros H; [reflexivity|]. inversion H; subst. cbn. rewrite IH by assumption.
  unfold to_lowercase, ascii_lower, ascii in *. destruct ((65 <=? c) && (c <=? 90))%N eqn:E; [reflexivity|].
  destruct (N.eqb_spec c 8490); [lia|]. destruct (N.eqb_spec c 304); [lia|]. reflexivity.
Qed.

Lemma compare_no_case_spec : forall s t, wf_span s -> asciis t -> exists r,
  compare_no_case s t = Ok r /\
  let a := List.map ascii_lower (span_text s) in let b := List.map ascii_lower t in
  (r = CmpOk <-> exists post, a = b ++ post) /\
  (r = CmpIncomplete <-> exists post, post <> [] /\ b = a ++ post) /\
  (r = CmpError <-> ~ (exists post, a = b ++ post) /\ ~ (exists post, b = a ++ post)).
Proof.
  intros s t HW HA. unfold compare_no_case. rewrite span_chars_ok, asciis_blen by assumption. cbn [fst snd].
  rewrite <- span_text_len by assumption. rewrite !lower_ascii by (assumption || now apply wf_span_ascii).
  cbv zeta. rewrite <- (map_length ascii_lower (span_text s)), <- (map_length ascii_lower t).
  apply compare_with_spec.
Qed.

Lemma split_before_unique : forall p t a b c d,
  split_before p t a b -> split_before p t c d -> a = c /\ b = d.
Proof.
  intros p. induction t as [|x t IH]; intros a b c d (E1 & F1 & P1) (E2 & F2 & P2).
  - symmetry in E1, E2. apply app_eq_nil in E1 as [-> ->], E2 as [-> ->]. auto.
  - destruct a as [|y a], c as [|z c]; cbn in *; inversion E1; inversion E2; subst.
    + auto.
    + cbn in *. inversion F2; subst. congruence.
    + cbn in *. inversion F1; subst. congruence.
    + inversion F1; subst. inversion F2; subst.
      destruct (IH a b c d) as [-> ->]; [repeat split; assumption..|]. auto.
Qed.

Lemma nth_error_skipn : forall {A} (l : list A) i x, nth_error l i = Some x -> exists r, skipn i l = x :: r.
Proof.
  induction l as [|y l IH]; intros i x H; destruct i; cbn in *; try discriminate.
  - inversion H; subst. exists l. reflexivity.
  - now apply IH.
Qed.

Lemma find_index_split : forall s p, wf_span s ->
  exists r, find_index p (fst (span_indices s)) (snd (span_indices s)) = Ok r /\
    match r with
    | Some i => i < sp_len s /\ split_before p (span_text s) (firstn i (span_text s)) (skipn i (span_text s)) /\
                skipn i (span_text s) <> []
    | None => split_before p (span_text s) (span_text s) []
    end.
Proof.
  intros s p H. rewrite span_indices_ok by assumption. cbn [fst snd]. unfold enumerate.
  rewrite <- span_text_len by assumption.
  destruct (find_index_spec p (span_text s) 0) as [(i & c & E & N & Hc & Hi & F)|(E & F)].
  - rewrite E. exists (Some i). split; [reflexivity|]. split; [assumption|].
    destruct (nth_error_skipn _ _ _ N) as (r & Er). split; [|rewrite Er; discriminate].
    split; [symmetry; apply firstn_skipn|]. split; [assumption|]. rewrite Er. assumption.
  - rewrite E. exists None. split; [reflexivity|]. split; [now rewrite app_nil_r|]. auto.
Qed.

Lemma split_at_position_ok : forall s p, wf_span s ->
  exists rest pre, split_at_position s p = Ok (rest, pre) /\ wf_span rest /\ wf_span pre /\
    sp_parent rest = sp_parent s /\ sp_parent pre = sp_parent s /\
    split_before p (span_text s) (span_text pre) (span_text rest).
Proof.
  intros s p H. unfold split_at_position.
  destruct (find_index_split s p H) as (r & E & R). destruct (span_indices s) as [l boom]. cbn [fst snd] in E.
  rewrite E. cbn [bind]. destruct r as [i|].
  - destruct R as (Hi & R & _). destruct (slice_from_ok s i H ltac:(lia)) as (s' & Es & W & T & P & _).
    rewrite Es. cbn [bind]. exists s', (slice_to s i). ands; try assumption.
    + apply slice_to_wf; [assumption|lia].
    + rewrite slice_to_text by lia. rewrite T. assumption.
  - exists (span_empty_tail s), s. ands; try assumption. now apply span_empty_tail_wf.
Qed.

Lemma split_at_position1_ok : forall s p, wf_span s ->
  match split_at_position1 s p with
  | Ok (Some (rest, pre)) => wf_span rest /\ wf_span pre /\ span_text pre <> [] /\
      split_before p (span_text s) (span_text pre) (span_text rest)
  | Ok None => split_before p (span_text s) [] (span_text s)
  | _ => False
  end.
Proof.
  intros s p H. unfold split_at_position1.
  destruct (find_index_split s p H) as (r & E & R). destruct (span_indices s) as [l boom]. cbn [fst snd] in E.
  rewrite E. cbn [bind]. destruct r as [[|i]|].
  - destruct R as (_ & R & _). exact R.
  - destruct R as (Hi & R & _). destruct (slice_from_ok s (S i) H ltac:(lia)) as (s' & Es & W & T & P & _).
    rewrite Es. cbn [bind]. ands; try assumption.
    + apply slice_to_wf; [assumption|lia].
    + rewrite slice_to_text by lia. intros E0.
      assert (L : length (firstn (S i) (span_text s)) = 0) by now rewrite E0.
      rewrite firstn_length, span_text_len in L by assumption. lia.
    + rewrite slice_to_text by lia. rewrite T. assumption.
  - destruct (Nat.eqb_spec (sp_len s) 0) as [E0|E0].
    + assert (L : span_text s = []) by (apply length_zero_iff_nil; rewrite span_text_len; assumption).
      rewrite L in *. exact R.
    + ands; try assumption.
      * now apply span_empty_tail_wf.
      * intros L. rewrite <- span_text_len in E0 by assumption. rewrite L in E0. cbn in E0. lia.
Qed.

Lemma segments_complete : forall s, wf_span s ->
  exists l panics, span_segs s = (l, panics) /\
    Forall (fun g => l_str g <> []) l /\
    (panics = false -> segments_marks l = span_marks s) /\
    (panics = true -> exists rest, span_marks s = segments_marks l ++ rest).
Proof.
  intros s H. pose proof (span_segs_ok s H) as [F S]. destruct (span_segs s) as [l b]. cbn [fst snd] in *.
  exists l, b. ands.
  - apply Forall_impl with (2 := F). intros g G. apply G.
  - intros ->. now symmetry.
  - intros ->. assumption.
Qed.

Lemma location_first : forall s l, wf_span s -> 0 < sp_len s -> span_location s = Ok l ->
  l = option_map snd (hd_error (span_marks s)).
Proof.
  intros s l H Hp E. pose proof (span_location_ok s H Hp) as L. rewrite E in L.
  destruct l; [now symmetry|contradiction].
Qed.

Lemma location_no_panic_start : forall s, wf_span s -> Forall off0_cref (sp_contents s) ->
  sp_off s = 0 \/ (exists l o n cs, sp_contents s = CRef o n (NConst l) :: cs) ->
  snd (span_segs s) = false /\ exists l, span_location s = Ok l.
Proof.
  intros s H H0 Hc.
  assert (P : snd (span_segs s) = false).
  { destruct (Nat.eq_dec (sp_len s) 0) as [E|E].
    - unfold span_segs, iter_segs. cbv zeta. rewrite E. destruct (fst _); reflexivity.
    - destruct (snd (span_segs s)) eqn:Es; [|reflexivity].
      apply (span_segs_panic s H H0 ltac:(lia)) in Es as [Ho Hb]. destruct Hc as [Hc|(l & o & n & cs & Hc)]; [lia|].
      exfalso. pose proof (wf_span_contents _ H) as HC. destruct H as (_ & _ & _ & Hf).
      destruct (Hf ltac:(lia)) as (c0 & cs0 & E0 & Hlt). rewrite Hc in *. inversion E0; subst; clear E0.
      inversion HC as [|? ? HC1 HC2]; subst. inversion H0 as [|? ? H01 H02]; subst.
      destruct H01 as [-> _]. cbn [c_len] in Hlt.
      pose proof HC1 as (Hle & Ha). cbn [node_len wf_node] in *. rewrite asciis_blen in Hle by assumption.
      cbn [List.map fold_right cref_segs node_segs fst snd] in Hb.
      assert (Es : cref_segs_of 0 n [l] false = ([Located (l_loc l) (firstn n (l_str l))], false)).
      { destruct n as [|n]; [lia|]. cbn [cref_segs_of]. rewrite asciis_blen by assumption.
        destruct (Nat.ltb_spec (length (l_str l)) 0); [lia|]. rewrite Nat.sub_0_r.
        rewrite located_slice_ok by (assumption || lia). cbn [l_str skipn]. rewrite firstn_all, asciis_blen by assumption.
        destruct (Nat.ltb_spec (S n) (length (l_str l))).
        - rewrite located_slice_ok by (cbn [l_str]; assumption || lia). cbn [l_str l_loc skipn]. reflexivity.
        - replace (S n - length (l_str l)) with 0 by lia. cbn [cref_segs_of].
          rewrite (@firstn_all2 _ (S n) (l_str l)) by lia. reflexivity. }
      rewrite Es in Hb. unfold sg_app in Hb. cbn [fst snd app on_boundary l_str] in Hb.
      rewrite firstn_length in Hb. destruct Hb as [Hb|[Hb _]]; lia. }
  split; [assumption|]. unfold span_location. destruct (span_segs s) as [[|g gs] b]; cbn in P; subst; eauto.
Qed.

(** ** Whole trees with arbitrary text *)

Lemma blen_app : forall a b, blen (a ++ b) = blen a + blen b.
Proof. induction a as [|c a IH]; intros b; cbn; [reflexivity|]. rewrite IH. lia. Qed.
Lemma len_utf8_pos : forall c, 0 < len_utf8 c.
Proof. intros c. unfold len_utf8. repeat destruct (_ <? _)%N; lia. Qed.
Lemma blen_ge : forall s, length s <= blen s.
Proof. induction s as [|c s IH]; cbn; [lia|]. pose proof (len_utf8_pos c). lia. Qed.

Lemma st_limit_blen : forall l b, st_limit (blen l) l b = (l, match l with [] => false | _ => false end).
Proof.
  induction l as [|c l IH]; intros b; [reflexivity|]. cbn [blen st_limit].
  pose proof (len_utf8_pos c). destruct (len_utf8 c + blen l) eqn:E; [lia|]. rewrite <- E.
  destruct (Nat.leb_spec (len_utf8 c) (len_utf8 c + blen l)); [|lia].
  replace (len_utf8 c + blen l - len_utf8 c) with (blen l) by lia. rewrite IH. destruct l; reflexivity.
Qed.

Definition wg_node (n : node) : Prop := whole_node n ->
  node_chars n = (node_leaves n, false) /\ blen (node_leaves n) = node_len n.
Definition wg_ref (c : cref) : Prop := whole_cref c ->
  cref_chars c = (cref_leaves c, false) /\ blen (cref_leaves c) = c_len c.

Lemma whole_crefs : forall cs, Forall wg_ref cs -> Forall whole_cref cs ->
  fold_right st_app ([], false) (List.map cref_chars cs) = (concat (List.map cref_leaves cs), false) /\
  blen (concat (List.map cref_leaves cs)) = sum_len cs.
Proof.
  induction cs as [|c cs IH]; intros HG HW; [split; reflexivity|].
  inversion HG; subst. inversion HW; subst. destruct (H1 H3) as [E L]. destruct (IH H2 H4) as [E' L'].
  cbn [List.map fold_right concat]. rewrite E, E'. unfold st_app. cbn [fst snd]. split; [reflexivity|].
  rewrite blen_app, sum_len_cons. lia.
Qed.

Lemma whole_trees : (forall n, wg_node n) /\ (forall c, wg_ref c).
Proof.
  assert (Hc : forall l, wg_node (NConst l)) by (intros l _; split; reflexivity).
  assert (Hb : forall n v, node_block n = Some v -> Forall wg_ref (b_content v) -> wg_node n).
  { intros n [sens cs] Hv HF HW. cbn [b_content] in HF.
    assert (HWc : Forall whole_cref cs).
    { destruct n; cbn in Hv; inversion Hv; subst; cbn in HW; now apply fold_and_Forall. }
    assert (HL : node_leaves n = concat (List.map cref_leaves cs)).
    { destruct n; cbn in Hv; inversion Hv; subst; reflexivity. }
    destruct (whole_crefs cs HF HWc) as [E L]. rewrite (node_chars_block _ _ Hv), (node_len_block _ _ Hv), HL.
    cbn [b_content]. unfold block_len; cbn [b_content]. split; [|assumption].
    unfold iter_chars. destruct cs as [|c cs]; [cbn in *; reflexivity|].
    cbn [List.map fold_right] in E |- *. cbv zeta. unfold st_skip. cbn [skipn].
    replace (fst (cref_chars c), snd (cref_chars c)) with (cref_chars c) by now destruct (cref_chars c).
    rewrite E. cbn [fst snd]. rewrite <- L, st_limit_blen. destruct (concat _); reflexivity. }
  assert (Hr : forall o l n, wg_node n -> wg_ref (CRef o l n)).
  { intros o l n HN (-> & -> & HW). destruct (HN HW) as [E L]. cbn [cref_chars cref_leaves c_len]. rewrite E. unfold st_skip, st_take. cbn [fst snd skipn].
    split; [|assumption]. destruct (Nat.leb_spec (node_len n) (length (node_leaves n))) as [H|H]; [|reflexivity].
    rewrite firstn_all2 by (rewrite <- L; apply blen_ge). reflexivity. }
  split; [apply (node_ind' _ _ Hc Hb Hr)|apply (cref_ind' _ _ Hc Hb Hr)].
Qed.

Lemma whole_block_string : forall sens cs, Forall whole_cref cs ->
  block_into_string (Blk sens cs) = Ok (concat (List.map cref_leaves cs)) /\
  span_into_string (block_span (Blk sens cs)) = Ok (concat (List.map cref_leaves cs)).
Proof.
  intros sens cs HW.
  assert (HG : Forall wg_ref cs) by (apply Forall_forall; intros; apply whole_trees).
  destruct (whole_crefs cs HG HW) as [E L]. unfold block_into_string. cbn [b_content]. rewrite E. split; [reflexivity|].
  unfold span_into_string, block_span, span_chars, block_len. cbn [sp_len sp_off sp_contents b_content].
  destruct (Nat.eqb_spec (sum_len cs) 0) as [E0|E0].
  - rewrite E0 in L. pose proof (blen_ge (concat (List.map cref_leaves cs))).
    assert (length (concat (List.map cref_leaves cs)) = 0) by lia.
    rewrite (proj1 (length_zero_iff_nil _) H0). reflexivity.
  - unfold iter_chars. destruct cs as [|c cs]; [unfold sum_len in E0; cbn in E0; lia|].
    cbn [List.map fold_right] in E |- *. cbv zeta. unfold st_skip. cbn [skipn].
    replace (fst (cref_chars c), snd (cref_chars c)) with (cref_chars c) by now destruct (cref_chars c).
    rewrite E. cbn [fst snd]. cbn [List.map] in L. rewrite <- L, st_limit_blen. unfold st_collect. cbn [fst snd].
    destruct (concat _); reflexivity.
Qed.

Lemma bsplit_all : forall s, bsplit (blen s) s = Ok (s, []).
Proof.
  induction s as [|c s IH]; [reflexivity|]. cbn [blen bsplit]. pose proof (len_utf8_pos c).
  destruct (len_utf8 c + blen s) eqn:E; [lia|]. rewrite <- E.
  destruct (Nat.leb_spec (len_utf8 c) (len_utf8 c + blen s)); [|lia].
  replace (len_utf8 c + blen s - len_utf8 c) with (blen s) by lia. rewrite IH. reflexivity.
Qed.

Lemma source_block : forall loc s, exists b,
  block_new [] [ev_constant (Located loc s)] = Ok b /\
  block_into_string b = Ok s /\ span_into_string (block_span b) = Ok s.
Proof.
  intros loc s. destruct s as [|c s].
  - exists (Blk [] []). auto.
  - unfold block_new, block_simplify, ev_constant, new_from_node. cbn [b_content b_sens filter c_len node_len l_str].
    pose proof (len_utf8_pos c). assert (Hp : 0 < blen (c :: s)) by (cbn; lia).
    destruct (Nat.eqb_spec (blen (c :: s)) 0); [lia|]. cbn [negb mapM cref_simplify simplify_ref].
    unfold located_slice. cbn [l_str l_loc].
    rewrite rassert_true by now apply Nat.ltb_lt. cbn [bind]. cbn [plus].
    rewrite rassert_true by now apply Nat.leb_le. cbn [bind].
    change (bsplit 0 (c :: s)) with (@Ok (list N * list N) ([], c :: s)). cbn [bind].
    rewrite bsplit_all. cbn [bind]. eexists. split; [reflexivity|].
    assert (W : Forall whole_cref [CRef 0 (blen (c :: s)) (NConst (Located (advance_over loc []) (c :: s)))]).
    { constructor; [|constructor]. cbn. auto. }
    destruct (whole_block_string [] _ W) as [A B]. rewrite A, B. cbn. rewrite app_nil_r. auto.
Qed.

(** A reference to a part of a node. *)
Lemma node_slice : forall n off len, wf_node n ->
  (off < node_len n -> off + len <= node_len n -> exists c, new_from_node_slice n off len = Ok c /\
     block_into_string (Blk [] [c]) = Ok (firstn len (skipn off (node_text n))) /\ (0 < len -> wf_cref c)) /\
  (node_len n <= off \/ node_len n < off + len -> new_from_node_slice n off len = Panic).
Proof.
  intros n off len W. unfold new_from_node_slice. split.
  - intros A B. apply Nat.ltb_lt in A as ->. apply Nat.leb_le in B as B'. rewrite B'. cbn [rassert bind]. exists (CRef off len n). split; [reflexivity|].
    split; [|intros L; cbn; auto]. destruct (crefs_good [CRef off len n] (all_good _)) as (_ & _ & E).
    { constructor; [|constructor]. cbn. auto. }
    unfold block_into_string. cbn [b_content]. rewrite E. cbn. now rewrite app_nil_r.
  - intros [A|B].
    + apply Nat.ltb_ge in A as ->. reflexivity.
    + destruct (off <? node_len n); [|reflexivity]. cbn [rassert bind]. apply Nat.leb_gt in B as ->. reflexivity.
Qed.
