(** Proofs about single-piece spans, `recognize`, and substitution references. *)
From Verif Require Import Base LocModel EvdModel NomModel AstModel ParseModel EvdSpec ParseSpec EvalSpec
  EvdProofs EvdProofs2 EvdProofs3 ParseProofs ParseProofs2 ParseProofs3 ParseProofs4 ParseProofs5 EngineModel.
Notation length := List.length.

(** * Spans within one piece *)
Definition flat1 (s : span) : Prop := length (sp_contents s) <= 1.

Definition shift (s : span) (n : nat) : span :=
  Span (sp_parent s) (sp_contents s) (sp_off s + n) (sp_len s - n).

Lemma slice_from_flat : forall s n, wf_span s -> flat1 s -> n <= sp_len s -> slice_from s n = Ok (shift s n).
Proof.
  intros s n W F N. unfold slice_from. rewrite usub_ok by exact N. cbn [bind]. unfold revalidate. cbn [sp_len].
  destruct (sp_len s - n =? 0) eqn:Z; [reflexivity|]. apply Nat.eqb_neq in Z.
  destruct W as (_ & _ & Hle & Hf). destruct (Hf ltac:(lia)) as (c & cs & E & O).
  unfold flat1 in F. cbn [sp_contents sp_off]. rewrite E in *. destruct cs; cbn in F; [|lia].
  unfold sum_len in Hle. cbn in Hle. cbn [reval]. replace (c_len c <=? sp_off s + n) with false by (symmetry; apply Nat.leb_gt; lia).
  cbn [bind]. unfold shift. rewrite E. reflexivity.
Qed.

Lemma offset_shift : forall s n, offset s (shift s n) = Ok n.
Proof.
  intros s n. unfold offset, shift. cbn [sp_contents sp_off]. rewrite usub_ok by lia. cbn [bind]. rewrite Nat.sub_diag.
  rewrite usub_ok by lia. f_equal. lia.
Qed.

Lemma shift_sub : forall s n, wf_span s -> flat1 s -> n <= sp_len s -> sub s n (sp_len s - n) (shift s n).
Proof.
  intros s n W F N. destruct (slice_from_sub s n W N) as (s' & E & H). rewrite (slice_from_flat s n W F N) in E. congruence.
Qed.

Lemma shift_0 : forall s, shift s 0 = s.
Proof. intros []. unfold shift. cbn. rewrite Nat.add_0_r, Nat.sub_0_r. reflexivity. Qed.
Lemma shift_shift : forall s a b, shift (shift s a) b = shift s (a + b).
Proof. intros []. unfold shift. cbn. intros a b. f_equal; lia. Qed.
Lemma shift_flat : forall s n, flat1 s -> flat1 (shift s n).
Proof. intros s n F. exact F. Qed.

Lemma sub_flat : forall s a n s', sub s a n s' -> flat1 s -> flat1 s'.
Proof.
  intros s a n s' (_ & _ & _ & _ & _ & (pre & E & _)) F. unfold flat1 in *. rewrite E, app_length in F. lia.
Qed.

(** * Pieces *)
Notation mk := (@fst N location) (only parsing).
Notation tmk := (tch (@fst N location)) (only parsing).

Lemma piece_len : forall {A} (p : list A), length (piece_marks p) = length p.
Proof. intros A [|x t]; cbn; auto. rewrite map_length. reflexivity. Qed.
Lemma piece_snd : forall {A} (p : list A), List.map snd (piece_marks p) = p.
Proof. intros A [|x t]; cbn; auto. rewrite map_map. cbn. rewrite map_id. reflexivity. Qed.
Lemma in_pieces_app : forall {A} (a b : list (list A)), in_pieces (a ++ b) = in_pieces a ++ in_pieces b.
Proof. intros. unfold in_pieces. rewrite map_app. apply concat_app. Qed.
Lemma in_pieces_snd : forall {A} (ps : list (list A)), List.map snd (in_pieces ps) = concat ps.
Proof.
  intros A ps. induction ps as [|p ps IH]; [reflexivity|]. unfold in_pieces in *. cbn [List.map concat]. rewrite map_app, IH, piece_snd. reflexivity.
Qed.
Lemma in_pieces_len : forall {A} (ps : list (list A)), length (in_pieces ps) = length (concat ps).
Proof. intros A ps. rewrite <- (in_pieces_snd ps), map_length. reflexivity. Qed.
Lemma tch_snd : forall {A} (ch : A -> char) l, List.map (tch ch) l = List.map ch (List.map snd l).
Proof. intros. rewrite map_map. reflexivity. Qed.

Definition span_tags (s : span) : list (bool * (N * location)) :=
  firstn (sp_len s) (skipn (sp_off s) (in_pieces (List.map cref_marks (sp_contents s)))).

Lemma tags_marks : forall s, List.map snd (span_tags s) = span_marks s.
Proof. intros s. unfold span_tags, span_marks. rewrite <- firstn_map, <- skipn_map, in_pieces_snd. reflexivity. Qed.
Lemma tags_text : forall s, List.map tmk (span_tags s) = span_text s.
Proof. intros s. rewrite tch_snd, tags_marks, span_text_marks. reflexivity. Qed.
Lemma tags_len : forall s, wf_span s -> length (span_tags s) = sp_len s.
Proof. intros s W. rewrite <- (span_marks_len s W), <- tags_marks, map_length. reflexivity. Qed.

Lemma sub_tags : forall s a n s', wf_span s -> sub s a n s' -> span_tags s' = firstn n (skipn a (span_tags s)).
Proof.
  intros s a n s' W (W' & L & N & _ & _ & (pre & E & O)). unfold span_tags. rewrite N. destruct n as [|n]; [reflexivity|]. specialize (O ltac:(lia)).
  rewrite skipn_firstn_comm, skipn_skipn', firstn_firstn_le by lia. f_equal. rewrite E, map_app, in_pieces_app.
  assert (Wc := wf_span_contents s W). rewrite E in Wc. apply Forall_app in Wc as (Wc & _).
  assert (Lp : length (in_pieces (List.map cref_marks pre)) = sum_len pre) by (rewrite in_pieces_len; exact (crefs_marks_len_w pre Wc)).
  replace (sp_off s + a) with (sum_len pre + sp_off s') by lia. rewrite skipn_app_ge by lia. f_equal. lia.
Qed.
Lemma sub_tags_end : forall s a s', wf_span s -> sub s a (sp_len s - a) s' -> span_tags s' = skipn a (span_tags s).
Proof.
  intros s a s' W H. rewrite (sub_tags _ _ _ _ W H), firstn_all2; auto. rewrite skipn_length, (tags_len s W). lia.
Qed.

(** * What `recognize` makes of a later position: where the last piece before it begins *)
Lemma before_none : forall {A} (l : list (bool * A)), Forall (fun m => fst m = false) l -> before_last l = None.
Proof. intros A l F. induction F as [|m l E F IH]; cbn; auto. rewrite IH, E. reflexivity. Qed.
Lemma before_some : forall {A} (x : list (bool * A)) y r, Forall (fun m => fst m = false) r -> before_last (x ++ (true, y) :: r) = Some (List.map snd x).
Proof.
  intros A x y r F. induction x as [|m x IH]; cbn; [rewrite before_none by exact F; reflexivity|]. rewrite IH. reflexivity.
Qed.
Lemma kept_all : forall {A} (stem rest : list (bool * A)), Forall (fun m => fst m = false) (tl (stem ++ firstn 1 rest)) -> kept stem rest = List.map snd stem.
Proof.
  intros A stem rest F. unfold kept. destruct (stem ++ firstn 1 rest) as [|m l] eqn:E; [destruct stem; [reflexivity|discriminate]|].
  cbn [tl] in F. rewrite before_none by exact F. reflexivity.
Qed.

Lemma walk_sum : forall pre rest acc, offset_walk (length pre) (pre ++ rest) acc = acc + sum_len pre.
Proof.
  induction pre as [|c pre IH]; intros rest acc; [unfold sum_len; cbn; lia|]. cbn [length app offset_walk]. rewrite IH, sum_len_cons. lia.
Qed.

Lemma piece_falses : forall {A} (p : list A) n k, Forall (fun m => fst m = false) (tl (firstn k (skipn n (piece_marks p)))).
Proof.
  intros A [|x t] n k.
  - cbn. destruct n, k; constructor.
  - assert (F : Forall (fun m : bool * A => fst m = false) (List.map (pair false) t)) by (apply Forall_map, Forall_forall; reflexivity).
    assert (G : forall (l : list (bool * A)) n k, Forall (fun m => fst m = false) l -> Forall (fun m => fst m = false) (firstn k (skipn n l))).
    { intros l n' k' H. rewrite Forall_forall in *. intros m I. apply H. rewrite <- (firstn_skipn n' l), in_app_iff. right. rewrite <- (firstn_skipn k' (skipn n' l)), in_app_iff. now left. }
    assert (T : forall l : list (bool * A), Forall (fun m => fst m = false) l -> Forall (fun m => fst m = false) (tl l)) by (intros ? []; cbn; auto).
    destruct n as [|n]; cbn [piece_marks skipn].
    + destruct k as [|k]; cbn [firstn tl]; [constructor|]. exact (G _ 0 k F).
    + apply T, G, F.
Qed.

Lemma cut_offset : forall s i s', wf_span s -> i < sp_len s -> slice_from s i = Ok s' ->
  exists p, offset s s' = Ok p /\ p <= i /\ kept (firstn i (span_tags s)) (skipn i (span_tags s)) = firstn p (span_marks s).
Proof.
  intros s i s' W L E. destruct (slice_from_sub s i W ltac:(lia)) as (s2 & E2 & Sb). rewrite E in E2. inversion E2; subst s2. clear E2 E.
  pose proof Sb as (W' & _ & N & _ & _ & (pre & Ec & O)). specialize (O ltac:(lia)).
  pose proof W' as (_ & _ & _ & Hf'). destruct (Hf' ltac:(lia)) as (c' & cs' & Ec' & Lc'). clear Hf'.
  pose proof W as (_ & _ & Le & Hf). destruct (Hf ltac:(lia)) as (c & cs & Es & Lc). clear Hf.
  assert (Wc := wf_span_contents s W).
  assert (J : firstn i (span_tags s) ++ firstn 1 (skipn i (span_tags s)) = firstn (S i) (span_tags s)).
  { rewrite <- (firstn_skipn i (firstn (S i) (span_tags s))), firstn_firstn_le by lia. f_equal. rewrite skipn_firstn_comm. f_equal. lia. }
  assert (Jt : firstn (S i) (span_tags s) = firstn (S i) (skipn (sp_off s) (in_pieces (List.map cref_marks (sp_contents s))))).
  { unfold span_tags. rewrite firstn_firstn_le by lia. reflexivity. }
  unfold offset. rewrite Ec, app_length. rewrite usub_ok by lia. cbn [bind].
  replace (length pre + length (sp_contents s') - length (sp_contents s')) with (length pre) by lia.
  assert (Lm : forall c, In c (sp_contents s) -> length (piece_marks (cref_marks c)) = c_len c).
  { intros d I. rewrite piece_len. apply cref_marks_len_w. rewrite Forall_forall in Wc. auto. }
  destruct pre as [|c0 pre].
  - cbn [length]. change (sum_len []) with 0 in O. rewrite usub_ok by lia. exists i. split; [f_equal; lia|]. split; auto.
    rewrite kept_all; [rewrite <- firstn_map, tags_marks; reflexivity|]. rewrite J, Jt. cbn [app] in Ec. rewrite Ec, Ec'. unfold in_pieces. cbn [List.map concat].
    rewrite skipn_app, firstn_app, skipn_length, (Lm c') by (rewrite Ec, Ec'; now left). replace (S i - (c_len c' - sp_off s)) with 0 by lia.
    rewrite firstn_O, app_nil_r. apply piece_falses.
  - cbn [length app]. rewrite Ec in Es. cbn [app] in Es. inversion Es as [[E0 Es']]. subst c0. rewrite usub_ok by lia. cbn [bind].
    rewrite walk_sum. rewrite sum_len_cons in O. eexists. split; [reflexivity|]. split; [lia|].
    set (p := c_len c - sp_off s + sum_len pre) in *.
    assert (Wp : Forall wf_cref_w (c :: pre)) by (rewrite Ec in Wc; apply Forall_app in Wc; apply Wc).
    assert (Lp : length (in_pieces (List.map cref_marks (c :: pre))) = c_len c + sum_len pre).
    { rewrite in_pieces_len, <- sum_len_cons. exact (crefs_marks_len_w (c :: pre) Wp). }
    assert (Lc2 : length (piece_marks (cref_marks c')) = c_len c') by (apply Lm; rewrite Ec, Ec', in_app_iff; right; now left).
    set (X := skipn (sp_off s) (in_pieces (List.map cref_marks (c :: pre)))).
    assert (LX : length X = p) by (unfold X; rewrite skipn_length, Lp; unfold p; lia).
    assert (Sp : firstn (S i) (span_tags s) = X ++ firstn (S (sp_off s')) (piece_marks (cref_marks c'))).
    { rewrite Jt, Ec, Ec', map_app, in_pieces_app, skipn_app. replace (sp_off s - length (in_pieces (List.map cref_marks (c :: pre)))) with 0 by (rewrite Lp; lia).
      fold X. cbn [skipn]. rewrite firstn_app, LX. rewrite firstn_all2 by lia. f_equal. replace (S i - p) with (S (sp_off s')) by (unfold p; lia).
      unfold in_pieces. cbn [List.map concat]. rewrite firstn_app, Lc2. replace (S (sp_off s') - c_len c') with 0 by lia. rewrite firstn_O. apply app_nil_r. }
    assert (Lq : firstn p (span_tags s) = firstn p (firstn (S i) (span_tags s))) by (rewrite firstn_firstn_le; [reflexivity|unfold p; lia]).
    clear Jt. set (Q := firstn (S i) (span_tags s)) in *. clearbody Q.
    pose proof (piece_falses (cref_marks c') 0 (S (sp_off s'))) as F. cbn [skipn] in F.
    destruct (cref_marks c') as [|y t] eqn:Ey; [cbn in Lc2; lia|]. cbn [piece_marks firstn tl] in F, Sp.
    unfold kept. rewrite J, Sp. destruct X as [|m X'] eqn:EX; [cbn in LX; unfold p in LX; lia|]. cbn [app].
    rewrite before_some by exact F. rewrite <- tags_marks, firstn_map.
    rewrite Lq, Sp, firstn_app, <- LX, Nat.sub_diag, firstn_all. cbn [firstn]. rewrite app_nil_r. reflexivity.
Qed.

(** * Searching for an arbitrary needle *)
Definition first_at (needle text : str) (r : option nat) : Prop :=
  match r with
  | Some i => occurs_at needle text i /\ forall j, j < i -> ~ occurs_at needle text j
  | None => forall j, ~ occurs_at needle text j
  end.

Lemma find_any : forall s t, wf_span s -> asciis t -> exists r, find_substring s t = Ok r /\ first_at t (span_text s) r.
Proof.
  intros s t W A. destruct t as [|c t].
  - exists (Some 0). split.
    + unfold find_substring. cbn [blen bytes flat_map]. cbn [Nat.ltb Nat.leb]. destruct (span_indices s) as [l boom].
      destruct l as [|[i c] l]; reflexivity.
    + split; [|intros j H; lia]. exists (span_text s). split; [lia|reflexivity].
  - destruct (find_substring_total s (c :: t) W A) as (r & E & S1 & S2); [discriminate|]. exists r. split; auto.
    destruct r as [i|]; cbn; [apply S1; reflexivity|apply S2; reflexivity].
Qed.

Lemma first_at_det : forall n t r r', first_at n t r -> first_at n t r' -> r = r'.
Proof.
  intros n t [i|] [j|] H H'; cbn in *; auto.
  - destruct H as (O & F), H' as (O' & F'). f_equal. destruct (lt_eq_lt_dec i j) as [[L|L]|L]; auto.
    + destruct (F' i L O).
    + destruct (F j L O').
  - destruct (H' i (proj1 H)).
  - destruct (H j (proj1 H')).
Qed.

Lemma take_until_flat : forall s t, wf_span s -> flat1 s -> asciis t ->
  exists r, first_at t (span_text s) r /\
  match r with
  | Some i => i <= sp_len s /\ take_until t s = Ok (POk (shift s i) (slice_to s i))
  | None => take_until t s = Ok (PError [KNom])
  end.
Proof.
  intros s t W F A. destruct (find_any s t W A) as (r & E & H). exists r. split; auto. unfold take_until. rewrite E. cbn [bind].
  destruct r as [i|]; [|reflexivity]. destruct H as ((post & L & _) & _). rewrite span_text_len in L by auto.
  split; auto. unfold take_split. rewrite rassert_true by (apply Nat.leb_le; exact L). cbn [bind].
  rewrite slice_from_flat by auto. reflexivity.
Qed.

Lemma sub_span_end : forall s a s', wf_span s -> sub s a (sp_len s - a) s' -> span_text s' = skipn a (span_text s).
Proof. intros s a s' W H. rewrite !span_text_marks, (sub_end s a s' W H). symmetry. apply skipn_map. Qed.

Lemma take_until_any : forall s t, wf_span s -> asciis t ->
  exists r, first_at t (span_text s) r /\
  match r with
  | Some i => i <= sp_len s /\ exists s', slice_from s i = Ok s' /\ sub s i (sp_len s - i) s' /\ take_until t s = Ok (POk s' (slice_to s i))
  | None => take_until t s = Ok (PError [KNom])
  end.
Proof.
  intros s t W A. destruct (find_any s t W A) as (r & E & H). exists r. split; auto. unfold take_until. rewrite E. cbn [bind].
  destruct r as [i|]; [|reflexivity]. destruct H as ((post & L & _) & _). rewrite span_text_len in L by auto.
  split; auto. destruct (slice_from_sub s i W L) as (s' & Es & Sb). exists s'. split; auto. split; auto.
  unfold take_split. rewrite rassert_true by (apply Nat.leb_le; exact L). cbn [bind]. rewrite Es. reflexivity.
Qed.

Lemma many1_take_until : forall s t, wf_span s -> asciis t ->
  exists r, first_at t (span_text s) r /\
  match r with
  | Some i => i <= sp_len s /\ exists s' p, sub s i (sp_len s - i) s' /\ recognize (many1 (take_until t)) s = Ok (POk s' (slice_to s p)) /\
      p <= i /\ kept (firstn i (span_tags s)) (skipn i (span_tags s)) = firstn p (span_marks s)
  | None => recognize (many1 (take_until t)) s = Ok (PError [KNom])
  end.
Proof.
  intros s t W A. destruct (take_until_any s t W A) as (r & H & P). exists r. split; auto.
  unfold recognize, many1. destruct r as [i|]; [|rewrite P; reflexivity].
  destruct P as (L & s' & Es & Sb & P). split; auto. exists s'. rewrite P. cbn [bind].
  assert (W' := sub_wf _ _ _ _ Sb).
  destruct (take_until_any s' t W' A) as (r' & H' & P').
  assert (r' = Some 0).
  { eapply first_at_det; [exact H'|]. split; [|intros j J; lia].
    destruct H as ((post & _ & E) & _). exists post. split; [lia|]. rewrite (sub_span_end s i _ W Sb). exact E. }
  subst r'. destruct P' as (_ & s2 & _ & Sb2 & P'). cbn [many_loop]. rewrite P'. cbn [bind].
  assert (L2 : sp_len s2 = sp_len s') by (destruct Sb2 as (_ & _ & L2 & _); lia). rewrite L2, Nat.eqb_refl. cbn [pbind pok bind].
  destruct (Nat.eq_dec i (sp_len s)) as [Q|Q].
  - (* nothing follows: the needle is empty, and found at the beginning *)
    assert (I0 : i = 0).
    { destruct H as ((post & _ & E) & Min). destruct i as [|i]; auto. exfalso. apply (Min 0); [lia|].
      assert (t = []) as ->.
      { apply length_zero_iff_nil. apply (f_equal (@List.length _)) in E. rewrite skipn_length, app_length, (span_text_len s W) in E. lia. }
      exists (span_text s). split; [lia|reflexivity]. }
    rewrite I0 in *. exists 0. unfold slice_from in Es. rewrite usub_ok in Es by lia. cbn [bind] in Es. unfold revalidate in Es. cbn [sp_len sp_contents sp_off sp_parent] in Es.
    rewrite <- Q, Nat.eqb_refl in Es. cbn in Es. inversion Es; subst s'. unfold offset. cbn [sp_contents sp_off].
    rewrite usub_ok by lia. cbn [bind]. rewrite Nat.sub_diag, usub_ok by lia. cbn [bind]. replace (sp_off s + 0 - sp_off s) with 0 by lia.
    ands; auto. assert (span_tags s = []) as -> by (apply length_zero_iff_nil; rewrite tags_len; auto). reflexivity.
  - destruct (cut_offset s i s' W ltac:(lia) Es) as (p & Eo & Lp & K). exists p. rewrite Eo. cbn [bind]. ands; auto.
Qed.

(** * One word *)
Lemma occurs_app : forall n t i, occurs_at n t i <-> exists p q, t = p ++ n ++ q /\ length p = i.
Proof.
  intros n t i. unfold occurs_at. split.
  - intros (post & L & E). exists (firstn i t), post. split; [rewrite <- E; symmetry; apply firstn_skipn|].
    apply firstn_length_le. exact L.
  - intros (p & q & -> & <-). exists q. rewrite !app_length. split; [lia|].
    rewrite skipn_app, skipn_all, Nat.sub_diag. reflexivity.
Qed.

Lemma match_token_ok : forall s pk qk, wf_span s -> asciis pk -> asciis qk ->
  exists r, match_token pk qk s = Ok r /\
  ((exists rest cap a stem z, r = POk rest cap /\ sp_len rest = 0 /\ wf_span cap /\ span_tags s = a ++ stem ++ z /\
      matches tmk pk qk (span_tags s) stem /\ List.map tmk a = pk /\ List.map tmk z = qk /\ span_marks cap = kept stem z)
   \/ ((forall rest cap, r = POk rest cap -> sp_len rest <> 0) /\ forall stem, ~ matches tmk pk qk (span_tags s) stem)).
Proof.
  intros s pk qk W Ap Aq. unfold match_token. pose proof (tag_ok s pk W Ap) as T.
  destruct (starts_with pk (span_text s)) eqn:SW.
  2:{ rewrite T. cbn [pbind bind]. eexists. split; [reflexivity|]. right. split; [discriminate|].
      intros stem (a & z & E & Ea & Ez & _). rewrite <- tags_text, E, !map_app, Ea in SW.
      assert (starts_with pk (pk ++ List.map tmk stem ++ List.map tmk z) = true) by (apply starts_with_iff; eexists; reflexivity).
      congruence. }
  destruct T as (i1 & p1 & T & S1 & P1 & L1). rewrite T. cbn [pbind bind].
  assert (W1 := sub_wf _ _ _ _ S1).
  assert (X1 := sub_span_end s _ _ W S1). assert (M1 := sub_tags_end s _ _ W S1).
  assert (Len1 : sp_len i1 = sp_len s - length pk) by (apply S1).
  assert (SP : exists a, span_tags s = a ++ span_tags i1 /\ List.map tmk a = pk).
  { exists (firstn (length pk) (span_tags s)). rewrite M1. split; [symmetry; apply firstn_skipn|].
    rewrite <- firstn_map, tags_text. apply starts_with_iff in SW as (post & ->).
    rewrite firstn_app, firstn_all, Nat.sub_diag. apply app_nil_r. }
  assert (SPM : forall stem, matches tmk pk qk (span_tags s) stem -> exists z, span_tags i1 = stem ++ z /\ List.map tmk z = qk /\
     forall p q, span_text i1 = p ++ qk ++ q -> length stem <= length p).
  { intros stem (a & z & E & Ea & Ez & Min). exists z.
    assert (span_tags i1 = stem ++ z).
    { rewrite M1, E, <- Ea, map_length. rewrite skipn_app, skipn_all, Nat.sub_diag. reflexivity. }
    split; auto. split; auto. intros p q Hp. apply (Min p q). rewrite <- Hp, <- tags_text. congruence. }
  destruct (many1_take_until i1 qk W1 Aq) as (r & H & P). destruct r as [i|].
  2:{ rewrite P. cbn [pbind bind]. eexists. split; [reflexivity|]. right. split; [discriminate|].
      intros stem M. destruct (SPM stem M) as (z & E & Ez & _). apply (H (length stem)). apply occurs_app.
      exists (List.map tmk stem), []. rewrite <- tags_text, E, map_app, Ez, app_nil_r, map_length. auto. }
  destruct P as (Li & i2 & p & S2 & P & Lp & K). rewrite P. cbn [pbind bind].
  assert (W2 := sub_wf _ _ _ _ S2). assert (X2 := sub_span_end i1 _ _ W1 S2).
  assert (M2 := sub_tags_end i1 _ _ W1 S2).
  destruct H as (O & Min). pose proof O as (post & _ & E). rewrite <- X2 in E.
  pose proof (tag_ok i2 qk W2 Aq) as T2.
  replace (starts_with qk (span_text i2)) with true in T2 by (symmetry; apply starts_with_iff; exists post; exact E).
  destruct T2 as (r2 & p2 & T2 & S3 & _ & L3). rewrite T2. cbn [pbind bind pok].
  eexists. split; [reflexivity|]. assert (Sc := slice_to_sub i1 p W1 ltac:(lia)).
  assert (L2 : sp_len i2 = sp_len i1 - i) by apply S2.
  assert (Lr : sp_len r2 = sp_len i1 - i - length qk) by (rewrite <- L2; apply S3).
  destruct (Nat.eq_dec (sp_len r2) 0) as [Z|Z].
  - left. destruct SP as (a & Ea & Ek). exists r2, (slice_to i1 p), a, (firstn i (span_tags i1)), (skipn i (span_tags i1)).
    assert (Ez : List.map tmk (skipn i (span_tags i1)) = qk).
    { rewrite <- M2, tags_text, E. assert (length post = 0); [|destruct post; [apply app_nil_r|discriminate]].
      assert (length (span_text i2) = length (qk ++ post)) by congruence.
      rewrite span_text_len, app_length in H by exact W2. lia. }
    assert (Es : span_tags s = a ++ firstn i (span_tags i1) ++ skipn i (span_tags i1)) by (rewrite firstn_skipn; exact Ea).
    ands; auto; [apply Sc| |].
    + exists a, (skipn i (span_tags i1)). ands; auto. intros p0 q Hp. rewrite firstn_skipn, tags_text in Hp. rewrite firstn_length_le by (rewrite tags_len; auto).
      apply Nat.nlt_ge. intros Lt. apply (Min _ Lt). apply occurs_app. eauto.
    + rewrite (sub_marks_firstn _ _ _ _ Sc), skipn_O. symmetry. exact K.
  - right. split; [intros rest cap Q; inversion Q; subst; exact Z|]. intros stem M.
    destruct (SPM stem M) as (z & E1 & Ez & Mn).
    assert (length stem <= i).
    { apply occurs_app in O as (p0 & q & Hp & Lp0). rewrite <- Lp0. apply (Mn p0 q Hp). }
    assert (i <= length stem).
    { apply Nat.nlt_ge. intros Lt. apply (Min _ Lt). apply occurs_app. exists (List.map tmk stem), [].
      rewrite <- tags_text, E1, map_app, Ez, app_nil_r, map_length. auto. }
    assert (length (span_tags i1) = length stem + length qk) by (rewrite E1, app_length, <- Ez, map_length; lia).
    rewrite tags_len in H1 by exact W1. lia.
Qed.

Lemma replace_token_ok : forall s pk qk pr qr out, wf_span s -> asciis pk -> asciis qk ->
  wf_span pr -> wf_span qr -> wf_block_w out ->
  exists out' w, replace_token s pk qk pr qr out = Ok out' /\ wf_block_w out' /\
    cut_replaced mk pk qk (span_marks pr) (span_marks qr) (span_tags s) w /\ block_marks out' = block_marks out ++ w.
Proof.
  intros s pk qk pr qr out W Ap Aq Wp Wq Wo. unfold replace_token.
  assert (K : (forall stem, ~ matches tmk pk qk (span_tags s) stem) -> exists out' w, push_all_contents out s = Ok out' /\ wf_block_w out' /\
    cut_replaced mk pk qk (span_marks pr) (span_marks qr) (span_tags s) w /\ block_marks out' = block_marks out ++ w).
  { intros N. destruct (push_all_contents_w out s Wo W) as (o & E & Wo' & M & _). exists o, (span_marks s). ands; auto.
    rewrite <- (tags_marks s). apply CR_keep. exact N. }
  assert (B : forall t, asciis t -> blen t = length t).
  { induction 1 as [|c t A _ IH]; cbn; auto. rewrite IH. unfold len_utf8. replace (c <? 128)%N with true; auto.
    symmetry. apply N.ltb_lt. exact A. }
  destruct (sp_len s <? blen pk + blen qk) eqn:L.
  { apply K. intros stem (a & z & E & Ea & Ez & _). apply Nat.ltb_lt in L. rewrite !B in L by auto.
    rewrite <- (tags_len s W), E, !app_length, <- Ea, <- Ez, !map_length in L. lia. }
  destruct (match_token_ok s pk qk W Ap Aq) as (r & E & H). rewrite E. cbn [bind].
  destruct H as [(rest & cap & a & stem & z & -> & Z & Wc & Es & M & Ea & Ez & Mc)|(Z & N)].
  - rewrite Z. cbn [negb Nat.eqb].
    destruct (push_all_contents_w out pr Wo Wp) as (o1 & E1 & Wo1 & M1 & _). rewrite E1. cbn [bind].
    destruct (push_all_contents_w o1 cap Wo1 Wc) as (o2 & E2 & Wo2 & M2 & _). rewrite E2. cbn [bind].
    destruct (push_all_contents_w o2 qr Wo2 Wq) as (o3 & E3 & Wo3 & M3 & _). rewrite E3.
    exists o3, (span_marks pr ++ span_marks cap ++ span_marks qr). ands; auto.
    + rewrite Mc. rewrite Es in *. apply CR_match; auto.
    + rewrite M3, M2, M1, <- !app_assoc. reflexivity.
  - destruct r as [rest cap|ks|ks]; auto. assert (sp_len rest <> 0) by (eapply Z; reflexivity).
    apply Nat.eqb_neq in H. rewrite H. auto.
Qed.

(** * Words *)
Definition nonblank {A} (ch : A -> char) (m : A) : bool := negb (blank (ch m)).

Lemma take_run : forall {A} (ch : A -> char) p l,
  firstn (run_of p (List.map ch l)) l = take_while (fun a => negb (p (ch a))) l.
Proof.
  intros A ch p. unfold run_of. induction l as [|a l IH]; [reflexivity|]. cbn [List.map take_while index_of].
  destruct (p (ch a)); cbn [negb]; [reflexivity|]. destruct (index_of p (List.map ch l)); cbn in *; f_equal; exact IH.
Qed.

Lemma makefile_token_ok : forall s, wf_span s ->
  exists r w, makefile_token s = Ok (POk r w) /\ wf_span r /\ wf_span w /\
    span_tags w = take_while (nonblank tmk) (lstrip tmk (span_tags s)) /\
    span_tags r = lstrip tmk (drop_while (nonblank tmk) (lstrip tmk (span_tags s))).
Proof.
  intros s W. unfold makefile_token, preceded, terminated.
  destruct (whitespace_marks s W) as (r1 & q1 & E1 & S1 & _). rewrite E1. cbn [pbind bind].
  assert (M1 := sub_tags_end _ _ _ W S1). assert (W1 := sub_wf _ _ _ _ S1). rewrite <- tags_text, skipn_blanks in M1.
  destruct (take_till_marks r1 is_blank W1) as (r2 & q2 & E2 & W2 & Wq & _ & _ & S2 & S2').
  assert (M2 := sub_tags_end _ _ _ W1 S2). assert (M2' := sub_tags _ _ _ _ W1 S2'). rewrite skipn_O, <- tags_text, take_run in M2'. rewrite <- tags_text, skipn_run in M2.
  rewrite E2. cbn [pbind bind].
  destruct (whitespace_marks r2 W2) as (r3 & q3 & E3 & S3 & _). rewrite E3. cbn [pbind bind pok].
  assert (M3 := sub_tags_end _ _ _ W2 S3). rewrite <- tags_text, skipn_blanks in M3.
  exists r3, q2. ands; auto.
  - apply S3.
  - rewrite M2', M1. reflexivity.
  - rewrite M3, M2, M1. reflexivity.
Qed.

Definition spaced {A} (sp : A) (ws : list (list A)) : list A := flat_map (cons sp) ws.

Lemma join_spaced : forall {A} (sp : A) w ws, join sp (w :: ws) = w ++ spaced sp ws.
Proof.
  intros A sp w ws. revert w. induction ws as [|v ws IH]; intros w; cbn [join spaced flat_map].
  - symmetry. apply app_nil_r.
  - f_equal. cbn. f_equal. apply IH.
Qed.

Lemma lstrip_idem : forall {A} (ch : A -> char) l, lstrip ch (lstrip ch l) = lstrip ch l.
Proof.
  intros A ch. unfold lstrip. induction l as [|a l IH]; cbn; auto. destruct (blank (ch a)) eqn:B; auto. cbn. rewrite B. reflexivity.
Qed.

(** A text that does not begin with a blank begins with its first word. *)
Lemma split_first : forall {A} (ch : A -> char) (t : list A), lstrip ch t = t -> t <> [] ->
  take_while (nonblank ch) t <> [] /\
  split_at ch blank [] t = take_while (nonblank ch) t :: split_at ch blank [] (lstrip ch (drop_while (nonblank ch) t)).
Proof.
  intros A ch [|a t] H N; [congruence|]. unfold lstrip in H. cbn in H.
  destruct (blank (ch a)) eqn:B.
  { assert (length (drop_while (fun a => blank (ch a)) t) <= length t).
    { clear. induction t as [|b t IH]; cbn; auto. destruct (blank (ch b)); cbn; lia. }
    rewrite H in H0. cbn in H0. lia. }
  split; [cbn; unfold nonblank; rewrite B; discriminate|].
  assert (G : forall t w, w <> [] -> split_at ch blank w t = (w ++ take_while (nonblank ch) t) :: split_at ch blank [] (drop_while (nonblank ch) t)).
  { clear. induction t as [|b t IH]; intros w Hw; cbn.
    - rewrite app_nil_r. destruct w; [congruence|reflexivity].
    - unfold nonblank. destruct (blank (ch b)) eqn:B; cbn.
      + rewrite B, app_nil_r. destruct w; [congruence|reflexivity].
      + fold (nonblank ch). change (fun m => negb (blank (ch m))) with (nonblank ch). rewrite IH by (destruct w; discriminate). rewrite <- app_assoc. reflexivity. }
  change (split_at ch blank [] (a :: t)) with (if blank (ch a) then word_and [] (split_at ch blank [] t) else split_at ch blank ([] ++ [a]) t).
  rewrite B, G by discriminate. cbn [app take_while drop_while]. unfold nonblank at 3 4. rewrite B. cbn [negb app]. f_equal.
  rewrite split_at_lstrip; [|reflexivity..]. unfold nonblank at 2. rewrite B. reflexivity.
Qed.

Section Words.
  Context (pk qk : str) (pr qr : span).
  Context (Ap : asciis pk) (Aq : asciis qk) (Wp : wf_span pr) (Wq : wf_span qr).

  Lemma loop_ok : forall fuel s (first : bool) out, wf_span s -> sp_len s < fuel ->
    lstrip tmk (span_tags s) = span_tags s -> wf_block_w out ->
    exists out' ws, replacement_loop fuel s pk qk pr qr first out = Ok out' /\ wf_block_w out' /\
      Forall2 (cut_replaced mk pk qk (span_marks pr) (span_marks qr)) (split_at tmk blank [] (span_tags s)) ws /\
      block_marks out' = block_marks out ++ (if first then join (made 32%N) ws else spaced (made 32%N) ws).
  Proof.
    induction fuel as [|fuel IH]; intros s first out W L St Wo; [lia|]. cbn [replacement_loop].
    destruct (0 <? sp_len s) eqn:Z.
    2:{ apply Nat.ltb_ge in Z. exists out, []. assert (span_tags s = []) as -> by (apply length_zero_iff_nil; rewrite tags_len; auto; lia).
        ands; auto; [constructor|]. destruct first; cbn; rewrite app_nil_r; reflexivity. }
    apply Nat.ltb_lt in Z. destruct (makefile_token_ok s W) as (r & w & E & Wr & Ww & Mw & Mr). rewrite E. cbn [bind].
    rewrite St in Mw, Mr.
    destruct (split_first tmk (span_tags s) St) as (Nw & Sp). { intros Q. rewrite <- (tags_len s W), Q in Z. cbn in Z. lia. }
    set (out1 := if first then out else block_push out cr_space).
    assert (Wo1 : wf_block_w out1).
    { unfold out1. destruct first; auto. unfold block_push, wf_block_w. cbn [b_content]. apply Forall_app. split; auto.
      repeat constructor. }
    assert (Mo1 : block_marks out1 = block_marks out ++ if first then [] else [made 32%N]).
    { unfold out1. destruct first; [symmetry; apply app_nil_r|]. unfold block_marks, block_push. cbn [b_content].
      rewrite crefs_marks_app. reflexivity. }
    destruct (replace_token_ok w pk qk pr qr out1 Ww Ap Aq Wp Wq Wo1) as (o2 & w' & E2 & Wo2 & R & M2). rewrite E2. cbn [bind].
    destruct (IH r false o2) as (o3 & ws & E3 & Wo3 & R3 & M3); auto.
    { assert (sp_len r < sp_len s); [|lia]. rewrite <- (tags_len s W), <- (tags_len r Wr), Mr.
      destruct (lstrip_suffix tmk (drop_while (nonblank tmk) (span_tags s))) as (pre & Ep & _).
      assert (length (span_tags s) = length (take_while (nonblank tmk) (span_tags s)) + length (drop_while (nonblank tmk) (span_tags s))).
      { generalize (span_tags s). clear. induction l as [|a l IH]; cbn; auto. destruct (nonblank tmk a); cbn; auto. }
      apply (f_equal (@List.length _)) in Ep. rewrite app_length in Ep.
      destruct (take_while (nonblank tmk) (span_tags s)); [congruence|]. cbn in H. lia. }
    { rewrite Mr. apply lstrip_idem. }
    exists o3, (w' :: ws). ands; auto.
    - rewrite Sp. constructor; [rewrite <- Mw; exact R|]. rewrite <- Mr. exact R3.
    - rewrite M3, M2, Mo1. destruct first; cbn [app]; [rewrite join_spaced, app_nil_r, <- app_assoc; reflexivity|].
      cbn [spaced flat_map]. rewrite <- !app_assoc. reflexivity.
  Qed.

  Lemma do_replacement_ok : forall s sens, wf_span s ->
    exists b ws, do_replacement s sens pk qk pr qr = Ok b /\ wf_block b /\
      Forall2 (cut_replaced mk pk qk (span_marks pr) (span_marks qr)) (subst_words tmk (span_tags s)) ws /\
      block_marks b = join (made 32%N) ws.
  Proof.
    intros s sens W. unfold do_replacement.
    assert (Wn : wf_block_w (Blk sens [])) by constructor.
    assert (H : exists out ws, replacement_loop (S (sp_len s)) s pk qk pr qr true (Blk sens []) = Ok out /\ wf_block_w out /\
      Forall2 (cut_replaced mk pk qk (span_marks pr) (span_marks qr)) (subst_words tmk (span_tags s)) ws /\
      block_marks out = join (made 32%N) ws).
    2:{ destruct H as (out & ws & E & Wo & R & M). rewrite E. cbn [bind].
        destruct (simplify_w _ Wo) as (b & Eb & Wb & Mb & _). rewrite Eb. exists b, ws. ands; auto. congruence. }
    destruct (Nat.eq_dec (sp_len s) 0) as [Z|Z].
    { cbn [replacement_loop]. rewrite Z. cbn [Nat.ltb Nat.leb]. eexists _, []. ands; auto.
      assert (span_tags s = []) as -> by (apply length_zero_iff_nil; rewrite tags_len; auto). constructor. }
    cbn [replacement_loop]. replace (0 <? sp_len s) with true by (symmetry; apply Nat.ltb_lt; lia).
    destruct (makefile_token_ok s W) as (r & w & E & Wr & Ww & Mw & Mr). rewrite E. cbn [bind].
    destruct (replace_token_ok w pk qk pr qr (Blk sens []) Ww Ap Aq Wp Wq Wn) as (o2 & w' & E2 & Wo2 & R & M2). rewrite E2. cbn [bind].
    destruct (loop_ok (sp_len s) r false o2) as (o3 & ws & E3 & Wo3 & R3 & M3); auto.
    { (* shorter *)
      rewrite <- (tags_len s W), <- (tags_len r Wr), Mr. assert (length (span_tags s) <> 0) by (rewrite tags_len; auto).
      destruct (lstrip_suffix tmk (span_tags s)) as (p1 & Ep1 & _).
      destruct (lstrip tmk (span_tags s)) as [|a t] eqn:Q.
      { cbn. lia. }
      destruct (split_first tmk (a :: t)) as (Nw & _); [rewrite <- Q; apply lstrip_idem|discriminate|].
      destruct (lstrip_suffix tmk (drop_while (nonblank tmk) (a :: t))) as (pre & Ep & _).
      assert (length (a :: t) = length (take_while (nonblank tmk) (a :: t)) + length (drop_while (nonblank tmk) (a :: t))).
      { generalize (a :: t). clear. induction l as [|a l IH]; cbn; auto. destruct (nonblank tmk a); cbn; auto. }
      apply (f_equal (@List.length _)) in Ep. apply (f_equal (@List.length _)) in Ep1. rewrite app_length in Ep, Ep1.
      destruct (take_while (nonblank tmk) (a :: t)); [congruence|].
      change (length (p :: l)) with (S (length l)) in H0. rewrite Ep1. rewrite H0, Ep. lia. }
    { rewrite Mr. apply lstrip_idem. }
    exists o3, (w' :: ws). ands; auto.
    - unfold subst_words. destruct (span_tags s) as [|a t] eqn:Q; [rewrite <- (tags_len s W), Q in Z; cbn in Z; lia|].
      rewrite <- Q in *. rewrite <- (split_at_lstrip tmk blank) by reflexivity.
      destruct (lstrip tmk (span_tags s)) as [|b u] eqn:Q2.
      + cbn in Mw, Mr. cbn [split_at word_and]. rewrite Mw in R. rewrite Mr in R3. cbn in R3. inversion R3; subst. constructor; auto.
      + destruct (split_first tmk (b :: u)) as (Nw & Sp); [rewrite <- Q2; apply lstrip_idem|discriminate|].
        rewrite Sp. constructor; [rewrite <- Mw; exact R|]. rewrite <- Mr. exact R3.
    - rewrite M3, M2, join_spaced. reflexivity.
  Qed.
End Words.

Lemma span_empty_wf : wf_span span_empty.
Proof. unfold wf_span, span_empty. cbn. ands; [exact (Forall_nil _)|exists []; reflexivity|lia]. Qed.

Lemma marks_ascii : forall b, wf_block b -> asciis (List.map mk (block_marks b)).
Proof. intros b W. rewrite block_marks_text. apply wf_crefs_ascii, wf_block_weak, W. Qed.

Lemma block_span_tags : forall b, wf_block b -> span_tags (block_span b) = in_pieces (List.map cref_marks (b_content b)).
Proof.
  intros b W. unfold span_tags, block_span. cbn [sp_len sp_off sp_contents skipn]. apply firstn_all2.
  rewrite in_pieces_len. apply Nat.eq_le_incl. exact (crefs_marks_len_w _ (wf_block_weak _ W)).
Qed.

(** ** What substitution references do, whatever the pieces of the value *)
Lemma do_subref_all : forall sens value key repl, wf_block value -> wf_block key -> wf_block repl ->
  exists b, do_subref sens value key repl = Ok b /\ wf_block b /\
    cut_substituted mk (made 32%N) (block_marks key) (block_marks repl) (List.map cref_marks (b_content value)) (block_marks b).
Proof.
  intros sens value key repl Wv Wk Wr. unfold do_subref.
  assert (Wvs := block_span_wf value Wv).
  assert (Mv := block_span_tags value Wv). assert (Wks := block_span_wf key Wk). assert (Wrs := block_span_wf repl Wr).
  assert (Mk := block_span_marks key Wk). assert (Mr := block_span_marks repl Wr).
  destruct (take_until_unquote_ok (block_span key) is_percent Wks eq_refl eq_refl) as (pre & r & E & Wpre & P). rewrite E. cbn [bind].
  rewrite Mk in P. change is_percent with percent in P.
  destruct (unquote mk percent [] (block_marks key)) as [o [c rest|pend]] eqn:U.
  - destruct P as (Mo & sc & post & k & -> & _ & _ & Mp & Sp & _). assert (Wpost := sub_wf _ _ _ _ Sp).
    destruct (take_until_unquote_ok (block_span repl) is_percent Wrs eq_refl eq_refl) as (pre' & r' & E' & Wpre' & P'). rewrite E'. cbn [bind].
    rewrite Mr in P'. change is_percent with percent in P'.
    rewrite (block_into_string_ok _ Wpre), (span_into_string_ok _ Wpost). cbn [bind].
    rewrite <- block_marks_text, Mo, span_text_marks, Mp.
    assert (A1 : asciis (List.map mk o)) by (rewrite <- Mo; apply marks_ascii; auto).
    assert (A2 : asciis (List.map mk rest)) by (rewrite <- Mp, <- span_text_marks; apply wf_span_ascii; auto).
    destruct (unquote mk percent [] (block_marks repl)) as [ro [rc rrest|rpend]] eqn:U'.
    + destruct P' as (Mo' & sc' & post' & k' & -> & _ & _ & Mp' & Sp' & _). assert (Wpost' := sub_wf _ _ _ _ Sp').
      destruct (do_replacement_ok (List.map mk o) (List.map mk rest) (block_span pre') post' A1 A2 (block_span_wf _ Wpre') Wpost'
        (block_span value) sens Wvs) as (b & ws & Eb & Wb & R & Mb).
      rewrite Eb. exists b. ands; auto. rewrite Mv, (block_span_marks _ Wpre'), Mo', Mp' in R.
      exists (List.map mk o), (List.map mk rest), ro, rrest, ws. ands; auto. eapply P_stem; eauto.
    + destruct P' as (Mo' & ->).
      destruct (do_replacement_ok (List.map mk o) (List.map mk rest) span_empty (block_span pre') A1 A2 span_empty_wf (block_span_wf _ Wpre')
        (block_span value) sens Wvs) as (b & ws & Eb & Wb & R & Mb).
      rewrite Eb. exists b. ands; auto. rewrite Mv, (block_span_marks _ Wpre'), Mo' in R. change (span_marks span_empty) with (@nil (N * location)) in R.
      exists (List.map mk o), (List.map mk rest), [], (ro ++ rpend), ws. ands; auto. eapply P_no_stem; eauto.
  - destruct P as (Mo & ->). rewrite (block_into_string_ok _ Wpre). cbn [bind]. rewrite <- block_marks_text, Mo.
    assert (A1 : asciis (List.map mk (o ++ pend))) by (rewrite <- Mo; apply marks_ascii; auto).
    destruct (do_replacement_ok [] (List.map mk (o ++ pend)) span_empty (block_span repl) (Forall_nil _) A1 span_empty_wf Wrs
      (block_span value) sens Wvs) as (b & ws & Eb & Wb & R & Mb).
    rewrite Eb. exists b. ands; auto. rewrite Mv, Mr in R. change (span_marks span_empty) with (@nil (N * location)) in R.
    exists [], (List.map mk (o ++ pend)), [], (block_marks repl), ws. ands; auto. eapply P_suffix; eauto.
Qed.

(** ** Values none of whose words goes on from one piece to the next *)
Lemma words_whole_short : forall ps, length ps <= 1 -> words_whole ps.
Proof.
  intros ps L before after u x y v -> E1 E2. rewrite app_length in L.
  destruct before; [destruct u; discriminate|]. destruct after; [discriminate|]. cbn in L. lia.
Qed.

Lemma piece_begins : forall {A} (ps : list (list A)) u y v, in_pieces ps = u ++ (true, y) :: v ->
  exists before after, ps = before ++ after /\ in_pieces before = u /\ in_pieces after = (true, y) :: v.
Proof.
  intros A. induction ps as [|p ps IH]; intros u y v E; [destruct u; discriminate|].
  destruct p as [|h t].
  - destruct (IH u y v E) as (before & after & -> & E1 & E2). exists ([] :: before), after. ands; auto.
  - unfold in_pieces in E. cbn [List.map concat piece_marks app] in E. fold (in_pieces ps) in E. destruct u as [|m u].
    + exists [], ((h :: t) :: ps). ands; auto.
    + cbn [app] in E. inversion E as [[Em E']]. clear E.
      assert (G : exists u', u = List.map (pair false) t ++ u' /\ in_pieces ps = u' ++ (true, y) :: v).
      { clear - E'. revert u E'. induction t as [|a t IH]; intros u E'; [exists u; auto|]. cbn [List.map app] in E'.
        destruct u as [|m u]; [discriminate|]. cbn [app] in E'. inversion E' as [[Em E]]. destruct (IH u E) as (u' & -> & Q). exists u'. split; auto. }
      destruct G as (u' & -> & Q). destruct (IH u' y v Q) as (before & after & -> & E1 & E2). exists ((h :: t) :: before), after. ands; auto.
      unfold in_pieces. cbn [List.map concat piece_marks app]. fold (in_pieces before). rewrite E1. reflexivity.
Qed.

Lemma words_begin_pieces : forall (T : list (bool * placed)),
  (forall u x y v, T = u ++ x :: (true, y) :: v -> blank (tmk x) = true \/ blank (fst y) = true) ->
  forall w, In w (split_at tmk blank [] T) -> Forall (fun m => fst m = false) (tl w).
Proof.
  intros T H.
  assert (G : forall T acc, (forall u x y v, T = u ++ x :: (true, y) :: v -> blank (tmk x) = true \/ blank (fst y) = true) ->
    Forall (fun m => fst m = false) (tl acc) -> (acc <> [] -> forall y v, T = (true, y) :: v -> blank (fst y) = true) ->
    forall w, In w (split_at tmk blank acc T) -> Forall (fun m => fst m = false) (tl w)).
  { clear. induction T as [|m T IH]; intros acc H F A w I; cbn [split_at] in I.
    - destruct acc; cbn in I; [destruct I|]. destruct I as [<-|[]]. exact F.
    - assert (H' : forall u x y v, T = u ++ x :: (true, y) :: v -> blank (tmk x) = true \/ blank (fst y) = true).
      { intros u x y v ->. apply (H (m :: u) x y v). reflexivity. }
      destruct (blank (tmk m)) eqn:B.
      + assert (I' : In w (split_at tmk blank [] T) \/ (w = acc)) by (destruct acc; cbn in I; [now left|destruct I as [<-|I]; auto]).
        destruct I' as [I' | -> ]; [|exact F]. eapply IH; [exact H'| | |exact I']; [constructor|congruence].
      + eapply IH; [exact H'| | |exact I].
        * destruct acc as [|a acc]; [constructor|]. cbn [tl app] in *. apply Forall_app. split; [exact F|]. constructor; [|constructor].
          destruct m as [[] y]; [|reflexivity]. specialize (A ltac:(discriminate) y T eq_refl). cbn in B. unfold tch in B. cbn in B. congruence.
        * intros _ y v ->. destruct (H [] m y v eq_refl) as [Q|Q]; [congruence|exact Q]. }
  apply G; [exact H|constructor|congruence].
Qed.

Lemma matches_tags : forall pk qk a stem z, matches tmk pk qk (a ++ stem ++ z) stem -> matches mk pk qk (List.map snd (a ++ stem ++ z)) (List.map snd stem).
Proof.
  intros pk qk a stem z (a' & z' & E & Ea & Ez & M). exists (List.map snd a'), (List.map snd z'). rewrite E, !map_app, <- !tch_snd. ands; auto.
  intros p q Q. rewrite map_length. apply (M p q). rewrite <- Q, ?map_app, ?tch_snd, ?map_app. reflexivity.
Qed.
Lemma matches_untag : forall pk qk w stem, matches mk pk qk (List.map snd w) stem -> exists stem', matches tmk pk qk w stem' /\ List.map snd stem' = stem.
Proof.
  intros pk qk w stem (a & z & E & Ea & Ez & M). apply map_eq_app in E as (a' & r & -> & <- & E). apply map_eq_app in E as (st & z' & -> & <- & <-).
  exists st. split; [|reflexivity]. exists a', z'. rewrite !tch_snd. ands; auto. intros p q Q. specialize (M p q). rewrite map_length in M. apply M. rewrite <- Q, ?map_app, ?tch_snd, ?map_app. reflexivity.
Qed.

Lemma split_tags : forall T acc, List.map (List.map snd) (split_at tmk blank acc T) = split_at mk blank (List.map snd acc) (List.map snd T).
Proof.
  induction T as [|m T IH]; intros acc; cbn [split_at List.map].
  - destruct acc; reflexivity.
  - change (blank (tmk m)) with (blank (fst (snd m))). destruct (blank (fst (snd m))).
    + specialize (IH []). cbn [List.map] in IH. destruct acc; cbn [word_and List.map]; rewrite <- IH; reflexivity.
    + rewrite IH, map_app. reflexivity.
Qed.

Lemma cut_whole : forall sp key repl ps out, words_whole ps -> cut_substituted mk sp key repl ps out -> substituted mk sp key repl (concat ps) out.
Proof.
  intros sp key repl ps out H (pk & qk & pr & qr & ws & P & F & ->). exists pk, qk, pr, qr, ws. ands; auto.
  assert (HT : forall u x y v, in_pieces ps = u ++ x :: (true, y) :: v -> blank (tmk x) = true \/ blank (fst y) = true).
  { intros u x y v E. replace (u ++ x :: (true, y) :: v) with ((u ++ [x]) ++ (true, y) :: v) in E by (rewrite <- app_assoc; reflexivity).
    destruct (piece_begins ps _ y v E) as (before & after & -> & E1 & E2).
    apply (H before after (List.map snd u) (snd x) y (List.map snd v)); auto.
    - rewrite <- in_pieces_snd, E1, map_app. reflexivity.
    - rewrite <- in_pieces_snd, E2. reflexivity. }
  pose proof (words_begin_pieces _ HT) as HW.
  assert (S : subst_words mk (concat ps) = List.map (List.map snd) (subst_words tmk (in_pieces ps))).
  { rewrite <- (in_pieces_snd ps). unfold subst_words. pose proof (split_tags (in_pieces ps) []) as Q. cbn [List.map] in Q. clear - Q.
    destruct (in_pieces ps) as [|m T]; [reflexivity|]. cbn [List.map] in *. rewrite <- Q. destruct (split_at tmk blank [] (m :: T)); reflexivity. }
  rewrite S.
  assert (HS : forall w, In w (subst_words tmk (in_pieces ps)) -> Forall (fun m => fst m = false) (tl w)).
  { intros w I. unfold subst_words in I. destruct (in_pieces ps) as [|m T] eqn:E; [destruct I|].
    destruct (split_at tmk blank [] (m :: T)) as [|w1 ws1] eqn:E1; [destruct I as [<-|[]]; constructor|]. apply HW. exact I. }
  clear - F HS. induction F as [|w o ws os R F IH]; cbn [List.map]; constructor.
  - specialize (HS w (or_introl eq_refl)). destruct R as [a stem z M Ea Ez|w N].
    + rewrite kept_all; [rewrite !map_app; apply R_match; rewrite <- !map_app; apply matches_tags; exact M|].
      destruct (stem ++ firstn 1 z) as [|m l] eqn:E; [constructor|]. cbn [tl].
      assert (G : exists r, a ++ stem ++ z = a ++ m :: l ++ r).
      { exists (skipn 1 z). f_equal. change (m :: l ++ skipn 1 z) with ((m :: l) ++ skipn 1 z). rewrite <- E, <- app_assoc, firstn_skipn. reflexivity. }
      destruct G as (r & G). rewrite G in HS. destruct a as [|x a]; cbn [app tl] in HS.
      * apply Forall_app in HS. apply HS.
      * apply Forall_app in HS as (_ & HS). inversion HS as [|? ? _ HS']. apply Forall_app in HS'. apply HS'.
    + apply R_keep. intros stem M. destruct (matches_untag _ _ _ _ M) as (st & M' & _). exact (N st M').
  - apply IH. intros w' I. apply HS. now right.
Qed.

Lemma do_subref_ok : forall sens value key repl, wf_block value -> words_whole (List.map cref_marks (b_content value)) -> wf_block key -> wf_block repl ->
  exists b, do_subref sens value key repl = Ok b /\ wf_block b /\
    substituted mk (made 32%N) (block_marks key) (block_marks repl) (block_marks value) (block_marks b).
Proof.
  intros sens value key repl Wv F Wk Wr. destruct (do_subref_all sens value key repl Wv Wk Wr) as (b & E & Wb & S). exists b. ands; auto.
  apply cut_whole; auto.
Qed.
