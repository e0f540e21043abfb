(** Lemmas about the parser primitives on well-formed spans: what each returns
    and which part of the input it leaves. *)
From Verif Require Import Base LocModel EvdModel NomModel AstModel ParseModel EvdSpec EvdProofs EvdProofs2 EvdProofs3.

(** [sub s a n s']: [s'] is the part of [s] of length [n] starting at [a]. *)
Definition sub (s : span) (a n : nat) (s' : span) : Prop :=
  wf_span s' /\ a + n <= sp_len s /\ sp_len s' = n /\
  span_marks s' = firstn n (skipn a (span_marks s)) /\
  sp_parent s' = sp_parent s /\
  (exists pre, sp_contents s = pre ++ sp_contents s' /\ (0 < n -> sp_off s + a = sum_len pre + sp_off s')).

Lemma span_marks_len : forall s, wf_span s -> length (span_marks s) = sp_len s.
Proof.
  intros s H. pose proof (span_text_len s H) as L. rewrite <- span_marks_text, map_length in L. exact L.
Qed.

Lemma sub_text : forall s a n s', sub s a n s' -> span_text s' = firstn n (skipn a (span_text s)).
Proof.
  intros s a n s' (_ & _ & _ & M & _). rewrite <- span_marks_text, M, map_firstn, map_skipn, span_marks_text. reflexivity.
Qed.

Lemma sub_wf : forall s a n s', sub s a n s' -> wf_span s'.
Proof. intros s a n s' H. exact (proj1 H). Qed.

Lemma sub_refl : forall s, wf_span s -> sub s 0 (sp_len s) s.
Proof.
  intros s H. unfold sub. ands; auto.
  - rewrite skipn_O, firstn_all2; auto. rewrite span_marks_len; auto.
  - exists []. split; [reflexivity|]. intros _. change (sum_len []) with 0. lia.
Qed.

Lemma sub_sub : forall s a n s1 b m s2, sub s a n s1 -> sub s1 b m s2 -> sub s (a + b) m s2.
Proof.
  intros s a n s1 b m s2 (W1 & L1 & N1 & M1 & P1 & C1) (W2 & L2 & N2 & M2 & P2 & C2).
  unfold sub. ands; auto; try lia; try congruence.
  - rewrite M2, M1. rewrite skipn_firstn_comm, skipn_skipn', firstn_firstn_le; auto. lia.
  - destruct C1 as (p & C1 & O1), C2 as (q & C2 & O2). exists (p ++ q). rewrite C1, C2, app_assoc. split; [reflexivity|].
    intros Lm. rewrite sum_len_app. lia.
Qed.

Lemma reval_marks : forall cs off off' cs', Forall wf_cref_w cs -> reval off cs = Ok (off', cs') ->
  skipn off (crefs_marks cs) = skipn off' (crefs_marks cs') /\ exists pre, cs = pre ++ cs' /\ off = sum_len pre + off'.
Proof.
  induction cs as [|c cs IH]; cbn [reval]; intros off off' cs' W E; [discriminate|].
  inversion W as [|? ? Wc Wcs]; subst.
  destruct (c_len c <=? off) eqn:L.
  - apply Nat.leb_le in L. apply IH in E as (E & pre & P & O); auto. split.
    + rewrite crefs_marks_cons, skipn_app_ge; rewrite (cref_marks_len_w c Wc); auto.
    + exists (c :: pre). rewrite P. split; [reflexivity|]. rewrite sum_len_cons. lia.
  - inversion E; subst. split; [reflexivity|]. exists []. split; reflexivity.
Qed.

Lemma revalidate_marks : forall s s', Forall wf_cref_w (sp_contents s) -> revalidate s = Ok s' ->
  span_marks s' = span_marks s /\ exists pre, sp_contents s = pre ++ sp_contents s' /\ sp_off s = sum_len pre + sp_off s'.
Proof.
  intros s s' W E. unfold revalidate in E. destruct (sp_len s =? 0) eqn:Z.
  - inversion E; subst. split; [reflexivity|]. exists []. split; reflexivity.
  - destruct (reval (sp_off s) (sp_contents s)) as [[o cs]| |] eqn:R; try discriminate.
    cbn in E. inversion E; subst. apply reval_marks in R as (M & pre & P & O); auto. split.
    + unfold span_marks. cbn. rewrite M. reflexivity.
    + exists pre. split; [exact P|exact O].
Qed.

Lemma slice_range_sub : forall s a b, wf_span s -> a <= b -> b <= sp_len s ->
  exists s', slice_range s a b = Ok s' /\ sub s a (b - a) s'.
Proof.
  intros s a b W A B. destruct (slice_range_ok s a b W A B) as (s' & E & W' & T & P).
  exists s'. split; [exact E|]. unfold slice_range in E. rewrite usub_ok in E by exact A. cbn [bind] in E.
  assert (Wc := wf_span_contents s W).
  assert (L : sp_len s' = b - a).
  { rewrite <- (span_text_len s' W'), T, firstn_length, skipn_length, (span_text_len s W). lia. }
  apply revalidate_marks in E as (M & pre & C & O); [|exact Wc]. cbn in C, O.
  unfold sub. ands; auto; try lia.
  - rewrite M. unfold span_marks. cbn. rewrite skipn_firstn_comm, skipn_skipn', firstn_firstn_le; auto. lia.
  - exists pre. split; [exact C|]. intros _. exact O.
Qed.

Lemma slice_from_range : forall s a, slice_from s a = slice_range s a (sp_len s).
Proof. reflexivity. Qed.

Lemma slice_from_sub : forall s a, wf_span s -> a <= sp_len s ->
  exists s', slice_from s a = Ok s' /\ sub s a (sp_len s - a) s'.
Proof. intros s a W A. rewrite slice_from_range. apply slice_range_sub; auto. Qed.

Lemma slice_to_sub : forall s n, wf_span s -> n <= sp_len s -> sub s 0 n (slice_to s n).
Proof.
  intros s n W N. unfold sub. ands; auto using slice_to_wf.
  - unfold span_marks. cbn. rewrite firstn_firstn_le; auto.
  - exists []. split; [reflexivity|]. intros _. cbn. change (sum_len []) with 0. lia.
Qed.

Lemma empty_tail_sub : forall s, wf_span s -> sub s (sp_len s) 0 (span_empty_tail s).
Proof.
  intros s W. unfold sub. ands; auto using span_empty_tail_wf; try lia.
  exists (sp_contents s). cbn. rewrite app_nil_r. split; [reflexivity|lia].
Qed.

Lemma take_split_sub : forall s n, wf_span s -> n <= sp_len s ->
  exists r p, take_split s n = Ok (r, p) /\ sub s n (sp_len s - n) r /\ sub s 0 n p.
Proof.
  intros s n W N. destruct (slice_from_sub s n W N) as (r & E & S).
  exists r, (slice_to s n). unfold take_split. rewrite rassert_true by (apply Nat.leb_le; exact N). cbn [bind].
  rewrite E. cbn [bind]. ands; auto using slice_to_sub.
Qed.

(** * Searching for a character *)

(** Position of the first character satisfying [p]. *)
Fixpoint index_of (p : char -> bool) (t : str) : option nat :=
  match t with
  | [] => None
  | c :: t' => if p c then Some 0 else option_map S (index_of p t')
  end.

Lemma index_of_Some : forall p t n, index_of p t = Some n <->
  n < length t /\ Forall (fun c => p c = false) (firstn n t) /\ exists c post, skipn n t = c :: post /\ p c = true.
Proof.
  intros p. induction t as [|c t IH]; intros n; cbn [index_of].
  - split; [discriminate|]. intros (L & _). cbn in L. lia.
  - destruct (p c) eqn:E.
    + split.
      * intros H. inversion H. subst. cbn. ands; auto; [lia|]. exists c, t. auto.
      * intros (L & F & d & post & S & D). destruct n; auto. cbn in F. inversion F; subst. congruence.
    + destruct n as [|n].
      * split.
        -- destruct (index_of p t); discriminate.
        -- intros (_ & _ & d & post & S & D). cbn in S. inversion S; subst. congruence.
      * specialize (IH n). cbn [firstn skipn length].
        assert (X : option_map S (index_of p t) = Some (S n) <-> index_of p t = Some n).
        { destruct (index_of p t); cbn; split; intros; congruence. }
        rewrite X, IH. split; intros (L & F & R); (ands; [lia| |exact R]).
        -- constructor; auto.
        -- inversion F; auto.
Qed.

Lemma index_of_None : forall p t, index_of p t = None <-> Forall (fun c => p c = false) t.
Proof.
  intros p. induction t as [|c t IH]; cbn; [split; auto|].
  destruct (p c) eqn:E; [split; [discriminate|intros H; inversion H; congruence]|].
  destruct (index_of p t); cbn; split; intros H; try discriminate.
  - inversion H; subst. apply IH in H3. discriminate.
  - constructor; auto. apply IH. reflexivity.
  - reflexivity.
Qed.

Lemma index_of_lt : forall p t n, index_of p t = Some n -> n < length t.
Proof. intros p t n H. apply index_of_Some in H. exact (proj1 H). Qed.

Definition is_char (c : char) : char -> bool := N.eqb c.

Lemma occurs_char : forall c t i, occurs_at [c] t i <-> exists post, skipn i t = c :: post.
Proof.
  intros c t i. unfold occurs_at. split.
  - intros (post & L & E). exists post. exact E.
  - intros (post & E). exists post. split; [|exact E].
    destruct (le_lt_dec i (length t)); auto. rewrite skipn_all2 in E by lia. discriminate.
Qed.

Lemma find_char : forall s c, wf_span s -> ascii c ->
  find_substring s [c] = Ok (index_of (is_char c) (span_text s)).
Proof.
  intros s c W A.
  destruct (find_substring_total s [c] W) as (r & E & S & N); [repeat constructor; exact A|discriminate|].
  rewrite E. f_equal. destruct r as [i|].
  - symmetry. apply index_of_Some. destruct (proj1 (S i) eq_refl) as (O & F).
    apply occurs_char in O as (post & O). ands.
    + assert (L : length (skipn i (span_text s)) > 0) by (rewrite O; cbn; lia). rewrite skipn_length in L. lia.
    + apply Forall_forall. intros x Hx. apply In_nth_error in Hx as (j & Hj).
      assert (J : j < i). { assert (j < length (firstn i (span_text s))) by (apply nth_error_Some; congruence). rewrite firstn_length in H. lia. }
      unfold is_char. destruct (c =? x)%N eqn:Q; auto. apply N.eqb_eq in Q. subst x. exfalso. apply (F j J).
      apply occurs_char. apply nth_error_skipn with (x := c). rewrite <- (firstn_skipn i (span_text s)). rewrite nth_error_app1; auto.
      apply nth_error_Some. congruence.
    + exists c, post. split; auto. apply N.eqb_refl.
  - symmetry. apply index_of_None. apply Forall_forall. intros x Hx. unfold is_char.
    destruct (c =? x)%N eqn:Q; auto. apply N.eqb_eq in Q. subst x. exfalso.
    apply In_nth_error in Hx as (j & Hj). apply (proj1 N eq_refl j). apply occurs_char. apply nth_error_skipn. exact Hj.
Qed.

(** * Primitives *)

Lemma take_until_ok : forall s c, wf_span s -> ascii c ->
  match index_of (is_char c) (span_text s) with
  | Some n => exists r p, take_until [c] s = Ok (POk r p) /\ sub s n (sp_len s - n) r /\ sub s 0 n p /\ n < sp_len s
  | None => take_until [c] s = Ok (PError [KNom])
  end.
Proof.
  intros s c W A. unfold take_until. rewrite (find_char s c W A).
  destruct (index_of (is_char c) (span_text s)) as [n|] eqn:E; cbn [bind]; [|reflexivity].
  assert (L := index_of_lt _ _ _ E). rewrite (span_text_len s W) in L.
  destruct (take_split_sub s n W) as (r & p & T & R & P); [lia|]. rewrite T. cbn [bind].
  exists r, p. ands; auto.
Qed.

Lemma take_until_and_consume_ok : forall s c, wf_span s -> ascii c ->
  match index_of (is_char c) (span_text s) with
  | Some n => exists r p, take_until_and_consume [c] s = Ok (POk r p) /\
                sub s (S n) (sp_len s - S n) r /\ sub s 0 n p /\ n < sp_len s
  | None => take_until_and_consume [c] s = Ok (PError [KNom])
  end.
Proof.
  intros s c W A. unfold take_until_and_consume. rewrite (find_char s c W A).
  destruct (index_of (is_char c) (span_text s)) as [n|] eqn:E; cbn [bind]; [|reflexivity].
  assert (L := index_of_lt _ _ _ E). rewrite (span_text_len s W) in L.
  rewrite (asciis_blen [c]) by (repeat constructor; exact A). cbn [length].
  replace (n + 1) with (S n) by lia.
  destruct (slice_from_sub s (S n) W) as (r & T & R); [lia|]. rewrite T. cbn [bind].
  exists r, (slice_to s n). ands; auto. apply slice_to_sub; auto. lia.
Qed.

(** Does [t] begin with [p]? *)
Fixpoint starts_with (p t : str) : bool :=
  match p, t with
  | [], _ => true
  | a :: p', b :: t' => (a =? b)%N && starts_with p' t'
  | _, _ => false
  end.

Lemma starts_with_iff : forall p t, starts_with p t = true <-> exists post, t = p ++ post.
Proof.
  induction p as [|a p IH]; intros t; cbn.
  - split; eauto.
  - destruct t as [|b t]; [split; [discriminate|intros (post & E); discriminate]|].
    rewrite andb_true_iff, N.eqb_eq, IH. split.
    + intros (E & post & F). subst. eauto.
    + intros (post & E). inversion E. eauto.
Qed.

Lemma starts_with_len : forall p t, starts_with p t = true -> length p <= length t.
Proof. intros p t H. apply starts_with_iff in H as (post & E). rewrite E, app_length. lia. Qed.

Lemma tag_ok : forall s t, wf_span s -> asciis t ->
  if starts_with t (span_text s) then
    exists r p, tag t s = Ok (POk r p) /\ sub s (length t) (sp_len s - length t) r /\
                sub s 0 (length t) p /\ length t <= sp_len s
  else tag t s = Ok (PError [KNom]).
Proof.
  intros s t W A. unfold tag. destruct (compare_spec s t W A) as (r & E & O & I & R). rewrite E. cbn [bind].
  destruct (starts_with t (span_text s)) eqn:S.
  - assert (L := starts_with_len _ _ S). rewrite (span_text_len s W) in L.
    apply starts_with_iff in S. apply O in S. subst r.
    rewrite (asciis_blen t A). destruct (take_split_sub s (length t) W L) as (r & p & T & Sr & Sp).
    rewrite T. cbn [bind]. exists r, p. ands; auto.
  - destruct r; auto. exfalso. assert (X := proj1 O eq_refl). apply starts_with_iff in X. congruence.
Qed.

Lemma tag_no_case_ok : forall s t, wf_span s -> asciis t ->
  if starts_with (List.map ascii_lower t) (List.map ascii_lower (span_text s)) then
    exists r p, tag_no_case t s = Ok (POk r p) /\ sub s (length t) (sp_len s - length t) r /\
                sub s 0 (length t) p /\ length t <= sp_len s
  else tag_no_case t s = Ok (PError [KNom]).
Proof.
  intros s t W A. unfold tag_no_case. destruct (compare_no_case_spec s t W A) as (r & E & O & I & R). rewrite E. cbn [bind].
  destruct (starts_with (List.map ascii_lower t) (List.map ascii_lower (span_text s))) eqn:S.
  - assert (L := starts_with_len _ _ S). rewrite !map_length, (span_text_len s W) in L.
    apply starts_with_iff in S. apply O in S. subst r.
    rewrite (asciis_blen t A). destruct (take_split_sub s (length t) W L) as (r & p & T & Sr & Sp).
    rewrite T. cbn [bind]. exists r, p. ands; auto.
  - destruct r; auto. exfalso. assert (X := proj1 O eq_refl). apply starts_with_iff in X. congruence.
Qed.

Lemma first_char_ok : forall s, wf_span s -> first_char s = Ok (hd_error (span_text s)).
Proof.
  intros s W. unfold first_char. rewrite (span_chars_ok s W). destruct (span_text s); reflexivity.
Qed.

Lemma pchar_ok : forall s c, wf_span s -> ascii c ->
  match span_text s with
  | d :: _ => if (d =? c)%N then exists r, pchar c s = Ok (POk r c) /\ sub s 1 (sp_len s - 1) r /\ 0 < sp_len s
              else pchar c s = Ok (PError [KNom])
  | [] => pchar c s = Ok (PError [KNom])
  end.
Proof.
  intros s c W A. unfold pchar. rewrite (first_char_ok s W). cbn [bind].
  destruct (span_text s) as [|d t] eqn:T; cbn [hd_error]; [reflexivity|].
  destruct (d =? c)%N; [|reflexivity].
  assert (L : 0 < sp_len s) by (rewrite <- (span_text_len s W), T; cbn; lia).
  rewrite (ascii_len c A). destruct (slice_from_sub s 1 W) as (r & E & S); [lia|]. rewrite E. cbn [bind].
  exists r. ands; auto.
Qed.

Lemma ptake_ok : forall s n, wf_span s ->
  if n <=? sp_len s then exists r p, ptake n s = Ok (POk r p) /\ sub s n (sp_len s - n) r /\ sub s 0 n p
  else ptake n s = Ok (PError [KNom]).
Proof.
  intros s n W. unfold ptake, slice_index. destruct (n <=? sp_len s) eqn:L; [|reflexivity].
  apply Nat.leb_le in L. destruct (take_split_sub s n W L) as (r & p & T & R & P). rewrite T. cbn [bind].
  exists r, p. ands; auto.
Qed.

(** Length of the longest prefix without characters satisfying [p]. *)
Definition run_of (p : char -> bool) (t : str) : nat :=
  match index_of p t with Some n => n | None => length t end.

Lemma find_index_of : forall p l h,
  find_index p (combine (seq h (length l)) l) false = Ok (option_map (Nat.add h) (index_of p l)).
Proof.
  intros p. induction l as [|c l IH]; intros h; cbn; [reflexivity|].
  destruct (p c); cbn; [rewrite Nat.add_0_r; reflexivity|].
  rewrite IH. destruct (index_of p l); cbn; f_equal. f_equal. lia.
Qed.

Lemma find_index_enum : forall p l, find_index p (enumerate l) false = Ok (index_of p l).
Proof. intros. unfold enumerate. rewrite find_index_of. destruct (index_of p l); reflexivity. Qed.

Lemma take_till_ok : forall s p, wf_span s ->
  exists r q, take_till p s = Ok (POk r q) /\
    sub s (run_of p (span_text s)) (sp_len s - run_of p (span_text s)) r /\
    sub s 0 (run_of p (span_text s)) q.
Proof.
  intros s p W. unfold take_till, split_at_position. rewrite (span_indices_ok s W), find_index_enum. cbn [bind].
  unfold run_of. destruct (index_of p (span_text s)) as [n|] eqn:E.
  - assert (L := index_of_lt _ _ _ E). rewrite (span_text_len s W) in L.
    destruct (slice_from_sub s n W) as (r & T & R); [lia|]. rewrite T. cbn [bind].
    exists r, (slice_to s n). ands; auto. apply slice_to_sub; auto. lia.
  - cbn [bind]. rewrite (span_text_len s W), Nat.sub_diag. exists (span_empty_tail s), s.
    ands; auto using empty_tail_sub, sub_refl.
Qed.

Lemma prest_ok : forall s, wf_span s ->
  exists r, prest s = Ok (POk r s) /\ sub s (sp_len s) 0 r.
Proof.
  intros s W. unfold prest. destruct (slice_from_sub s (sp_len s) W (le_n _)) as (r & E & S). rewrite E. cbn [bind].
  rewrite Nat.sub_diag in S. exists r. ands; auto.
Qed.

(** Leading blanks. *)
Definition blanks (t : str) : nat := run_of (fun c => negb (is_blank c)) t.

Lemma makefile_whitespace_ok : forall s, wf_span s ->
  exists r q, makefile_whitespace s = Ok (POk r q) /\
    sub s (blanks (span_text s)) (sp_len s - blanks (span_text s)) r /\
    sub s 0 (blanks (span_text s)) q.
Proof. intros s W. apply take_till_ok. exact W. Qed.

Lemma run_of_le : forall p t, run_of p t <= length t.
Proof.
  intros p t. unfold run_of. destruct (index_of p t) eqn:E; auto. apply index_of_lt in E. lia.
Qed.

(** * Lines *)

(** Length of the line grabbed, why it ends, and how much is consumed. *)
Definition grab (t : str) : nat * line_end * nat :=
  match index_of (is_char c_hash) t with
  | Some n => (n, LEComment, n)
  | None =>
      match index_of (is_char c_nl) t with
      | Some n => (n, LELineBreak, S n)
      | None => (length t, LEEOF, length t)
      end
  end.

Lemma ascii_hash : ascii c_hash. Proof. reflexivity. Qed.
Lemma ascii_nl : ascii c_nl. Proof. reflexivity. Qed.
Lemma ascii_cr : ascii c_cr. Proof. reflexivity. Qed.
#[global] Hint Resolve ascii_hash ascii_nl ascii_cr : core.

Lemma no_crnl : forall s, wf_span s -> index_of (is_char c_nl) (span_text s) = None ->
  take_until [c_cr; c_nl] s = Ok (PError [KNom]).
Proof.
  intros s W N. unfold take_until.
  destruct (find_substring_total s [c_cr; c_nl] W) as (r & E & S & F); [repeat constructor|discriminate|].
  rewrite E. cbn [bind]. destruct r as [i|]; [|reflexivity]. exfalso.
  destruct (proj1 (S i) eq_refl) as ((post & L & O) & _).
  apply index_of_None in N. rewrite <- (firstn_skipn i (span_text s)) in N. apply Forall_app in N as (_ & N).
  rewrite O in N. inversion N as [|? ? _ N2]; subst. inversion N2; subst. discriminate.
Qed.

Lemma grab_line_ok : forall s, wf_span s ->
  let '(n, reason, k) := grab (span_text s) in
  exists r l, makefile_grab_line s = Ok (POk r (l, reason)) /\
    sub s k (sp_len s - k) r /\ sub s 0 n l /\ n <= k /\ k <= sp_len s.
Proof.
  intros s W. unfold grab, makefile_grab_line. cbn [palt].
  pose proof (take_until_ok s c_hash W ascii_hash) as H.
  destruct (index_of (is_char c_hash) (span_text s)) as [n|].
  - destruct H as (r & p & E & R & P & L). unfold pmap at 1. rewrite E. cbn. exists r, p. ands; auto. lia.
  - unfold pmap at 1. rewrite H. cbn [pbind bind]. clear H.
    pose proof (take_until_ok s c_nl W ascii_nl) as H.
    destruct (index_of (is_char c_nl) (span_text s)) as [n|] eqn:I.
    + destruct H as (r & p & E & R & P & L). unfold pmap at 1, terminated. rewrite E. cbn [pbind bind].
      assert (T := tag_ok r [c_nl] (sub_wf _ _ _ _ R)).
      assert (X : starts_with [c_nl] (span_text r) = true).
      { rewrite (sub_text _ _ _ _ R). apply index_of_Some in I as (LI & _ & c & post & I & Q). rewrite I.
        apply N.eqb_eq in Q. subst c. cbn. destruct (sp_len s - n) eqn:Z; [lia|]. reflexivity. }
      rewrite X in T. destruct T as (r' & p' & E' & R' & P' & L'); [repeat constructor|].
      rewrite E'. cbn. exists r', p. ands; auto; try lia.
      assert (Y := sub_sub _ _ _ _ _ _ _ R R'). destruct R as (_ & _ & LR & _). cbn [length] in Y. rewrite LR in Y.
      replace (n + 1) with (S n) in Y by lia. replace (sp_len s - n - 1) with (sp_len s - S n) in Y by lia. exact Y.
    + unfold pmap at 1, terminated at 1. rewrite H. cbn [pbind bind].
      unfold pmap at 1, terminated at 1. rewrite (no_crnl s W I). cbn [pbind bind].
      destruct (prest_ok s W) as (r & E & R). unfold pmap at 1. rewrite E. cbn.
      rewrite (span_text_len s W), Nat.sub_diag. exists r, s. ands; auto using sub_refl.
Qed.
