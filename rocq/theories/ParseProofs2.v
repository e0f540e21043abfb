(** Lemmas about logical lines. *)
From Verif Require Import Base LocModel EvdModel NomModel AstModel ParseModel EvdSpec EvdProofs EvdProofs2 EvdProofs3
  ParseSpec ParseProofs.

Notation mch := (@fst N location) (only parsing).

Lemma span_text_marks : forall s, span_text s = List.map mch (span_marks s).
Proof. intros s. symmetry. apply span_marks_text. Qed.

Lemma has_cons : forall {A} (ch : A -> char) c a l, has ch c (a :: l) <-> ch a = c \/ has ch c l.
Proof.
  intros A ch c a l. unfold has. split.
  - intros (x & [X|X] & E); subst; eauto.
  - intros [E|(x & X & E)]; eexists; cbn; eauto.
Qed.

Lemma has_app : forall {A} (ch : A -> char) c l m, has ch c (l ++ m) <-> has ch c l \/ has ch c m.
Proof.
  intros A ch c l m. unfold has. split.
  - intros (x & X & E). apply in_app_or in X as [X|X]; eauto.
  - intros [(x & X & E)|(x & X & E)]; exists x; split; auto; apply in_or_app; auto.
Qed.

Lemma index_none : forall {A} (ch : A -> char) c l,
  index_of (is_char c) (List.map ch l) = None <-> ~ has ch c l.
Proof.
  intros A ch c l. rewrite index_of_None, Forall_forall. split.
  - intros H (a & X & E). specialize (H (ch a) (in_map ch l a X)). unfold is_char in H. rewrite E, N.eqb_refl in H. discriminate.
  - intros H x X. apply in_map_iff in X as (a & E & X). unfold is_char. destruct (c =? x)%N eqn:Q; auto.
    apply N.eqb_eq in Q. exfalso. apply H. exists a. split; congruence.
Qed.

Lemma index_at : forall {A} (ch : A -> char) c l n t, ~ has ch c l -> ch n = c ->
  index_of (is_char c) (List.map ch (l ++ n :: t)) = Some (length l).
Proof.
  intros A ch c. induction l as [|a l IH]; intros n t H E; cbn.
  - unfold is_char. rewrite E, N.eqb_refl. reflexivity.
  - rewrite has_cons in H. unfold is_char at 1. destruct (c =? ch a)%N eqn:Q.
    + apply N.eqb_eq in Q. exfalso. apply H. auto.
    + rewrite IH; auto.
Qed.

Lemma sub_marks_firstn : forall s a n s', sub s a n s' -> span_marks s' = firstn n (skipn a (span_marks s)).
Proof. intros s a n s' H. apply H. Qed.

Lemma sub_end : forall s a s', wf_span s -> sub s a (sp_len s - a) s' -> span_marks s' = skipn a (span_marks s).
Proof.
  intros s a s' W H. rewrite (sub_marks_firstn _ _ _ _ H), firstn_all2; auto.
  rewrite skipn_length, (span_marks_len s W). lia.
Qed.

Lemma skipn_run : forall {A} (ch : A -> char) p l,
  skipn (run_of p (List.map ch l)) l = drop_while (fun a => negb (p (ch a))) l.
Proof.
  intros A ch p. unfold run_of. induction l as [|a l IH]; cbn; auto.
  destruct (p (ch a)) eqn:E; cbn; auto.
  destruct (index_of p (List.map ch l)) as [n|] eqn:I; cbn; exact IH.
Qed.

Lemma drop_while_ext : forall {A} (p q : A -> bool) l, (forall a, p a = q a) -> drop_while p l = drop_while q l.
Proof. intros A p q l H. induction l as [|a l IH]; cbn; auto. rewrite H, IH. reflexivity. Qed.

Lemma skipn_blanks : forall {A} (ch : A -> char) l, skipn (blanks (List.map ch l)) l = lstrip ch l.
Proof.
  intros A ch l. unfold blanks. rewrite skipn_run. apply drop_while_ext. intros a. rewrite negb_involutive. reflexivity.
Qed.

Lemma whitespace_marks : forall s, wf_span s ->
  exists r q, makefile_whitespace s = Ok (POk r q) /\ sub s (blanks (span_text s)) (sp_len s - blanks (span_text s)) r /\
    span_marks r = lstrip mch (span_marks s).
Proof.
  intros s W. destruct (makefile_whitespace_ok s W) as (r & q & E & R & _). exists r, q. ands; auto.
  rewrite (sub_end _ _ _ W R), span_text_marks. apply skipn_blanks.
Qed.

Lemma lstrip_suffix : forall {A} (ch : A -> char) l, exists pre, l = pre ++ lstrip ch l /\ Forall (fun a => blank (ch a) = true) pre.
Proof.
  intros A ch. unfold lstrip. induction l as [|a l IH]; cbn; [exists []; auto|].
  destruct (blank (ch a)) eqn:B; [|exists []; auto].
  destruct IH as (pre & E & F). exists (a :: pre). cbn. split; [congruence|auto].
Qed.

Lemma lstrip_no : forall {A} (ch : A -> char) c l, ~ has ch c l -> ~ has ch c (lstrip ch l).
Proof.
  intros A ch c l H. destruct (lstrip_suffix ch l) as (pre & E & _). rewrite E in H. rewrite has_app in H. auto.
Qed.

Lemma lstrip_app : forall {A} (ch : A -> char) l n t, blank (ch n) = false ->
  lstrip ch (l ++ n :: t) = lstrip ch l ++ n :: t.
Proof.
  intros A ch l n t B. unfold lstrip. induction l as [|a l IH]; cbn; [rewrite B; reflexivity|].
  destruct (blank (ch a)); auto.
Qed.

(** Dropping leading blanks does not change the backslashes at the end. *)
Lemma take_while_app : forall {A} (p : A -> bool) l m, forallb p l = false ->
  take_while p (l ++ m) = take_while p l.
Proof.
  intros A p. induction l as [|a l IH]; cbn; intros m H; [discriminate|].
  destruct (p a); cbn in *; [rewrite IH; auto|reflexivity].
Qed.
Lemma take_while_all : forall {A} (p : A -> bool) l m, forallb p l = true ->
  take_while p (l ++ m) = l ++ take_while p m.
Proof.
  intros A p. induction l as [|a l IH]; cbn; intros m H; [reflexivity|].
  apply andb_true_iff in H as (H1 & H2). rewrite H1, IH; auto.
Qed.

Lemma tail_backslashes_app : forall {A} (ch : A -> char) l m, Forall (fun a => backslash (ch a) = false) l ->
  tail_backslashes ch (l ++ m) = tail_backslashes ch m.
Proof.
  intros A ch l m F. unfold tail_backslashes. rewrite rev_app_distr.
  destruct (forallb (fun a => backslash (ch a)) (rev m)) eqn:B.
  - rewrite take_while_all by exact B. rewrite app_length.
    assert (X : take_while (fun a => backslash (ch a)) (rev l) = []).
    { apply Forall_rev in F. destruct (rev l); auto. inversion F; subst. cbn. rewrite H1. reflexivity. }
    rewrite X. cbn.
    rewrite <- (app_nil_r (rev m)) at 2. rewrite take_while_all by exact B. cbn. rewrite app_nil_r. lia.
  - rewrite take_while_app by exact B. reflexivity.
Qed.

Lemma blank_not_backslash : forall c, blank c = true -> backslash c = false.
Proof.
  intros c. unfold blank, backslash. rewrite orb_true_iff, !N.eqb_eq. intros [E|E]; subst; reflexivity.
Qed.

Lemma tail_lstrip : forall {A} (ch : A -> char) l, tail_backslashes ch (lstrip ch l) = tail_backslashes ch l.
Proof.
  intros A ch l. destruct (lstrip_suffix ch l) as (pre & E & F). rewrite E at 2. rewrite tail_backslashes_app; auto.
  eapply Forall_impl; [|exact F]. intros a. apply blank_not_backslash.
Qed.

Lemma continued_lstrip : forall {A} (ch : A -> char) l, continued ch (lstrip ch l) = continued ch l.
Proof. intros. unfold continued. rewrite tail_lstrip. reflexivity. Qed.

(** Grabbing a line. *)
Lemma grab_break : forall s l n t, wf_span s -> span_marks s = l ++ n :: t ->
  ~ has mch c_hash (span_marks s) -> ~ has mch c_nl l -> fst n = c_nl ->
  exists r p, makefile_grab_line s = Ok (POk r (p, LELineBreak)) /\ wf_span r /\ wf_span p /\
    span_marks p = l /\ span_marks r = t /\ sub s (S (length l)) (sp_len s - S (length l)) r.
Proof.
  intros s l n t W M H N E. pose proof (grab_line_ok s W) as G. unfold grab in G.
  rewrite span_text_marks in G. rewrite (proj2 (index_none _ _ _) H) in G.
  rewrite M, (index_at _ _ _ _ _ N E) in G.
  destruct G as (r & p & G & R & P & _). exists r, p. ands; eauto using sub_wf.
  - rewrite (sub_marks_firstn _ _ _ _ P), M, skipn_O, firstn_app, firstn_all, Nat.sub_diag. apply app_nil_r.
  - rewrite (sub_end _ _ _ W R), M, skipn_app_ge by lia. replace (S (length l) - length l) with 1 by lia. reflexivity.
Qed.

Lemma grab_end : forall s, wf_span s ->
  ~ has mch c_hash (span_marks s) -> ~ has mch c_nl (span_marks s) ->
  exists r, makefile_grab_line s = Ok (POk r (s, LEEOF)) /\ wf_span r /\ span_marks r = [] /\ sub s (sp_len s) 0 r.
Proof.
  intros s W H N. pose proof (grab_line_ok s W) as G. unfold grab in G.
  rewrite span_text_marks in G. rewrite (proj2 (index_none _ _ _) H), (proj2 (index_none _ _ _) N) in G.
  unfold makefile_grab_line in *. cbn [palt] in *.
  assert (T1 : take_until [c_hash] s = Ok (PError [KNom])).
  { pose proof (take_until_ok s c_hash W ascii_hash) as T. rewrite span_text_marks, (proj2 (index_none _ _ _) H) in T. exact T. }
  assert (T2 : take_until [c_nl] s = Ok (PError [KNom])).
  { pose proof (take_until_ok s c_nl W ascii_nl) as T. rewrite span_text_marks, (proj2 (index_none _ _ _) N) in T. exact T. }
  assert (T3 := no_crnl s W). rewrite span_text_marks, (proj2 (index_none _ _ _) N) in T3. specialize (T3 eq_refl).
  destruct (prest_ok s W) as (r & E & R). clear G. exists r.
  unfold pmap, terminated. rewrite T1. cbn [pbind bind]. rewrite T2. cbn [pbind bind]. rewrite T3. cbn [pbind bind].
  rewrite E. cbn. ands; eauto using sub_wf.
  rewrite (sub_marks_firstn _ _ _ _ R). apply firstn_O.
Qed.

(** * Line ends *)

Lemma trailing_acc : forall l n, trailing_backslashes l n =
  if forallb (fun c => (c =? c_bslash)%N) l then length l + n else tail_backslashes (fun c => c) l.
Proof.
  induction l as [|c l IH]; intros n; cbn [trailing_backslashes forallb].
  - reflexivity.
  - rewrite IH. destruct (c =? c_bslash)%N eqn:E; cbn [andb].
    + destruct (forallb (fun c => (c =? c_bslash)%N) l) eqn:F; cbn; [lia|].
      unfold tail_backslashes. cbn [rev]. rewrite take_while_app; auto.
      apply not_true_is_false. intros X. rewrite forallb_forall in X.
      assert (forallb (fun c => (c =? c_bslash)%N) l = true).
      { apply forallb_forall. intros x Hx. apply X. apply in_rev in Hx. exact Hx. }
      congruence.
    + change (c :: l) with ([c] ++ l). rewrite tail_backslashes_app by (repeat constructor; exact E).
      destruct (forallb (fun c => (c =? c_bslash)%N) l) eqn:F; [|reflexivity].
      unfold tail_backslashes. rewrite <- (app_nil_r (rev l)), take_while_all.
      * cbn. rewrite app_nil_r, rev_length. lia.
      * apply forallb_forall. intros x Hx. apply in_rev in Hx. rewrite forallb_forall in F. apply F. exact Hx.
Qed.

Lemma trailing_ok : forall l, trailing_backslashes l 0 = tail_backslashes (fun c => c) l.
Proof.
  intros l. rewrite trailing_acc. destruct (forallb (fun c => (c =? c_bslash)%N) l) eqn:F; [|reflexivity].
  unfold tail_backslashes. rewrite <- (app_nil_r (rev l)), take_while_all.
  - cbn. rewrite app_nil_r, rev_length. lia.
  - apply forallb_forall. intros x Hx. apply in_rev in Hx. rewrite forallb_forall in F. apply F. exact Hx.
Qed.

Lemma take_while_map : forall {A B} (f : A -> B) (p : B -> bool) l,
  take_while p (List.map f l) = List.map f (take_while (fun a => p (f a)) l).
Proof. intros A B f p. induction l as [|a l IH]; cbn; auto. destruct (p (f a)); cbn; [rewrite IH|]; reflexivity. Qed.

Lemma tail_map : forall {A} (ch : A -> char) l, tail_backslashes (fun c => c) (List.map ch l) = tail_backslashes ch l.
Proof.
  intros A ch l. unfold tail_backslashes. rewrite <- map_rev, take_while_map, map_length. reflexivity.
Qed.

Lemma ends_with_backslash_ok : forall s, wf_span s ->
  ends_with_backslash s = Ok (tail_backslashes mch (span_marks s)).
Proof.
  intros s W. unfold ends_with_backslash. rewrite (span_chars_ok s W). cbn [st_collect bind snd fst].
  rewrite trailing_ok, span_text_marks, tail_map. reflexivity.
Qed.

Lemma tail_le : forall {A} (ch : A -> char) l, tail_backslashes ch l <= length l.
Proof.
  intros A ch l. unfold tail_backslashes. rewrite <- (rev_length l). generalize (rev l) as r.
  induction r as [|a r IH]; cbn; auto. destruct (backslash (ch a)); cbn; lia.
Qed.

(** The index of the last character that is kept. *)
Definition cut (c : char) : bool := is_blank c || (c =? c_bslash)%N.

Lemma last_non_whitespace_acc : forall l h last,
  last_non_whitespace (combine (seq h (length l)) l) last =
  match rstrip (fun c => c) l with [] => last | r => h + length r - 1 end.
Proof.
  induction l as [|c l IH]; intros h last; cbn [length seq combine last_non_whitespace]; [reflexivity|].
  rewrite IH. fold (cut c). unfold rstrip. cbn [rev].
  assert (D : forall r, drop_while (fun a => blank a || backslash a) (r ++ [c]) =
    match drop_while (fun a => blank a || backslash a) r with [] => if cut c then [] else [c] | x => x ++ [c] end).
  { induction r as [|a r IHr]; cbn.
    - unfold cut, is_blank, blank, backslash, c_space, c_tab, c_bslash. destruct (_ || _ || _)%bool; reflexivity.
    - destruct (blank a || backslash a); [exact IHr|reflexivity]. }
  rewrite D. destruct (drop_while (fun a => blank a || backslash a) (rev l)) as [|x r] eqn:E; cbn [rev].
  - destruct (cut c); cbn; [reflexivity|lia].
  - rewrite rev_app_distr. cbn [rev app]. destruct (rev r ++ [x]) eqn:Y; [destruct (rev r); discriminate|].
    cbn [length]. lia.
Qed.

Lemma drop_while_map : forall {A B} (f : A -> B) (p : B -> bool) l,
  drop_while p (List.map f l) = List.map f (drop_while (fun a => p (f a)) l).
Proof. intros A B f p. induction l as [|a l IH]; cbn; auto. destruct (p (f a)); cbn; [rewrite IH|]; reflexivity. Qed.

Lemma rstrip_map : forall {A} (ch : A -> char) l, rstrip (fun c => c) (List.map ch l) = List.map ch (rstrip ch l).
Proof.
  intros A ch l. unfold rstrip. rewrite <- map_rev, drop_while_map, map_rev. reflexivity.
Qed.

Lemma rstrip_prefix : forall {A} (ch : A -> char) l, rstrip ch l = firstn (length (rstrip ch l)) l.
Proof.
  intros A ch l. unfold rstrip. set (p := fun a => blank (ch a) || backslash (ch a)).
  assert (S : forall m : list A, exists pre, m = pre ++ drop_while p m).
  { induction m as [|a m IH]; cbn; [exists []; auto|]. destruct (p a); [|exists []; auto].
    destruct IH as (pre & IH). exists (a :: pre). cbn. congruence. }
  destruct (S (rev l)) as (pre & E).
  assert (L : l = rev (drop_while p (rev l)) ++ rev pre).
  { rewrite <- (rev_involutive l) at 1. rewrite E at 1. apply rev_app_distr. }
  rewrite L at 3. rewrite firstn_app, Nat.sub_diag, firstn_O, firstn_all, app_nil_r. reflexivity.
Qed.

Lemma clean_line_end_ok : forall s mode, wf_span s -> continued mch (span_marks s) = true ->
  exists p, clean_line_end s (tail_backslashes mch (span_marks s)) mode = Ok p /\ wf_span p /\
    span_marks p = clean mch mode (span_marks s) /\ sub s 0 (length (clean mch mode (span_marks s))) p.
Proof.
  intros s mode W C. set (m := span_marks s). set (k := tail_backslashes mch m).
  assert (Lm : length m = sp_len s) by (apply span_marks_len; exact W).
  assert (K : k <= length m) by apply tail_le.
  assert (K0 : 0 < k). { unfold continued in C. fold m in C. fold k in C. destruct k; [discriminate|lia]. }
  unfold clean_line_end, clean. fold k.
  destruct (k =? 1) eqn:K1.
  - apply Nat.eqb_eq in K1. destruct mode.
    + rewrite Lm. destruct (sp_len s <? 2) eqn:L2.
      * destruct (slice_range_sub s 0 0 W) as (p & E & S); [lia|lia|]. exists p. ands; eauto using sub_wf.
        rewrite (sub_marks_firstn _ _ _ _ S). reflexivity.
      * apply Nat.ltb_ge in L2. rewrite (span_indices_ok s W). unfold enumerate.
        rewrite last_non_whitespace_acc. rewrite span_text_marks. fold m. rewrite rstrip_map.
        assert (RL : length (rstrip mch m) <= length m).
        { rewrite (rstrip_prefix mch m), firstn_length. lia. }
        assert (X : exists j, j <= sp_len s /\
          (match List.map mch (rstrip mch m) with [] => 0 | _ :: _ => 0 + length (List.map mch (rstrip mch m)) - 1 end) + 1 = j /\
          (match rstrip mch m with [] => firstn 1 m | r => r end) = firstn j m).
        { destruct (rstrip mch m) as [|x r] eqn:R; cbn [List.map].
          - exists 1. ands; lia.
          - exists (length (x :: r)). ands; [lia|cbn [length]; rewrite map_length; lia|].
            rewrite <- R. apply rstrip_prefix. }
        destruct X as (j & J & J1 & J2). 
        assert (Q : match List.map mch (rstrip mch m) with [] => 0 | c :: l => 0 + length (c :: l) - 1 end + 1 = j).
        { rewrite <- J1. destruct (List.map mch (rstrip mch m)); reflexivity. }
        rewrite Q, J2. exists (slice_to s j).
        assert (S := slice_to_sub s j W J). ands; eauto using sub_wf.
        -- rewrite (sub_marks_firstn _ _ _ _ S). reflexivity.
        -- rewrite firstn_length. fold m in Lm. rewrite Lm, Nat.min_l by lia. exact S.
    + rewrite usub_ok by lia. cbn [bind]. exists (slice_to s (sp_len s - 1)).
      assert (S := slice_to_sub s (sp_len s - 1) W ltac:(lia)).
      assert (RL : removelast m = firstn (sp_len s - 1) m).
      { rewrite removelast_firstn_len, Lm. f_equal. lia. }
      ands; eauto using sub_wf.
      * rewrite (sub_marks_firstn _ _ _ _ S), RL. reflexivity.
      * rewrite RL, firstn_length, Lm, Nat.min_l by lia. exact S.
  - rewrite usub_ok by lia. cbn [bind]. rewrite Lm. set (j := sp_len s - k + k / 2).
    assert (J : j <= sp_len s). { unfold j. assert (k / 2 <= k) by (apply Nat.div_le_upper_bound; lia). lia. }
    exists (slice_to s j). assert (S := slice_to_sub s j W J). ands; eauto using sub_wf.
    + rewrite (sub_marks_firstn _ _ _ _ S). reflexivity.
    + rewrite firstn_length, Lm, Nat.min_l by lia. exact S.
Qed.

(** * Logical lines *)

Lemma new_from_node_ok : forall b, wf_block b ->
  wf_cref0 (new_from_node (NConcat b)) /\ cref_marks (new_from_node (NConcat b)) = block_marks b /\
  c_len (new_from_node (NConcat b)) = length (block_marks b).
Proof.
  intros b W. unfold new_from_node. cbn [c_len node_len].
  assert (L : length (block_marks b) = block_len b) by (apply crefs_marks_len; exact W).
  assert (M : cref_marks (CRef 0 (block_len b) (NConcat b)) = block_marks b).
  { cbn [cref_marks]. rewrite (node_marks_block (NConcat b) b eq_refl), skipn_O, firstn_all2; auto. lia. }
  ands; auto. destruct (block_len b) eqn:Z; [right; reflexivity|]. left. cbn [wf_cref node_len].
  rewrite Z. ands; try lia. destruct b as [sens cs]. cbn. apply fold_and_Forall. exact W.
Qed.

Lemma to_content_reference_ok : forall s, wf_span s ->
  exists c, to_content_reference s = Ok c /\ wf_cref0 c /\ cref_marks c = span_marks s /\ c_len c = sp_len s.
Proof.
  intros s W. unfold to_content_reference. destruct (to_new_block_ok s W) as (b & E & Wb & M & _).
  rewrite E. cbn [bind]. destruct (new_from_node_ok b Wb) as (W0 & M0 & L). exists (new_from_node (NConcat b)).
  ands; auto; [congruence|]. rewrite L, M. apply span_marks_len. exact W.
Qed.

Lemma join_cons : forall {A} (sp : A) p ps, ps <> [] -> join sp (p :: ps) = p ++ sp :: join sp ps.
Proof. intros A sp p ps H. destruct ps; [congruence|reflexivity]. Qed.

Definition space_mark : char * location := (c_space, Synthetic).

(** The continuation lines that follow. *)
Definition tail_pieces (mode : compliance) (ls : list (list (char * location))) (last : list (char * location)) :=
  filter nonempty (List.map (fun l => clean mch mode (lstrip mch l)) ls) ++ [lstrip mch last].

Lemma tail_pieces_ne : forall mode ls last, tail_pieces mode ls last <> [].
Proof. intros mode ls last H. apply app_eq_nil in H as (_ & H). discriminate. Qed.

Definition no_comment (r : line_end) : Prop := match r with LEComment => False | _ => True end.

Definition even_odd : forall n, Nat.even n = negb (Nat.odd n).
Proof. intros n. rewrite <- Nat.negb_even. destruct (Nat.even n); reflexivity. Qed.

Lemma step_space : forall reason lines (add strip : bool), no_comment reason ->
  match reason with
  | LEComment => (lines ++ [cr_space], add)
  | _ => if add && negb strip then (lines ++ [cr_space], add) else (lines, true)
  end = (lines ++ (if add && negb strip then [cr_space] else []), true).
Proof.
  intros reason lines add strip H. destruct reason; [destruct H| |];
    (destruct add, strip; cbn; rewrite ?app_nil_r; reflexivity).
Qed.

Lemma space_wf : wf_cref cr_space.
Proof. cbn. ands; try lia. repeat constructor. Qed.
Lemma space_marks : cref_marks cr_space = [space_mark].
Proof. reflexivity. Qed.

Lemma logical_len : forall (t : list (char * location)) ls last rest,
  logical_line mch t ls last rest -> length ls <= length t.
Proof.
  intros t ls last rest H. induction H; cbn; try lia.
  - destruct l; [discriminate|cbn; lia].
  - rewrite app_length. cbn. lia.
Qed.

Lemma nonempty_len : forall {A} (l : list A), (0 <? length l) = nonempty l.
Proof. intros A [|a l]; reflexivity. Qed.

Lemma no_has_nil : forall {A} (ch : A -> char) c, ~ has ch c [].
Proof. intros A ch c (a & X & _). destruct X. Qed.

(** One line of a continuation: blanks dropped, grabbed. *)
Lemma next_line_break : forall i l n t, wf_span i -> span_marks i = l ++ n :: t ->
  ~ has mch c_hash (span_marks i) -> ~ has mch c_nl l -> fst n = c_nl ->
  exists r p, preceded makefile_whitespace makefile_grab_line i = Ok (POk r (p, LELineBreak)) /\
    wf_span r /\ wf_span p /\ span_marks p = lstrip mch l /\ span_marks r = t /\
    sub i (S (length l)) (sp_len i - S (length l)) r.
Proof.
  intros i l n t W M H N E. destruct (whitespace_marks i W) as (r & q & Ew & R & Mr).
  unfold preceded. rewrite Ew. cbn [pbind bind].
  assert (Bn : blank (fst n) = false) by (rewrite E; reflexivity).
  assert (Wr := sub_wf _ _ _ _ R).
  assert (Mr' : span_marks r = lstrip mch l ++ n :: t) by (rewrite Mr, M; apply lstrip_app; exact Bn).
  destruct (grab_break r (lstrip mch l) n t Wr Mr') as (r' & p & G & W' & Wp & Mp & Mr2 & SS); auto.
  - rewrite Mr. apply lstrip_no. exact H.
  - apply lstrip_no. exact N.
  - exists r', p. ands; auto.
    assert (X := sub_sub _ _ _ _ _ _ _ R SS). pose proof R as (_ & LR & NR & _).
    destruct (lstrip_suffix mch l) as (pre & Epre & Fpre).
    assert (Lb : blanks (span_text i) = length pre).
    { assert (Lr := span_marks_len r Wr). assert (Li := span_marks_len i W).
      rewrite Mr', app_length in Lr. rewrite M, app_length in Li. rewrite Epre in Li. rewrite app_length in Li. cbn in Lr, Li. lia. }
    assert (Ll : length l = length pre + length (lstrip mch l)) by (rewrite Epre at 1; apply app_length).
    rewrite Lb, NR in X. replace (length pre + S (length (lstrip mch l))) with (S (length l)) in X by lia.
    replace (sp_len i - blanks (span_text i) - S (length (lstrip mch l))) with (sp_len i - S (length l)) in X by lia.
    exact X.
Qed.

Lemma next_line_end : forall i, wf_span i ->
  ~ has mch c_hash (span_marks i) -> ~ has mch c_nl (span_marks i) ->
  exists r p, preceded makefile_whitespace makefile_grab_line i = Ok (POk r (p, LEEOF)) /\
    wf_span r /\ wf_span p /\ span_marks p = lstrip mch (span_marks i) /\ span_marks r = [] /\
    sub i (sp_len i) 0 r.
Proof.
  intros i W H N. destruct (whitespace_marks i W) as (r & q & Ew & R & Mr).
  unfold preceded. rewrite Ew. cbn [pbind bind]. assert (Wr := sub_wf _ _ _ _ R).
  destruct (grab_end r Wr) as (r' & G & W' & Mr' & SS).
  - rewrite Mr. apply lstrip_no. exact H.
  - rewrite Mr. apply lstrip_no. exact N.
  - exists r', r. ands; auto. assert (X := sub_sub _ _ _ _ _ _ _ R SS). pose proof R as (_ & LR & NR & _).
    rewrite NR in X. replace (blanks (span_text i) + (sp_len i - blanks (span_text i))) with (sp_len i) in X by lia. exact X.
Qed.

Definition loop_result (mode : compliance) (strip add : bool) ls last : list (char * location) :=
  (if add && negb strip then [space_mark] else []) ++ join space_mark (tail_pieces mode ls last).

Lemma loop_ok : forall t ls last rest, logical_line mch t ls last rest ->
  forall fuel mode i strip add reason lines, wf_span i -> span_marks i = t ->
  ~ has mch c_hash t -> no_comment reason -> Forall wf_cref0 lines -> length ls < fuel ->
  exists r b k, makefile_line_loop fuel mode i strip add reason lines = Ok (POk r b) /\
    wf_block b /\ b_sens b = [] /\ sub i k (sp_len i - k) r /\ span_marks r = rest /\
    block_marks b = crefs_marks lines ++ loop_result mode strip add ls last.
Proof.
  intros t ls last rest H.
  induction H as [l N C|l n rest N C E|l N C|l n t ls last rest N C E H IH];
    intros fuel mode i strip add reason lines W M Hh R F Fu;
    (destruct fuel as [|fuel]; [lia|]); cbn [makefile_line_loop];
    rewrite (step_space reason lines add strip R);
    set (sp := if add && negb strip then [cr_space] else []).
  all: assert (Fsp : Forall wf_cref0 (lines ++ sp))
    by (apply Forall_app; split; auto; unfold sp; destruct (add && negb strip); repeat constructor; exact space_wf).
  all: assert (Msp : crefs_marks (lines ++ sp) = crefs_marks lines ++ (if add && negb strip then [space_mark] else []))
    by (rewrite crefs_marks_app; f_equal; unfold sp; destruct (add && negb strip); reflexivity).
  - (* last line, end of input *)
    subst l. destruct (next_line_end i W Hh N) as (r & p & G & Wr & Wp & Mp & Mr & SS). rewrite G. cbn [bind].
    rewrite (ends_with_backslash_ok p Wp). cbn [bind]. rewrite even_odd. 
    change (Nat.odd (tail_backslashes mch (span_marks p))) with (continued mch (span_marks p)).
    rewrite Mp, continued_lstrip, C. cbn [negb].
    destruct (to_content_reference_ok p Wp) as (c & Ec & Wc & Mc & Lc). rewrite Ec. cbn [bind].
    destruct (block_new_ok [] ((lines ++ sp) ++ [c])) as (b & Eb & Wb & Mb & Sb & Lb).
    { apply Forall_app. auto. }
    rewrite Eb. cbn [bind]. exists r, b, (sp_len i). ands; auto.
    + rewrite Nat.sub_diag. exact SS.
    + rewrite Mb, crefs_marks_app, Msp. unfold loop_result, tail_pieces. cbn. rewrite app_nil_r, Mc, Mp.
      rewrite app_assoc. reflexivity.
  - (* last line, newline *)
    destruct (next_line_break i l n rest W M) as (r & p & G & Wr & Wp & Mp & Mr & SS); auto.
    { rewrite M. exact Hh. }
    rewrite G. cbn [bind]. rewrite (ends_with_backslash_ok p Wp). cbn [bind]. rewrite even_odd.
    change (Nat.odd (tail_backslashes mch (span_marks p))) with (continued mch (span_marks p)).
    rewrite Mp, continued_lstrip, C. cbn [negb].
    destruct (to_content_reference_ok p Wp) as (c & Ec & Wc & Mc & Lc). rewrite Ec. cbn [bind].
    destruct (block_new_ok [] ((lines ++ sp) ++ [c])) as (b & Eb & Wb & Mb & Sb & Lb).
    { apply Forall_app. auto. }
    rewrite Eb. cbn [bind]. exists r, b, (S (length l)). ands; auto.
    rewrite Mb, crefs_marks_app, Msp. unfold loop_result, tail_pieces. cbn. rewrite app_nil_r, Mc, Mp.
    rewrite app_assoc. reflexivity.
  - (* continued line, end of input *)
    subst l. destruct (next_line_end i W Hh N) as (r & p & G & Wr & Wp & Mp & Mr & SS). rewrite G. cbn [bind].
    rewrite (ends_with_backslash_ok p Wp). cbn [bind]. rewrite even_odd.
    change (Nat.odd (tail_backslashes mch (span_marks p))) with (continued mch (span_marks p)).
    assert (Cp : continued mch (span_marks p) = true) by (rewrite Mp, continued_lstrip; exact C).
    rewrite Cp. cbn [negb]. destruct (clean_line_end_ok p mode Wp Cp) as (q & Eq & Wq & Mq & Sq).
    rewrite Eq. cbn [bind].
    assert (Lq : sp_len q = length (clean mch mode (lstrip mch (span_marks i)))).
    { rewrite <- (span_marks_len q Wq), Mq, Mp. reflexivity. }
    destruct (next_line_end r Wr) as (r2 & p2 & G2 & Wr2 & Wp2 & Mp2 & Mr2 & S2);
      [rewrite Mr; apply no_has_nil|rewrite Mr; apply no_has_nil|].
    destruct fuel as [|fuel]; [cbn in Fu; lia|].
    assert (X : sub i (sp_len i) 0 r2).
    { pose proof SS as (_ & _ & Ls & _). rewrite Ls in S2. assert (Y := sub_sub _ _ _ _ _ _ _ SS S2).
      rewrite Nat.add_0_r in Y. exact Y. }
    assert (Z : forall (strip' add' : bool) lines', Forall wf_cref0 lines' ->
      exists r' b k, makefile_line_loop (S fuel) mode r strip' add' LEEOF lines' = Ok (POk r' b) /\
        wf_block b /\ b_sens b = [] /\ sub i k (sp_len i - k) r' /\ span_marks r' = [] /\
        block_marks b = crefs_marks lines' ++ (if add' && negb strip' then [space_mark] else [])).
    { intros strip' add' lines' F'. cbn [makefile_line_loop]. rewrite (step_space LEEOF lines' add' strip' I), G2.
      cbn [bind]. rewrite (ends_with_backslash_ok p2 Wp2), Mp2, Mr. cbn [bind lstrip drop_while].
      cbn [tail_backslashes rev take_while length Nat.even].
      change (Nat.even (tail_backslashes mch [])) with true. cbn match.
      destruct (to_content_reference_ok p2 Wp2) as (c & Ec & Wc & Mc & Lc). rewrite Ec. cbn [bind].
      destruct (block_new_ok [] ((lines' ++ (if add' && negb strip' then [cr_space] else [])) ++ [c])) as (b & Eb & Wb & Mb & Sb & Lb).
      { apply Forall_app. split; auto. apply Forall_app. split; auto.
        destruct (add' && negb strip'); repeat constructor; exact space_wf. }
      rewrite Eb. cbn [bind]. exists r2, b, (sp_len i). ands; auto.
      - rewrite Nat.sub_diag. exact X.
      - rewrite Mb, !crefs_marks_app. cbn. rewrite Mc, Mp2, Mr. cbn. rewrite !app_nil_r. f_equal.
        destruct (add' && negb strip'); reflexivity. }
    rewrite Lq, nonempty_len. unfold loop_result, tail_pieces. cbn [List.map filter].
    destruct (nonempty (clean mch mode (lstrip mch (span_marks i)))) eqn:Ne.
    + destruct (to_content_reference_ok q Wq) as (c & Ec & Wc & Mc & Lc). rewrite Ec. cbn [bind].
      destruct (Z false true ((lines ++ sp) ++ [c])) as (r' & b & k & E1 & Wb & Sb & Sk & M1 & M2).
      { apply Forall_app. auto. }
      exists r', b, k. ands; auto. rewrite M2, crefs_marks_app, Msp. cbn. rewrite app_nil_r, Mc, Mq, Mp.
      rewrite <- !app_assoc. reflexivity.
    + destruct (Z strip false (lines ++ sp)) as (r' & b & k & E1 & Wb & Sb & Sk & M1 & M2); auto.
      exists r', b, k. ands; auto. rewrite M2, Msp, <- app_assoc. reflexivity.
  - (* continued line, newline *)
    destruct (next_line_break i l n t W M) as (r & p & G & Wr & Wp & Mp & Mr & SS); auto.
    { rewrite M. exact Hh. }
    rewrite G. cbn [bind]. rewrite (ends_with_backslash_ok p Wp). cbn [bind]. rewrite even_odd.
    change (Nat.odd (tail_backslashes mch (span_marks p))) with (continued mch (span_marks p)).
    assert (Cp : continued mch (span_marks p) = true) by (rewrite Mp, continued_lstrip; exact C).
    rewrite Cp. cbn [negb]. destruct (clean_line_end_ok p mode Wp Cp) as (q & Eq & Wq & Mq & Sq).
    rewrite Eq. cbn [bind].
    assert (Lq : sp_len q = length (clean mch mode (lstrip mch l))).
    { rewrite <- (span_marks_len q Wq), Mq, Mp. reflexivity. }
    assert (Ht : ~ has mch c_hash t). { intros X. apply Hh. rewrite has_app. right. rewrite has_cons. auto. }
    pose proof SS as (_ & LS & NS & _).
    assert (Z : forall (strip' add' : bool) lines', Forall wf_cref0 lines' ->
      exists r' b k, makefile_line_loop fuel mode r strip' add' LELineBreak lines' = Ok (POk r' b) /\
        wf_block b /\ b_sens b = [] /\ sub i k (sp_len i - k) r' /\ span_marks r' = rest /\
        block_marks b = crefs_marks lines' ++ loop_result mode strip' add' ls last).
    { intros strip' add' lines' F'.
      destruct (IH fuel mode r strip' add' LELineBreak lines') as (r' & b & k & E1 & Wb & Sb & Sk & M1 & M2);
        auto; [exact I|cbn in Fu; lia|].
      exists r', b, (S (length l) + k). ands; auto. rewrite NS in Sk.
      replace (sp_len i - (S (length l) + k)) with (sp_len i - S (length l) - k) by lia.
      eapply sub_sub; [exact SS|exact Sk]. }
    rewrite Lq, nonempty_len.
    destruct (nonempty (clean mch mode (lstrip mch l))) eqn:Ne.
    + destruct (to_content_reference_ok q Wq) as (c & Ec & Wc & Mc & Lc). rewrite Ec. cbn [bind].
      destruct (Z false true ((lines ++ sp) ++ [c])) as (r' & b & k & E1 & Wb & Sb & Sk & M1 & M2).
      { apply Forall_app. auto. }
      exists r', b, k. ands; auto. rewrite M2, crefs_marks_app, Msp. cbn [crefs_marks List.map concat].
      rewrite app_nil_r, Mc, Mq, Mp. unfold loop_result. cbn [andb negb].
      unfold tail_pieces at 2. cbn [List.map filter]. rewrite Ne. cbn [app].
      rewrite join_cons by apply tail_pieces_ne. fold (tail_pieces mode ls last). rewrite <- !app_assoc. reflexivity.
    + destruct (Z strip false (lines ++ sp)) as (r' & b & k & E1 & Wb & Sb & Sk & M1 & M2); auto.
      exists r', b, k. ands; auto. rewrite M2, Msp. unfold loop_result. cbn [andb].
      unfold tail_pieces at 2. cbn [List.map filter]. rewrite Ne. fold (tail_pieces mode ls last). rewrite <- !app_assoc. reflexivity.
Qed.

Lemma makefile_line_ok : forall mode strip s ls last rest, wf_span s -> ~ has mch c_hash (span_marks s) ->
  logical_line mch (span_marks s) ls last rest ->
  exists r b k, makefile_line s mode strip = Ok (POk r b) /\ wf_block b /\ b_sens b = [] /\
    sub s k (sp_len s - k) r /\ span_marks r = rest /\
    block_marks b = join space_mark (pieces mch mode strip ls last).
Proof.
  intros mode strip s ls last rest W Hh H. unfold makefile_line.
  assert (P : (exists l n t, span_marks s = l ++ n :: t /\ ~ has mch c_nl l /\ fst n = c_nl /\
    ((continued mch l = false /\ ls = [] /\ last = l /\ rest = t) \/
                  (continued mch l = true /\ exists ls', ls = l :: ls' /\ logical_line mch t ls' last rest))) \/
              (~ has mch c_nl (span_marks s) /\
    ((continued mch (span_marks s) = false /\ ls = [] /\ last = span_marks s /\ rest = []) \/
                  (continued mch (span_marks s) = true /\ ls = [span_marks s] /\ last = [] /\ rest = [])))).
  { destruct H as [l N C|l n rest N C E|l N C|l n t ls last rest N C E H].
    - right. split; [exact N|]. left. ands; auto.
    - left. exists l, n, rest. ands; auto.
    - right. split; [exact N|]. right. ands; auto.
    - left. exists l, n, t. ands; auto. right. split; auto. exists ls. auto. }
  assert (G : exists r p reason k, (if strip then preceded makefile_whitespace makefile_grab_line else makefile_grab_line) s
      = Ok (POk r (p, reason)) /\ no_comment reason /\ wf_span r /\ wf_span p /\ sub s k (sp_len s - k) r /\
    ((exists l n t, span_marks s = l ++ n :: t /\ ~ has mch c_nl l /\ fst n = c_nl /\ span_marks r = t /\
    span_marks p = if strip then lstrip mch l else l) \/
       (~ has mch c_nl (span_marks s) /\ span_marks r = [] /\
    span_marks p = if strip then lstrip mch (span_marks s) else span_marks s))).
  { destruct P as [(l & n & t & M & N & E & _)|(N & _)].
    - assert (Q : exists r p, (if strip then preceded makefile_whitespace makefile_grab_line else makefile_grab_line) s
        = Ok (POk r (p, LELineBreak)) /\ wf_span r /\ wf_span p /\ span_marks p = (if strip then lstrip mch l else l) /\
    span_marks r = t /\ sub s (S (length l)) (sp_len s - S (length l)) r).
      { destruct strip; [apply (next_line_break s l n t)|apply (grab_break s l n t)]; auto. }
      destruct Q as (r & p & Q & Wr & Wp & Mp & Mr & SS). exists r, p, LELineBreak, (S (length l)). ands; auto; try exact I.
      left. exists l, n, t. ands; auto.
    - assert (Q : exists r p, (if strip then preceded makefile_whitespace makefile_grab_line else makefile_grab_line) s
        = Ok (POk r (p, LEEOF)) /\ wf_span r /\ wf_span p /\
    span_marks p = (if strip then lstrip mch (span_marks s) else span_marks s) /\
    span_marks r = [] /\ sub s (sp_len s) 0 r).
      { destruct strip.
        - apply next_line_end; auto.
        - destruct (grab_end s W Hh N) as (r & Q & Wr & Mr & SS). exists r, s. ands; auto. }
      destruct Q as (r & p & Q & Wr & Wp & Mp & Mr & SS). exists r, p, LEEOF, (sp_len s). ands; auto; try exact I.
      rewrite Nat.sub_diag. exact SS. }
  destruct G as (r & p & reason & k & Er & Hreason & Wr & Wp & SS & G). rewrite Er. cbn [bind].
  rewrite (ends_with_backslash_ok p Wp). cbn [bind]. rewrite even_odd.
  change (Nat.odd (tail_backslashes mch (span_marks p))) with (continued mch (span_marks p)).
  (* the first line, and what follows *)
  assert (Q : exists l, span_marks p = (if strip then lstrip mch l else l) /\
    ((continued mch l = false /\ ls = [] /\ last = l /\ rest = span_marks r) \/
     (continued mch l = true /\ exists ls', ls = l :: ls' /\ logical_line mch (span_marks r) ls' last rest))).
  { destruct G as [(l & n & t & M & N & E & Mr & Mp)|(N & Mr & Mp)].
    - exists l. split; [exact Mp|]. destruct P as [(l2 & n2 & t2 & M2 & N2 & E2 & P)|(N2 & _)].
      + assert (l2 = l /\ t2 = t) as (-> & ->).
        { assert (I1 := index_at mch c_nl l n t N E). assert (I2 := index_at mch c_nl l2 n2 t2 N2 E2).
          rewrite <- M in I1. rewrite <- M2 in I2. rewrite I1 in I2. inversion I2 as [L]. rewrite M in M2.
          assert (X : firstn (length l) (l ++ n :: t) = firstn (length l2) (l2 ++ n2 :: t2)) by congruence.
          rewrite !firstn_app, !firstn_all, !Nat.sub_diag, !firstn_O, !app_nil_r in X. subst l2.
          split; auto. apply app_inv_head in M2. congruence. }
        rewrite Mr. exact P.
      + exfalso. apply N2. rewrite M, has_app, has_cons. auto.
    - exists (span_marks s). split; [exact Mp|]. destruct P as [(l2 & n2 & t2 & M2 & N2 & E2 & P)|(N2 & P)].
      + exfalso. apply N. rewrite M2, has_app, has_cons. auto.
      + rewrite Mr. destruct P as [P|(C & L & La & Re)]; [left; exact P|]. right. split; auto. exists []. split; auto.
        subst. apply LL_end; [apply no_has_nil|reflexivity]. }
  assert (Hr : ~ has mch c_hash (span_marks r)).
  { intros (a & X & E). apply Hh. exists a. split; auto. rewrite (sub_end _ _ _ W SS) in X.
    rewrite <- (firstn_skipn k (span_marks s)). apply in_or_app. auto. }
  destruct Q as (l & Mp & [(C & -> & -> & Re)|(C & ls' & -> & Hl)]).
  - assert (Cp : continued mch (span_marks p) = false).
    { rewrite Mp. destruct strip; [rewrite continued_lstrip|]; exact C. }
    rewrite Cp. cbn [negb]. destruct (to_content_reference_ok p Wp) as (c & Ec & Wc & Mc & Lc). rewrite Ec. cbn [bind].
    destruct (block_new_ok [] [c]) as (b & Eb & Wb & Mb & Sb & Lb); [auto|].
    rewrite Eb. cbn [bind]. exists r, b, k. ands; auto.
    rewrite Mb. cbn. rewrite app_nil_r, Mc, Mp. reflexivity.
  - assert (Cp : continued mch (span_marks p) = true).
    { rewrite Mp. destruct strip; [rewrite continued_lstrip|]; exact C. }
    rewrite Cp. cbn [negb]. destruct (clean_line_end_ok p mode Wp Cp) as (q & Eq & Wq & Mq & Sq).
    rewrite Eq. cbn [bind].
    assert (Lq : sp_len q = length (clean mch mode (span_marks p))).
    { rewrite <- (span_marks_len q Wq), Mq. reflexivity. }
    assert (Fu : length ls' < S (S (sp_len r))).
    { pose proof (logical_len _ _ _ _ Hl) as L. rewrite (span_marks_len r Wr) in L. lia. }
    pose proof SS as (_ & LS & NS & _).
    rewrite Lq, nonempty_len. destruct (nonempty (clean mch mode (span_marks p))) eqn:Ne.
    + destruct (to_content_reference_ok q Wq) as (c & Ec & Wc & Mc & Lc). rewrite Ec. cbn [bind].
      destruct (loop_ok _ _ _ _ Hl (S (S (sp_len r))) mode r false true reason [c]) as (r' & b & k' & E1 & Wb & Sb & Sk & M1 & M2); auto.
      exists r', b, (k + k'). ands; auto.
      * rewrite NS in Sk. replace (sp_len s - (k + k')) with (sp_len s - k - k') by lia. eapply sub_sub; eauto.
      * rewrite M2. cbn [crefs_marks List.map concat]. rewrite app_nil_r, Mc, Mq. unfold loop_result. cbn [andb negb app].
        rewrite <- (join_cons space_mark) by apply tail_pieces_ne. f_equal. unfold pieces, tail_pieces.
        destruct strip; [|rewrite Mp; reflexivity]. cbn [List.map filter]. rewrite Mp in Ne. rewrite Ne, Mp. reflexivity.
    + destruct (loop_ok _ _ _ _ Hl (S (S (sp_len r))) mode r strip true reason []) as (r' & b & k' & E1 & Wb & Sb & Sk & M1 & M2); auto.
      exists r', b, (k + k'). ands; auto.
      * rewrite NS in Sk. replace (sp_len s - (k + k')) with (sp_len s - k - k') by lia. eapply sub_sub; eauto.
      * rewrite M2. cbn [crefs_marks List.map concat app]. unfold loop_result, pieces, tail_pieces.
        destruct strip; cbn [andb negb app].
        -- cbn [List.map filter]. rewrite Mp in Ne. rewrite Ne. reflexivity.
        -- rewrite Mp in Ne. destruct (clean mch mode l); [|discriminate].
           cbn [app]. rewrite join_cons; [reflexivity|]. intros X. apply app_eq_nil in X as (_ & X). discriminate.
Qed.

Lemma logical_line_total : forall {A} (ch : A -> char) t, exists ls last rest, logical_line ch t ls last rest.
Proof.
  intros A ch t. remember (length t) as n eqn:Hn. revert t Hn.
  induction n as [n IH] using lt_wf_ind. intros t Hn.
  destruct (index_of (is_char c_nl) (List.map ch t)) as [k|] eqn:I.
  - assert (L := index_of_lt _ _ _ I). rewrite map_length in L.
    apply index_of_Some in I as (_ & F & c & post & E & Q). apply N.eqb_eq in Q. subst c.
    rewrite <- map_skipn in E. rewrite <- map_firstn in F.
    destruct (skipn k t) as [|x t'] eqn:T; [discriminate|]. cbn in E. inversion E as [[E1 E2]].
    assert (D : t = firstn k t ++ x :: t') by (rewrite <- T; symmetry; apply firstn_skipn).
    assert (N : ~ has ch c_nl (firstn k t)).
    { apply index_none. apply index_of_None. exact F. }
    destruct (continued ch (firstn k t)) eqn:C.
    + destruct (IH (length t')) with (t := t') as (ls & last & rest & H); auto.
      { assert (length t = length (firstn k t) + S (length t')) by (rewrite D at 1; rewrite app_length; reflexivity). lia. }
      exists (firstn k t :: ls), last, rest. rewrite D at 1. apply LL_more; auto.
    + exists [], (firstn k t), t'. rewrite D at 1. apply LL_last; auto.
  - apply index_none in I. destruct (continued ch t) eqn:C.
    + exists [t], [], []. apply LL_open; auto.
    + exists [], t, []. apply LL_end; auto.
Qed.

(** A '#' anywhere in the text ends the line, whatever comes before it. *)
Lemma index_hash : forall {A} (ch : A -> char) c l h t, ~ has ch c l -> ch h = c ->
  index_of (is_char c) (List.map ch (l ++ h :: t)) = Some (length l).
Proof. intros. apply index_at; auto. Qed.

Lemma grab_hash : forall s l h t, wf_span s -> span_marks s = l ++ h :: t -> ~ has mch c_hash l -> fst h = c_hash ->
  exists r p, makefile_grab_line s = Ok (POk r (p, LEComment)) /\ wf_span r /\ wf_span p /\
    span_marks p = l /\ span_marks r = h :: t /\ sub s (length l) (sp_len s - length l) r.
Proof.
  intros s l h t W M N E. pose proof (grab_line_ok s W) as G. unfold grab in G.
  rewrite span_text_marks, M, (index_hash _ _ _ _ _ N E) in G.
  destruct G as (r & p & G & R & P & _). exists r, p. ands; eauto using sub_wf.
  - rewrite (sub_marks_firstn _ _ _ _ P), M, skipn_O, firstn_app, firstn_all, Nat.sub_diag. apply app_nil_r.
  - rewrite (sub_end _ _ _ W R), M, skipn_app_ge, Nat.sub_diag by lia. reflexivity.
Qed.

Lemma next_line_hash : forall i l h t, wf_span i -> span_marks i = l ++ h :: t -> ~ has mch c_hash l -> fst h = c_hash ->
  exists r p, preceded makefile_whitespace makefile_grab_line i = Ok (POk r (p, LEComment)) /\
    wf_span r /\ wf_span p /\ span_marks p = lstrip mch l /\ span_marks r = h :: t /\
    sub i (length l) (sp_len i - length l) r.
Proof.
  intros i l n t W M N E. destruct (whitespace_marks i W) as (r & q & Ew & R & Mr).
  unfold preceded. rewrite Ew. cbn [pbind bind].
  assert (Bn : blank (fst n) = false) by (rewrite E; reflexivity).
  assert (Wr := sub_wf _ _ _ _ R).
  assert (Mr' : span_marks r = lstrip mch l ++ n :: t) by (rewrite Mr, M; apply lstrip_app; exact Bn).
  destruct (grab_hash r (lstrip mch l) n t Wr Mr') as (r' & p & G & W' & Wp & Mp & Mr2 & SS); auto.
  - apply lstrip_no. exact N.
  - exists r', p. ands; auto.
    assert (X := sub_sub _ _ _ _ _ _ _ R SS). pose proof R as (_ & LR & NR & _).
    destruct (lstrip_suffix mch l) as (pre & Epre & Fpre).
    assert (Lb : blanks (span_text i) = length pre).
    { assert (Lr := span_marks_len r Wr). assert (Li := span_marks_len i W).
      rewrite Mr', app_length in Lr. rewrite M, app_length in Li. rewrite Epre in Li. rewrite app_length in Li. cbn in Lr, Li. lia. }
    assert (Ll : length l = length pre + length (lstrip mch l)) by (rewrite Epre at 1; apply app_length).
    rewrite Lb, NR in X. replace (length pre + length (lstrip mch l)) with (length l) in X by lia.
    replace (sp_len i - blanks (span_text i) - length (lstrip mch l)) with (sp_len i - length l) in X by lia.
    exact X.
Qed.

Lemma makefile_line_hash : forall mode strip s l h t, wf_span s -> span_marks s = l ++ h :: t ->
  ~ has mch c_hash l -> fst h = c_hash ->
  exists r b, makefile_line s mode strip = Ok (POk r b) /\ wf_block b /\ b_sens b = [] /\
    sub s (length l) (sp_len s - length l) r /\ span_marks r = h :: t /\
    block_marks b = let l' := if strip then lstrip mch l else l in
                    if continued mch l' then clean mch mode l' ++ [space_mark] else l'.
Proof.
  intros mode strip s l h t W M N E. unfold makefile_line.
  assert (G : exists r p, (if strip then preceded makefile_whitespace makefile_grab_line else makefile_grab_line) s
     = Ok (POk r (p, LEComment)) /\ wf_span r /\ wf_span p /\ span_marks p = (if strip then lstrip mch l else l) /\
     span_marks r = h :: t /\ sub s (length l) (sp_len s - length l) r).
  { destruct strip; [apply (next_line_hash s l h t)|apply (grab_hash s l h t)]; auto. }
  destruct G as (r & p & G & Wr & Wp & Mp & Mr & SS). rewrite G. cbn [bind].
  rewrite (ends_with_backslash_ok p Wp). cbn [bind]. rewrite even_odd.
  change (Nat.odd (tail_backslashes mch (span_marks p))) with (continued mch (span_marks p)).
  cbn zeta. rewrite <- Mp.
  destruct (continued mch (span_marks p)) eqn:Cp; cbn [negb].
  - destruct (clean_line_end_ok p mode Wp Cp) as (q & Eq & Wq & Mq & Sq). rewrite Eq. cbn [bind].
    assert (Z : forall (strip' add' : bool) lines', Forall wf_cref0 lines' ->
      exists r' b, makefile_line_loop (S (S (sp_len r))) mode r strip' add' LEComment lines' = Ok (POk r' b) /\
        wf_block b /\ b_sens b = [] /\ sub r 0 (sp_len r - 0) r' /\ span_marks r' = h :: t /\
        block_marks b = crefs_marks lines' ++ [space_mark]).
    { intros strip' add' lines' F'. cbn [makefile_line_loop].
      destruct (next_line_hash r [] h t Wr) as (r2 & p2 & G2 & Wr2 & Wp2 & Mp2 & Mr2 & S2); auto using no_has_nil.
      rewrite G2. cbn [bind]. rewrite (ends_with_backslash_ok p2 Wp2), Mp2. cbn [bind lstrip drop_while].
      change (Nat.even (tail_backslashes mch [])) with true. cbn match.
      destruct (to_content_reference_ok p2 Wp2) as (c & Ec & Wc & Mc & Lc). rewrite Ec. cbn [bind].
      destruct (block_new_ok [] ((lines' ++ [cr_space]) ++ [c])) as (b & Eb & Wb & Mb & Sb & Lb).
      { apply Forall_app. split; auto. apply Forall_app. split; auto. repeat constructor; exact space_wf. }
      rewrite Eb. cbn [bind]. exists r2, b. ands; auto.
      rewrite Mb, !crefs_marks_app. cbn [crefs_marks List.map concat]. rewrite Mc, Mp2, space_marks. cbn. rewrite !app_nil_r. reflexivity. }
    pose proof SS as (_ & LS & NS & _).
    assert (Lq : sp_len q = length (clean mch mode (span_marks p))).
    { rewrite <- (span_marks_len q Wq), Mq. reflexivity. }
    rewrite Lq, nonempty_len. destruct (nonempty (clean mch mode (span_marks p))) eqn:Ne.
    + destruct (to_content_reference_ok q Wq) as (c & Ec & Wc & Mc & Lc). rewrite Ec. cbn [bind].
      destruct (Z false true [c]) as (r' & b & E1 & Wb & Sb & Sk & M1 & M2); [auto|].
      exists r', b. ands; auto.
      * assert (X := sub_sub _ _ _ _ _ _ _ SS Sk). rewrite Nat.add_0_r, Nat.sub_0_r, NS in X. exact X.
      * rewrite M2. cbn. rewrite app_nil_r, Mc, Mq. reflexivity.
    + destruct (Z strip true []) as (r' & b & E1 & Wb & Sb & Sk & M1 & M2); [auto|].
      exists r', b. ands; auto.
      * assert (X := sub_sub _ _ _ _ _ _ _ SS Sk). rewrite Nat.add_0_r, Nat.sub_0_r, NS in X. exact X.
      * rewrite M2. destruct (clean mch mode (span_marks p)); [reflexivity|discriminate].
  - destruct (to_content_reference_ok p Wp) as (c & Ec & Wc & Mc & Lc). rewrite Ec. cbn [bind].
    destruct (block_new_ok [] [c]) as (b & Eb & Wb & Mb & Sb & Lb); [auto|].
    rewrite Eb. cbn [bind]. exists r, b. ands; auto.
    rewrite Mb. cbn. rewrite app_nil_r. exact Mc.
Qed.
