(** Proofs about the evaluated layer. *)
From Verif Require Import Base LocModel EvdModel NomModel EvdSpec.

Global Arguments sum_len : simpl never.
Global Arguments block_len : simpl never.

Ltac ands := repeat match goal with |- _ /\ _ => split end; try reflexivity.

(** ** Generic facts *)

Lemma usub_ok : forall a b, b <= a -> usub a b = Ok (a - b).
Proof. intros a b H. unfold usub. destruct (Nat.leb_spec b a); [reflexivity|lia]. Qed.

Lemma usub_inv : forall a b c, usub a b = Ok c -> b <= a /\ c = a - b.
Proof. intros a b c. unfold usub. destruct (Nat.leb_spec b a); intros E; inversion E; auto. Qed.

Lemma rassert_true : forall b, b = true -> rassert b = Ok tt.
Proof. intros b ->. reflexivity. Qed.

Lemma str_eqb_eq : forall a b, str_eqb a b = true <-> a = b.
Proof.
  induction a as [|x a IH]; destruct b as [|y b]; cbn; split; try easy.
  - intros H. apply andb_true_iff in H as [H1 H2]. apply N.eqb_eq in H1. apply IH in H2. congruence.
  - intros H. inversion H; subst. rewrite N.eqb_refl. apply IH. reflexivity.
Qed.

Lemma str_eqb_refl : forall a, str_eqb a a = true.
Proof. intros. apply str_eqb_eq. reflexivity. Qed.

Lemma ascii_len : forall c, ascii c -> len_utf8 c = 1.
Proof. intros c H. unfold len_utf8, ascii in *. destruct (N.ltb_spec c 128); [reflexivity|lia]. Qed.

Lemma ascii_utf8 : forall c, ascii c -> utf8 c = [c].
Proof. intros c H. unfold utf8, ascii in *. destruct (N.ltb_spec c 128); [reflexivity|lia]. Qed.

Lemma asciis_blen : forall s, asciis s -> blen s = length s.
Proof.
  induction s as [|c s IH]; intros H; [reflexivity|]. inversion H; subst. cbn.
  rewrite ascii_len by assumption. rewrite IH by assumption. reflexivity.
Qed.

Lemma asciis_bytes : forall s, asciis s -> bytes s = s.
Proof.
  induction s as [|c s IH]; intros H; [reflexivity|]. inversion H; subst. cbn.
  rewrite ascii_utf8 by assumption. cbn. f_equal. apply IH; assumption.
Qed.

Lemma asciib_iff : forall s, asciib s = true <-> asciis s.
Proof.
  intros s. unfold asciib, asciis. rewrite forallb_forall, Forall_forall.
  split; intros H x Hx; specialize (H x Hx); unfold ascii in *; [now apply N.ltb_lt in H|now apply N.ltb_lt].
Qed.

Lemma Forall_firstn : forall {A} (P : A -> Prop) n l, Forall P l -> Forall P (firstn n l).
Proof.
  intros A P n. induction n as [|n IH]; intros l H; cbn; [constructor|].
  destruct l; [constructor|]. inversion H; subst. constructor; auto.
Qed.

Lemma Forall_skipn : forall {A} (P : A -> Prop) n l, Forall P l -> Forall P (skipn n l).
Proof.
  intros A P n. induction n as [|n IH]; intros l H; cbn; [assumption|].
  destruct l; [constructor|]. inversion H; subst. auto.
Qed.

Lemma asciis_app : forall a b, asciis (a ++ b) <-> asciis a /\ asciis b.
Proof. intros. apply Forall_app. Qed.

Lemma asciis_firstn : forall n s, asciis s -> asciis (firstn n s).
Proof. intros. now apply Forall_firstn. Qed.
Lemma asciis_skipn : forall n s, asciis s -> asciis (skipn n s).
Proof. intros. now apply Forall_skipn. Qed.

Lemma bsplit_ascii : forall s n, asciis s -> n <= length s ->
  bsplit n s = Ok (firstn n s, skipn n s).
Proof.
  induction s as [|c s IH]; intros n H Hn; destruct n; cbn in *; try reflexivity; try lia.
  inversion H; subst. rewrite ascii_len by assumption. cbn.
  rewrite Nat.sub_0_r. rewrite IH; [reflexivity|assumption|lia].
Qed.

Lemma firstn_skipn_app : forall {A} n k (l1 l2 : list A),
  n <= length l1 -> firstn k (skipn n (l1 ++ l2)) = firstn k (skipn n l1 ++ l2).
Proof.
  intros. rewrite skipn_app. replace (n - length l1) with 0 by lia. reflexivity.
Qed.

Lemma skipn_app_ge : forall {A} n (l1 l2 : list A),
  length l1 <= n -> skipn n (l1 ++ l2) = skipn (n - length l1) l2.
Proof.
  intros. rewrite skipn_app. rewrite skipn_all2 by lia. reflexivity.
Qed.

Lemma firstn_firstn_le : forall {A} n m (l : list A), n <= m -> firstn n (firstn m l) = firstn n l.
Proof. intros. rewrite firstn_firstn. f_equal. lia. Qed.

Lemma skipn_skipn' : forall {A} n m (l : list A), skipn n (skipn m l) = skipn (m + n) l.
Proof.
  intros A n m. revert n. induction m as [|m IH]; intros n l; [reflexivity|].
  destruct l; cbn; [now rewrite skipn_nil|apply IH].
Qed.

(** ** Induction over node trees *)

Section NodeInd.
  Variables (P : node -> Prop) (Q : cref -> Prop).
  Hypothesis Hconst : forall l, P (NConst l).
  Hypothesis Hblock : forall n v, node_block n = Some v -> Forall Q (b_content v) -> P n.
  Hypothesis Href : forall o l n, P n -> Q (CRef o l n).

  Fixpoint node_ind' (n : node) : P n :=
    match n with
    | NConst l => Hconst l
    | NConcat v =>
        match v as v0 return (P (NConcat v0)) with
        | Blk s cs => Hblock (NConcat (Blk s cs)) (Blk s cs) eq_refl
            ((fix go l : Forall Q l :=
                match l with [] => Forall_nil _ | c :: l' => Forall_cons c (cref_ind' c) (go l') end) cs)
        end
    | NVar nm v =>
        match v as v0 return (P (NVar nm v0)) with
        | Blk s cs => Hblock (NVar nm (Blk s cs)) (Blk s cs) eq_refl
            ((fix go l : Forall Q l :=
                match l with [] => Forall_nil _ | c :: l' => Forall_cons c (cref_ind' c) (go l') end) cs)
        end
    | NSubst nm k r v =>
        match v as v0 return (P (NSubst nm k r v0)) with
        | Blk s cs => Hblock (NSubst nm k r (Blk s cs)) (Blk s cs) eq_refl
            ((fix go l : Forall Q l :=
                match l with [] => Forall_nil _ | c :: l' => Forall_cons c (cref_ind' c) (go l') end) cs)
        end
    | NEval v =>
        match v as v0 return (P (NEval v0)) with
        | Blk s cs => Hblock (NEval (Blk s cs)) (Blk s cs) eq_refl
            ((fix go l : Forall Q l :=
                match l with [] => Forall_nil _ | c :: l' => Forall_cons c (cref_ind' c) (go l') end) cs)
        end
    end
  with cref_ind' (c : cref) : Q c :=
    match c with CRef o l n => Href o l n (node_ind' n) end.
End NodeInd.

Lemma fold_and_Forall : forall {A} (P : A -> Prop) l,
  fold_right (fun c Q => P c /\ Q) True l <-> Forall P l.
Proof.
  induction l as [|a l IH]; cbn; split; intros H.
  - constructor.
  - exact I.
  - constructor; [apply H|apply IH, H].
  - inversion H; subst. split; [assumption|]. apply IH; assumption.
Qed.

Lemma wf_node_block : forall n v, node_block n = Some v -> (wf_node n <-> wf_block v).
Proof.
  intros n [s cs] H. unfold wf_block; cbn.
  destruct n; cbn in H; inversion H; subst; cbn; apply fold_and_Forall.
Qed.

Lemma node_text_block : forall n v, node_block n = Some v -> node_text n = block_text v.
Proof. intros n [s cs] H. destruct n; cbn in H; inversion H; subst; reflexivity. Qed.

Lemma node_len_block : forall n v, node_block n = Some v -> node_len n = block_len v.
Proof. intros n [s cs] H. destruct n; cbn in H; inversion H; subst; reflexivity. Qed.

Lemma node_chars_block : forall n v, node_block n = Some v ->
  node_chars n = iter_chars (List.map cref_chars (b_content v)) 0 (block_len v).
Proof. intros n [s cs] H. destruct n; cbn in H; inversion H; subst; reflexivity. Qed.

Lemma node_segs_block : forall n v, node_block n = Some v ->
  node_segs n = iter_segs (List.map cref_segs (b_content v)) 0 (block_len v).
Proof. intros n [s cs] H. destruct n; cbn in H; inversion H; subst; reflexivity. Qed.

(** ** Lengths and text of well-formed trees *)

Lemma wf_cref_weak : forall c, wf_cref c -> wf_cref_w c.
Proof. intros [o l n] (_ & H1 & H2). split; assumption. Qed.
Lemma wf_crefs_weak : forall cs, Forall wf_cref cs -> Forall wf_cref_w cs.
Proof. intros cs H. apply Forall_impl with (2 := H). exact wf_cref_weak. Qed.
Lemma wf_block_weak : forall b, wf_block b -> wf_block_w b.
Proof. intros b. apply wf_crefs_weak. Qed.

Definition good_ref (c : cref) : Prop :=
  wf_cref_w c -> length (cref_text c) = c_len c /\ asciis (cref_text c) /\
               cref_chars c = (cref_text c, false).
Definition good_node (n : node) : Prop :=
  wf_node n -> length (node_text n) = node_len n /\ asciis (node_text n) /\
               node_chars n = (node_text n, false).

Lemma st_limit_ascii : forall l n b, asciis l -> n <= length l ->
  st_limit n l b = (firstn n l, false).
Proof.
  induction l as [|c l IH]; intros n b H Hn; destruct n; cbn in *; try reflexivity; try lia.
  inversion H; subst. rewrite ascii_len by assumption. cbn.
  rewrite Nat.sub_0_r, IH by (assumption || lia). reflexivity.
Qed.

Lemma sum_len_cons : forall c cs, sum_len (c :: cs) = c_len c + sum_len cs.
Proof. reflexivity. Qed.

Lemma wf_cref_pos : forall c, wf_cref c -> 0 < c_len c.
Proof. intros [o l n] (H & _). exact H. Qed.

Lemma st_limit_0 : forall l b, st_limit 0 l b = ([], false).
Proof. intros [|c l] b; reflexivity. Qed.

Lemma crefs_good : forall cs, Forall good_ref cs -> Forall wf_cref_w cs ->
  length (crefs_text cs) = sum_len cs /\ asciis (crefs_text cs) /\
  fold_right st_app ([], false) (List.map cref_chars cs) = (crefs_text cs, false).
Proof.
  induction cs as [|c cs IH]; intros HG HW; cbn.
  - ands. constructor.
  - inversion HG as [|? ? HG1 HG2]; subst. inversion HW as [|? ? HW1 HW2]; subst.
    destruct (HG1 HW1) as (L & A & E). destruct (IH HG2 HW2) as (L' & A' & E').
    fold (crefs_text cs). unfold crefs_text in *. rewrite app_length, L, L', E, E'. unfold st_app; cbn.
    ands. apply asciis_app; auto.
Qed.

Lemma iter_chars_good : forall cs off len, Forall good_ref cs -> Forall wf_cref_w cs ->
  off + len <= sum_len cs ->
  (0 < len -> exists c cs', cs = c :: cs' /\ off < c_len c) ->
  iter_chars (List.map cref_chars cs) off len = (firstn len (skipn off (crefs_text cs)), false).
Proof.
  intros cs off len HG HW Hle Hfirst. unfold iter_chars.
  destruct cs as [|c cs].
  - cbn in *. assert (len = 0) by (unfold sum_len in Hle; cbn in Hle; lia). subst. reflexivity.
  - inversion HG as [|? ? HG1 HG2]; subst. inversion HW as [|? ? HW1 HW2]; subst.
    destruct (HG1 HW1) as (L & A & E). destruct (crefs_good cs HG2 HW2) as (L' & A' & E').
    cbn [List.map]. cbv zeta. rewrite E, E'. unfold st_skip, st_app; cbn [fst snd].
    unfold crefs_text. cbn [List.map concat]. fold (crefs_text cs).
    destruct len as [|len]; [apply st_limit_0|].
    destruct (Hfirst ltac:(lia)) as (c0 & cs0 & Heq & Hlt). inversion Heq; subst c0 cs0.
    rewrite st_limit_ascii.
    + rewrite firstn_skipn_app by lia. reflexivity.
    + apply asciis_app; split; [now apply asciis_skipn|assumption].
    + rewrite app_length, skipn_length, L, L'. rewrite sum_len_cons in Hle. lia.
Qed.

Lemma good_trees : (forall n, good_node n) /\ (forall c, good_ref c).
Proof.
  assert (Hc : forall l, good_node (NConst l)).
  { intros l H. cbn in *. rewrite asciis_blen by assumption. auto. }
  assert (Hb : forall n v, node_block n = Some v -> Forall good_ref (b_content v) -> good_node n).
  { intros n v Hv HG HW. rewrite (node_text_block _ _ Hv), (node_len_block _ _ Hv), (node_chars_block _ _ Hv).
    apply (wf_node_block _ _ Hv) in HW. destruct (crefs_good _ HG (wf_crefs_weak _ HW)) as (L & A & _).
    ands; try assumption.
    unfold block_text, block_len. rewrite iter_chars_good; try assumption; try lia; [|now apply wf_crefs_weak|].
    - cbn. rewrite <- L. now rewrite firstn_all.
    - intros Hlen. unfold wf_block in HW. destruct (b_content v) as [|c cs]; [unfold sum_len in Hlen; cbn in Hlen; lia|].
      exists c, cs. split; [reflexivity|]. apply wf_cref_pos. now inversion HW. }
  assert (Hr : forall o l n, good_node n -> good_ref (CRef o l n)).
  { intros o l n HN (Hle & HW). destruct (HN HW) as (L & A & E). cbn.
    ands.
    - rewrite firstn_length, skipn_length. lia.
    - now apply asciis_firstn, asciis_skipn.
    - rewrite E. unfold st_skip, st_take; cbn [fst snd]. rewrite skipn_length.
      destruct (Nat.leb_spec l (length (node_text n) - o)); [reflexivity|lia]. }
  split; [apply (node_ind' good_node good_ref Hc Hb Hr)|apply (cref_ind' good_node good_ref Hc Hb Hr)].
Qed.

Lemma all_good : forall cs, Forall good_ref cs.
Proof. intros. apply Forall_forall. intros. apply good_trees. Qed.

Lemma wf_cref_len_w : forall c, wf_cref_w c -> length (cref_text c) = c_len c.
Proof. intros c H. now apply (proj2 good_trees c). Qed.
Lemma wf_cref_len : forall c, wf_cref c -> length (cref_text c) = c_len c.
Proof. intros c H. now apply wf_cref_len_w, wf_cref_weak. Qed.
Lemma wf_cref_ascii : forall c, wf_cref_w c -> asciis (cref_text c).
Proof. intros c H. now apply (proj2 good_trees c). Qed.
Lemma wf_node_len : forall n, wf_node n -> length (node_text n) = node_len n.
Proof. intros n H. now apply (proj1 good_trees n). Qed.
Lemma wf_node_ascii : forall n, wf_node n -> asciis (node_text n).
Proof. intros n H. now apply (proj1 good_trees n). Qed.
Lemma wf_crefs_len_w : forall cs, Forall wf_cref_w cs -> length (crefs_text cs) = sum_len cs.
Proof. intros. apply crefs_good; [apply all_good|assumption]. Qed.
Lemma wf_crefs_len : forall cs, Forall wf_cref cs -> length (crefs_text cs) = sum_len cs.
Proof. intros. now apply wf_crefs_len_w, wf_crefs_weak. Qed.
Lemma wf_crefs_ascii : forall cs, Forall wf_cref_w cs -> asciis (crefs_text cs).
Proof. intros. apply crefs_good; [apply all_good|assumption]. Qed.
Lemma wf_block_len : forall b, wf_block b -> length (block_text b) = block_len b.
Proof. intros. now apply wf_crefs_len. Qed.
Lemma wf_block_ascii : forall b, wf_block b -> asciis (block_text b).
Proof. intros. now apply wf_crefs_ascii, wf_crefs_weak. Qed.

Lemma sum_len_app : forall a b, sum_len (a ++ b) = sum_len a + sum_len b.
Proof. intros. unfold sum_len. rewrite map_app. apply list_sum_app. Qed.
Lemma crefs_text_cons : forall c cs, crefs_text (c :: cs) = cref_text c ++ crefs_text cs.
Proof. reflexivity. Qed.
Lemma crefs_text_app : forall a b, crefs_text (a ++ b) = crefs_text a ++ crefs_text b.
Proof. intros. unfold crefs_text. rewrite map_app. apply concat_app. Qed.

Lemma block_into_string_ok : forall b, wf_block b -> block_into_string b = Ok (block_text b).
Proof.
  intros b H. unfold block_into_string. destruct (crefs_good _ (all_good _) (wf_crefs_weak _ H)) as (_ & _ & E).
  rewrite E. reflexivity.
Qed.

(** ** Spans *)

Lemma wf_span_contents : forall s, wf_span s -> Forall wf_cref_w (sp_contents s).
Proof.
  intros s (HW & (pre & E) & _). unfold wf_block_w in HW. rewrite E in HW.
  apply Forall_app in HW. apply HW.
Qed.

Lemma wf_span_ascii : forall s, wf_span s -> asciis (span_text s).
Proof. intros. apply asciis_firstn, asciis_skipn, wf_crefs_ascii, wf_span_contents; assumption. Qed.

Lemma span_text_len : forall s, wf_span s -> length (span_text s) = sp_len s.
Proof.
  intros s H. pose proof (wf_span_contents _ H) as HC. destruct H as (_ & _ & Hle & _).
  unfold span_text. rewrite firstn_length, skipn_length, wf_crefs_len_w by assumption. lia.
Qed.

Lemma span_chars_ok : forall s, wf_span s -> span_chars s = (span_text s, false).
Proof.
  intros s H. pose proof (wf_span_contents _ H) as HC. destruct H as (_ & _ & Hle & Hf).
  unfold span_chars. rewrite iter_chars_good; auto using all_good.
Qed.

Lemma span_into_string_ok : forall s, wf_span s -> span_into_string s = Ok (span_text s).
Proof.
  intros s H. unfold span_into_string. rewrite span_chars_ok by assumption.
  destruct (Nat.eqb_spec (sp_len s) 0) as [E|E]; [|reflexivity].
  unfold span_text. rewrite E. reflexivity.
Qed.

Lemma block_span_wf : forall b, wf_block b -> wf_span (block_span b).
Proof.
  intros b H. unfold wf_span, block_span; cbn [sp_parent sp_contents sp_off sp_len].
  split; [now apply wf_block_weak|]. split; [exists []; reflexivity|]. split; [unfold block_len; lia|].
  intros Hl. unfold block_len in Hl. unfold wf_block in H. destruct (b_content b) as [|c cs].
    + unfold sum_len in Hl; cbn in Hl; lia.
    + exists c, cs. split; [reflexivity|]. inversion H; subst. now apply wf_cref_pos.
Qed.

Lemma block_span_text : forall b, wf_block b -> span_text (block_span b) = block_text b.
Proof.
  intros b H. unfold span_text, block_span, block_text; cbn.
  unfold block_len. rewrite <- wf_crefs_len by assumption. apply firstn_all.
Qed.

Lemma span_empty_tail_wf : forall s, wf_span s -> wf_span (span_empty_tail s).
Proof.
  intros s (HW & (pre & E) & _). unfold wf_span, span_empty_tail; cbn [sp_parent sp_contents sp_off sp_len].
  split; [assumption|]. split; [exists (b_content (sp_parent s)); now rewrite app_nil_r|].
  split; [lia|intros; lia].
Qed.

Lemma reval_ok : forall cs off, Forall wf_cref_w cs -> off < sum_len cs ->
  exists pre off' cs', reval off cs = Ok (off', cs') /\ cs = pre ++ cs' /\
    off = sum_len pre + off' /\
    skipn off (crefs_text cs) = skipn off' (crefs_text cs') /\
    exists c cs'', cs' = c :: cs'' /\ off' < c_len c.
Proof.
  induction cs as [|c cs IH]; intros off HW Hlt; [unfold sum_len in Hlt; cbn in Hlt; lia|].
  inversion HW as [|? ? HW1 HW2]; subst. cbn [reval]. rewrite sum_len_cons in Hlt.
  destruct (Nat.leb_spec (c_len c) off) as [Hc|Hc].
  - destruct (IH (off - c_len c) HW2 ltac:(lia)) as (pre & off' & cs' & E1 & E2 & E3 & E4 & E5).
    exists (c :: pre), off', cs'. rewrite E1. ands; try assumption.
    + rewrite E2. reflexivity.
    + rewrite sum_len_cons. lia.
    + rewrite <- E4, crefs_text_cons, skipn_app_ge; rewrite wf_cref_len_w by assumption; auto.
  - exists [], off, (c :: cs). ands. exists c, cs. auto.
Qed.

Lemma revalidate_ok : forall s, wf_block_w (sp_parent s) ->
  (exists pre, b_content (sp_parent s) = pre ++ sp_contents s) ->
  sp_off s + sp_len s <= sum_len (sp_contents s) ->
  exists s', revalidate s = Ok s' /\ wf_span s' /\ span_text s' = span_text s /\
             sp_parent s' = sp_parent s /\ sp_len s' = sp_len s.
Proof.
  intros s HW (pre & E) Hle. unfold revalidate.
  assert (HC : Forall wf_cref_w (sp_contents s)).
  { unfold wf_block_w in HW. rewrite E in HW. apply Forall_app in HW. apply HW. }
  destruct (Nat.eqb_spec (sp_len s) 0) as [E0|E0].
  - exists s. ands. unfold wf_span. ands; try assumption; [exists pre; assumption|intros; lia].
  - destruct (reval_ok (sp_contents s) (sp_off s) HC ltac:(lia)) as (p2 & off' & cs' & R1 & R2 & R3 & R4 & R5).
    rewrite R1. cbn. eexists. split; [reflexivity|]. unfold wf_span; ands; cbn; try assumption.
    + exists (pre ++ p2). rewrite E, R2, app_assoc. reflexivity.
    + rewrite R2, sum_len_app in Hle. lia.
    + intros _. exact R5.
    + unfold span_text; cbn. rewrite R4. reflexivity.
Qed.

Lemma slice_from_ok : forall s n, wf_span s -> n <= sp_len s ->
  exists s', slice_from s n = Ok s' /\ wf_span s' /\ span_text s' = skipn n (span_text s) /\
             sp_parent s' = sp_parent s /\ sp_len s' = sp_len s - n.
Proof.
  intros s n H Hn. destruct H as (HW & Hp & Hle & Hf). unfold slice_from.
  rewrite usub_ok by assumption. cbn [bind].
  destruct (revalidate_ok (Span (sp_parent s) (sp_contents s) (sp_off s + n) (sp_len s - n)))
    as (s' & E & W & T & P & L); cbn; try assumption; try lia.
  exists s'. ands; try assumption.
  rewrite T. unfold span_text; cbn.
  rewrite skipn_firstn_comm, skipn_skipn'. reflexivity.
Qed.

Lemma slice_range_ok : forall s a b, wf_span s -> a <= b -> b <= sp_len s ->
  exists s', slice_range s a b = Ok s' /\ wf_span s' /\
             span_text s' = firstn (b - a) (skipn a (span_text s)) /\
             sp_parent s' = sp_parent s.
Proof.
  intros s a b H Hab Hb. destruct H as (HW & Hp & Hle & Hf). unfold slice_range.
  rewrite usub_ok by assumption. cbn [bind].
  destruct (revalidate_ok (Span (sp_parent s) (sp_contents s) (sp_off s + a) (b - a)))
    as (s' & E & W & T & P & L); cbn; try assumption; try lia.
  exists s'. ands; try assumption.
  rewrite T. unfold span_text; cbn.
  rewrite skipn_firstn_comm, skipn_skipn', firstn_firstn_le by lia. reflexivity.
Qed.

Lemma slice_to_wf : forall s n, wf_span s -> n <= sp_len s -> wf_span (slice_to s n).
Proof.
  intros s n (HW & Hp & Hle & Hf) Hn. unfold wf_span, slice_to; cbn. ands; try assumption; try lia.
  intros H. apply Hf. lia.
Qed.

Lemma slice_to_text : forall s n, n <= sp_len s -> span_text (slice_to s n) = firstn n (span_text s).
Proof. intros s n Hn. unfold span_text, slice_to; cbn. rewrite firstn_firstn_le by assumption. reflexivity. Qed.

Lemma take_ok : forall s n, n <= sp_len s -> take s n = Ok (slice_to s n).
Proof. intros. unfold take. rewrite rassert_true; [reflexivity|]. now apply Nat.leb_le. Qed.

Lemma take_split_ok : forall s n, wf_span s -> n <= sp_len s ->
  exists r, take_split s n = Ok (r, slice_to s n) /\ wf_span r /\
            span_text r = skipn n (span_text s) /\ sp_parent r = sp_parent s /\
            sp_len r = sp_len s - n /\ slice_from s n = Ok r.
Proof.
  intros s n H Hn. destruct (slice_from_ok s n H Hn) as (r & E & W & T & P & L).
  exists r. unfold take_split. rewrite rassert_true by now apply Nat.leb_le. cbn. rewrite E. cbn. auto 8.
Qed.

(** ** Iteration, search, comparison *)

Lemma with_indices_ascii : forall l h, asciis l ->
  with_indices h l = combine (seq h (length l)) l.
Proof.
  induction l as [|c l IH]; intros h H; [reflexivity|]. inversion H; subst. cbn.
  rewrite ascii_len by assumption. rewrite IH by assumption. rewrite Nat.add_1_r. reflexivity.
Qed.

Lemma span_indices_ok : forall s, wf_span s -> span_indices s = (enumerate (span_text s), false).
Proof.
  intros s H. unfold span_indices. rewrite span_chars_ok by assumption. cbn.
  rewrite with_indices_ascii by now apply wf_span_ascii. reflexivity.
Qed.

Lemma find_index_spec : forall p l h,
  (exists i c, find_index p (combine (seq h (length l)) l) false = Ok (Some (h + i)) /\
     nth_error l i = Some c /\ p c = true /\ i < length l /\
     Forall (fun x => p x = false) (firstn i l)) \/
  (find_index p (combine (seq h (length l)) l) false = Ok None /\
     Forall (fun x => p x = false) l).
Proof.
  intros p. induction l as [|c l IH]; intros h; cbn.
  - right. split; [reflexivity|constructor].
  - destruct (p c) eqn:Hp.
    + left. exists 0, c. rewrite Nat.add_0_r. ands; try assumption; [lia|constructor].
    + destruct (IH (S h)) as [(i & c' & E & N & Hc & Hi & F)|(E & F)].
      * left. exists (S i), c'. rewrite E. ands; try assumption; try lia.
        -- do 2 f_equal; lia.
        -- constructor; assumption.
      * right. split; [assumption|constructor; assumption].
Qed.

Lemma zip_differs_ok : forall l t,
  zip_differs l false t = Ok (negb (str_eqb (firstn (length t) l) (firstn (length l) t))).
Proof.
  induction l as [|a l IH]; intros t; cbn.
  - rewrite firstn_nil. reflexivity.
  - destruct t as [|b t]; cbn; [reflexivity|].
    destruct (N.eqb_spec a b); cbn; [apply IH|reflexivity].
Qed.

(** ** Ring-buffer search *)

Definition rotated (start : nat) (buf : list N) : list N := skipn start buf ++ firstn start buf.

Lemma set_nth_ok : forall buf i x, i < length buf ->
  set_nth i x buf = Ok (firstn i buf ++ x :: skipn (S i) buf).
Proof.
  induction buf as [|y buf IH]; intros i x Hi; cbn in Hi; [lia|].
  destruct i; [reflexivity|]. cbn [set_nth]. rewrite IH by lia. reflexivity.
Qed.

Lemma ring_matches_rot : forall needle buf start n,
  length buf = n -> start <= n -> length needle + start <= n ->
  ring_matches n start needle buf = str_eqb (firstn (length needle) (skipn start buf)) needle.
Proof.
  induction needle as [|b needle IH]; intros buf start n Hl Hs Hle; [reflexivity|].
  cbn [ring_matches length] in *. rewrite Nat.mod_small by lia.
  rewrite IH by lia.
  assert (E : skipn start buf = nth start buf 0%N :: skipn (S start) buf).
  { clear -Hl Hle Hs. revert start n Hl Hle Hs. induction buf as [|x buf IHb]; intros; cbn in *; [lia|].
    destruct start; [reflexivity|]. cbn. apply (IHb start (n - 1)); lia. }
  rewrite E. reflexivity.
Qed.

Lemma ring_matches_wrap : forall needle buf start n, n <> 0 ->
  ring_matches n start needle buf = ring_matches n (start mod n) needle buf.
Proof.
  induction needle as [|b needle IH]; intros buf start n Hn; [reflexivity|]. cbn.
  rewrite Nat.mod_mod by assumption. f_equal. rewrite (IH _ (S start)) by assumption.
  rewrite (IH _ (S (start mod n))) by assumption.
  replace (S start) with (start + 1) by lia. replace (S (start mod n)) with (start mod n + 1) by lia.
  rewrite Nat.add_mod_idemp_l by assumption. reflexivity.
Qed.

Lemma ring_matches_app : forall a b buf start n,
  ring_matches n start (a ++ b) buf =
  ring_matches n start a buf && ring_matches n (start + length a) b buf.
Proof.
  induction a as [|x a IH]; intros; cbn; [now rewrite Nat.add_0_r|].
  rewrite IH, andb_assoc. replace (S start + length a) with (start + S (length a)) by lia. reflexivity.
Qed.

Lemma str_eqb_app : forall a b c d : list N, length a = length c ->
  str_eqb (a ++ b) (c ++ d) = str_eqb a c && str_eqb b d.
Proof.
  induction a as [|x a IH]; intros b c d H; destruct c as [|y c]; cbn in *; try lia; [reflexivity|].
  rewrite IH by lia. apply andb_assoc.
Qed.

Lemma ring_matches_ok : forall needle buf start, needle <> [] ->
  length buf = length needle -> start < length needle ->
  ring_matches (length needle) start needle buf = str_eqb (rotated start buf) needle.
Proof.
  intros needle buf start Hne Hl Hs. set (n := length needle) in *.
  assert (Hn : n <> 0) by (subst n; destruct needle; [easy|cbn; lia]).
  rewrite <- (firstn_skipn (n - start) needle) at 1.
  rewrite ring_matches_app.
  assert (L1 : length (firstn (n - start) needle) = n - start) by (rewrite firstn_length; fold n; lia).
  assert (L2 : length (skipn (n - start) needle) = start) by (rewrite skipn_length; fold n; lia).
  rewrite L1.
  rewrite (ring_matches_rot (firstn _ _)); rewrite ?L1; try lia.
  rewrite ring_matches_wrap by assumption.
  replace (start + (n - start)) with n by lia. rewrite Nat.mod_same by assumption.
  rewrite (ring_matches_rot (skipn _ _)); rewrite ?L2; try lia.
  cbn [skipn]. unfold rotated.
  replace (str_eqb (skipn start buf ++ firstn start buf) needle) with
    (str_eqb (skipn start buf ++ firstn start buf)
             (firstn (n - start) needle ++ skipn (n - start) needle))
    by now rewrite firstn_skipn.
  rewrite str_eqb_app by (rewrite skipn_length, L1; lia).
  rewrite firstn_all2 by (rewrite skipn_length; lia). reflexivity.
Qed.

Lemma rotated_write : forall buf start x n, length buf = n -> start < n ->
  rotated ((start + 1) mod n) (firstn start buf ++ x :: skipn (S start) buf)
  = tl (rotated start buf) ++ [x].
Proof.
  intros buf start x n Hl Hs.
  assert (E : skipn start buf = nth start buf 0%N :: skipn (S start) buf).
  { clear -Hl Hs. revert start n Hl Hs. induction buf as [|y buf IHb]; intros; cbn in *; [lia|].
    destruct start; [reflexivity|]. cbn. apply (IHb start (n - 1)); lia. }
  unfold rotated. rewrite E. cbn [tl app].
  assert (L : length (firstn start buf) = start) by (rewrite firstn_length; lia).
  destruct (Nat.eq_dec (start + 1) n) as [En|En].
  - rewrite (skipn_all2 buf) by lia. rewrite En, Nat.mod_same by lia.
    cbn. rewrite app_nil_r. reflexivity.
  - rewrite Nat.mod_small by lia. rewrite skipn_app, firstn_app, L.
    rewrite skipn_all2 by lia. rewrite (firstn_all2 (firstn start buf)) by lia.
    replace (start + 1 - start) with 1 by lia. cbn. rewrite app_assoc. reflexivity.
Qed.

Lemma write_at_ascii : forall c idx buf, ascii c -> idx < length buf ->
  write_at idx (utf8 c) buf = Ok (firstn idx buf ++ c :: skipn (S idx) buf).
Proof. intros. rewrite ascii_utf8 by assumption. cbn [write_at]. now rewrite set_nth_ok. Qed.

Lemma fs_fill_ok : forall n l idx buf b, asciis l -> length buf = n -> idx <= n ->
  n <= idx + length l ->
  fs_fill n idx (combine (seq idx (length l)) l) b buf =
  Ok (firstn idx buf ++ firstn (n - idx) l,
      combine (seq n (length l - (n - idx))) (skipn (n - idx) l)).
Proof.
  induction l as [|c l IH]; intros idx buf b HA Hl Hi Hn; cbn [length combine seq] in *.
  - assert (idx = n) by lia. subst idx. cbn [fs_fill]. rewrite Nat.ltb_irrefl, Nat.sub_diag. cbn.
    rewrite app_nil_r, firstn_all2 by lia. reflexivity.
  - inversion HA; subst. cbn [fs_fill].
    destruct (Nat.ltb_spec idx (length buf)) as [Hlt|Hge].
    + rewrite write_at_ascii by assumption. cbn [bind]. rewrite ascii_len by assumption.
      rewrite Nat.add_1_r, IH; try assumption; try lia.
      * replace (length buf - idx) with (S (length buf - S idx)) by lia. rewrite !firstn_cons, !skipn_cons.
        f_equal. f_equal.
        rewrite firstn_app, firstn_firstn, firstn_length.
        replace (Nat.min (S idx) idx) with idx by lia.
        replace (S idx - Nat.min idx (length buf)) with 1 by lia. cbn.
        rewrite <- app_assoc. reflexivity.
      * rewrite app_length, firstn_length. cbn [length]. rewrite skipn_length. lia.
    + assert (idx = length buf) by lia. subst idx. rewrite Nat.sub_diag. cbn.
      rewrite app_nil_r, firstn_all. reflexivity.
Qed.

(** The scan maintains: the rotated buffer is the window of the last |needle|
    characters ending just before position [i]. *)
Lemma fs_scan_ok : forall needle rest pre start buf,
  needle <> [] -> asciis rest -> asciis pre ->
  length buf = length needle -> start < length needle ->
  length needle <= length pre ->
  rotated start buf = skipn (length pre - length needle) pre ->
  fs_scan needle start (combine (seq (length pre) (length rest)) rest) false buf =
  Ok ((fix go rest pre := match rest with
       | [] => None
       | c :: rest' =>
           if str_eqb (skipn (length (pre ++ [c]) - length needle) (pre ++ [c])) needle
           then Some (length pre + 1 - length needle)
           else go rest' (pre ++ [c])
       end) rest pre).
Proof.
  intros needle. induction rest as [|c rest IH]; intros pre start buf Hne HA HAp Hl Hs Hp Hrot; [reflexivity|].
  inversion HA; subst. cbn [length combine seq fs_scan].
  rewrite ascii_utf8, ascii_len by assumption. cbn [write_ring].
  rewrite Nat.mod_small by lia. rewrite set_nth_ok by lia. cbn [bind].
  set (buf' := firstn start buf ++ c :: skipn (S start) buf).
  assert (Lb : length buf' = length needle).
  { subst buf'. rewrite app_length, firstn_length. cbn [length]. rewrite skipn_length. lia. }
  assert (Hn0 : length needle <> 0) by lia.
  pose proof (Nat.mod_upper_bound (start + 1) (length needle) Hn0) as Hs'.
  rewrite ring_matches_ok by assumption.
  assert (Hrot' : rotated ((start + 1) mod length needle) buf' =
                  skipn (length (pre ++ [c]) - length needle) (pre ++ [c])).
  { subst buf'. rewrite rotated_write by assumption. rewrite Hrot.
    rewrite app_length. cbn [length].
    replace (length pre + 1 - length needle) with (S (length pre - length needle)) by lia.
    rewrite skipn_app. replace (S (length pre - length needle) - length pre) with 0 by lia. cbn [skipn].
    f_equal. clear. generalize (length pre - length needle). intros k. revert k.
    induction pre as [|x pre IHp]; intros k; [now destruct k|]. destruct k; cbn; [reflexivity|].
    rewrite IHp. destruct k; reflexivity. }
  rewrite Hrot'.
  destruct (str_eqb _ needle).
  - rewrite usub_ok by lia. cbn. do 2 f_equal. lia.
  - replace (S (length pre)) with (length (pre ++ [c])) by (rewrite app_length; cbn; lia).
    apply IH; try assumption.
    + apply asciis_app; split; [assumption|]. constructor; [assumption|constructor].
    + rewrite app_length; cbn; lia.
Qed.

Lemma occurs_at_window : forall needle text i, occurs_at needle text i <->
  i + length needle <= length text /\ firstn (length needle) (skipn i text) = needle.
Proof.
  intros needle text i. split.
  - intros (post & Hi & E). split.
    + assert (H : length (skipn i text) = length (needle ++ post)) by now rewrite E.
      rewrite skipn_length, app_length in H. lia.
    + rewrite E, firstn_app, Nat.sub_diag, firstn_all. cbn. apply app_nil_r.
  - intros (Hi & E). exists (skipn (length needle) (skipn i text)). split; [lia|].
    transitivity (firstn (length needle) (skipn i text) ++ skipn (length needle) (skipn i text)).
    + symmetry. apply firstn_skipn.
    + rewrite E. reflexivity.
Qed.

Lemma fs_go_spec : forall needle rest pre,
  needle <> [] -> length needle <= length pre ->
  (forall j, j + length needle <= length pre -> ~ occurs_at needle (pre ++ rest) j) ->
  match (fix go rest pre := match rest with
       | [] => None
       | c :: rest' =>
           if str_eqb (skipn (length (pre ++ [c]) - length needle) (pre ++ [c])) needle
           then Some (length pre + 1 - length needle)
           else go rest' (pre ++ [c])
       end) rest pre with
  | Some i => occurs_at needle (pre ++ rest) i /\ forall j, j < i -> ~ occurs_at needle (pre ++ rest) j
  | None => forall j, ~ occurs_at needle (pre ++ rest) j
  end.
Proof.
  intros needle. induction rest as [|c rest IH]; intros pre Hne Hp Hno.
  - intros j Hj. apply (Hno j); [|assumption]. apply occurs_at_window in Hj as [Hj _].
    rewrite app_nil_r in Hj. assumption.
  - assert (W : forall j, j = length pre + 1 - length needle ->
               firstn (length needle) (skipn j (pre ++ c :: rest)) = skipn j (pre ++ [c])).
    { intros j ->. replace (pre ++ c :: rest) with ((pre ++ [c]) ++ rest) by (rewrite <- app_assoc; reflexivity).
      assert (L : length (pre ++ [c]) = length pre + 1) by (rewrite app_length; reflexivity).
      rewrite skipn_app, firstn_app. rewrite skipn_length, L.
      replace (length needle - (length pre + 1 - (length pre + 1 - length needle))) with 0 by lia.
      cbn. rewrite app_nil_r. apply firstn_all2. rewrite skipn_length, L. lia. }
    replace (length (pre ++ [c])) with (length pre + 1) by (rewrite app_length; reflexivity).
    specialize (W _ eq_refl).
    destruct (str_eqb _ needle) eqn:Heq.
    + apply str_eqb_eq in Heq. split.
      * apply occurs_at_window. split; [rewrite app_length; cbn; lia|]. rewrite W. assumption.
      * intros j Hj. apply Hno. lia.
    + replace (pre ++ c :: rest) with ((pre ++ [c]) ++ rest) in * by (rewrite <- app_assoc; reflexivity).
      apply IH; try assumption.
      * rewrite app_length; cbn; lia.
      * intros j Hj Hocc. rewrite app_length in Hj; cbn in Hj.
        destruct (Nat.eq_dec (j + length needle) (length pre + 1)) as [Ej|Ej].
        -- assert (Hj' : j = length pre + 1 - length needle) by lia.
           apply occurs_at_window in Hocc as [_ Hocc]. rewrite Hj' in Hocc.
           rewrite W in Hocc. rewrite Hocc, str_eqb_refl in Heq. discriminate.
        -- apply (Hno j); [lia|assumption].
Qed.

Lemma find_substring_spec : forall s needle, wf_span s -> asciis needle -> needle <> [] ->
  match find_substring s needle with
  | Ok (Some i) => occurs_at needle (span_text s) i /\
                   forall j, j < i -> ~ occurs_at needle (span_text s) j
  | Ok None => forall j, ~ occurs_at needle (span_text s) j
  | _ => False
  end.
Proof.
  intros s needle HW HA Hne. unfold find_substring.
  rewrite asciis_blen, asciis_bytes by assumption.
  rewrite <- span_text_len by assumption. rewrite span_indices_ok by assumption.
  pose proof (wf_span_ascii _ HW) as HAt. set (text := span_text s) in *. clearbody text.
  destruct (Nat.ltb_spec (length text) (length needle)) as [Hlt|Hge].
  - intros j Hj. apply occurs_at_window in Hj as [Hj _]. lia.
  - unfold enumerate. rewrite fs_fill_ok; try assumption; try lia; [|now rewrite repeat_length].
    cbn [bind firstn app]. rewrite Nat.sub_0_r.
    assert (Lf : length (firstn (length needle) text) = length needle) by (rewrite firstn_length; lia).
    unfold bytes_eqb. destruct (str_eqb _ needle) eqn:Heq.
    + apply str_eqb_eq in Heq. split; [|intros; lia]. apply occurs_at_window. split; [lia|assumption].
    + replace (seq (length needle)) with (seq (length (firstn (length needle) text))) by now rewrite Lf.
      replace (length text - length needle) with (length (skipn (length needle) text)) by (rewrite skipn_length; lia).
      rewrite fs_scan_ok; try assumption; try (rewrite Lf; lia).
      * pose proof (fs_go_spec needle (skipn (length needle) text) (firstn (length needle) text) Hne) as G.
        rewrite firstn_skipn in G. apply G; [rewrite Lf; lia|].
        intros j Hj. rewrite Lf in Hj. assert (j = 0) by lia. subst j. intros Hocc.
        apply occurs_at_window in Hocc as [_ Hocc]. cbn in Hocc. rewrite Hocc, str_eqb_refl in Heq. discriminate.
      * now apply asciis_skipn.
      * now apply asciis_firstn.
      * destruct needle; [easy|cbn; lia].
      * rewrite Lf, Nat.sub_diag. unfold rotated. cbn. apply app_nil_r.
Qed.
