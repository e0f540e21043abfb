(** Proofs about simplification, blocks made from spans, segments, locations
    and offsets. *)
From Verif Require Import Base LocModel EvdModel NomModel EvdSpec EvdProofs.

(** ** Marks *)

Lemma mark_fst : forall s l, List.map fst (mark l s) = s.
Proof. induction s as [|c s IH]; intros l; cbn; [reflexivity|]. now rewrite IH. Qed.

Lemma mark_length : forall s l, length (mark l s) = length s.
Proof. intros. rewrite <- (map_length fst), mark_fst. reflexivity. Qed.

Lemma mark_skipn : forall s n l, skipn n (mark l s) = mark (advance_over l (firstn n s)) (skipn n s).
Proof.
  induction s as [|c s IH]; intros n l; [now destruct n|]. destruct n; [reflexivity|].
  cbn. rewrite IH. reflexivity.
Qed.

Lemma mark_firstn : forall s n l, firstn n (mark l s) = mark l (firstn n s).
Proof.
  induction s as [|c s IH]; intros n l; [now destruct n|]. destruct n; [reflexivity|].
  cbn. rewrite IH. reflexivity.
Qed.

Lemma map_firstn : forall {A B} (f : A -> B) n l, List.map f (firstn n l) = firstn n (List.map f l).
Proof. intros. symmetry. apply firstn_map. Qed.
Lemma map_skipn : forall {A B} (f : A -> B) n l, List.map f (skipn n l) = skipn n (List.map f l).
Proof. intros. symmetry. apply skipn_map. Qed.

Lemma node_marks_block : forall n v, node_block n = Some v -> node_marks n = block_marks v.
Proof. intros n [s cs] H. destruct n; cbn in H; inversion H; subst; reflexivity. Qed.

Lemma marks_text : (forall n, List.map fst (node_marks n) = node_text n) /\
                   (forall c, List.map fst (cref_marks c) = cref_text c).
Proof.
  assert (Hc : forall l, List.map fst (node_marks (NConst l)) = node_text (NConst l)).
  { intros. apply mark_fst. }
  assert (Hb : forall n v, node_block n = Some v ->
     Forall (fun c => List.map fst (cref_marks c) = cref_text c) (b_content v) ->
     List.map fst (node_marks n) = node_text n).
  { intros n v Hv HF. rewrite (node_marks_block _ _ Hv), (node_text_block _ _ Hv).
    unfold block_marks, crefs_marks, block_text, crefs_text. induction HF as [|c cs H HF IH]; [reflexivity|].
    cbn. rewrite map_app, H, IH. reflexivity. }
  assert (Hr : forall o l n, List.map fst (node_marks n) = node_text n ->
     List.map fst (cref_marks (CRef o l n)) = cref_text (CRef o l n)).
  { intros o l n H. cbn. rewrite map_firstn, map_skipn, H. reflexivity. }
  split; [apply (node_ind' _ _ Hc Hb Hr)|apply (cref_ind' _ _ Hc Hb Hr)].
Qed.

Lemma cref_marks_text : forall c, List.map fst (cref_marks c) = cref_text c.
Proof. apply marks_text. Qed.
Lemma crefs_marks_text : forall cs, List.map fst (crefs_marks cs) = crefs_text cs.
Proof.
  unfold crefs_marks, crefs_text. induction cs as [|c cs IH]; [reflexivity|].
  cbn. rewrite map_app, IH, cref_marks_text. reflexivity.
Qed.
Lemma block_marks_text : forall b, List.map fst (block_marks b) = block_text b.
Proof. intros. apply crefs_marks_text. Qed.
Lemma span_marks_text : forall s, List.map fst (span_marks s) = span_text s.
Proof. intros. unfold span_marks, span_text. rewrite map_firstn, map_skipn, crefs_marks_text. reflexivity. Qed.
Lemma node_marks_len : forall n, wf_node n -> length (node_marks n) = node_len n.
Proof. intros. rewrite <- (map_length fst), (proj1 marks_text). now apply wf_node_len. Qed.
Lemma cref_marks_len_w : forall c, wf_cref_w c -> length (cref_marks c) = c_len c.
Proof. intros. rewrite <- (map_length fst), (proj2 marks_text). now apply wf_cref_len_w. Qed.
Lemma cref_marks_len : forall c, wf_cref c -> length (cref_marks c) = c_len c.
Proof. intros. now apply cref_marks_len_w, wf_cref_weak. Qed.
Lemma crefs_marks_len_w : forall cs, Forall wf_cref_w cs -> length (crefs_marks cs) = sum_len cs.
Proof. intros. rewrite <- (map_length fst), crefs_marks_text. now apply wf_crefs_len_w. Qed.
Lemma crefs_marks_len : forall cs, Forall wf_cref cs -> length (crefs_marks cs) = sum_len cs.
Proof. intros. now apply crefs_marks_len_w, wf_crefs_weak. Qed.
Lemma crefs_marks_cons : forall c cs, crefs_marks (c :: cs) = cref_marks c ++ crefs_marks cs.
Proof. reflexivity. Qed.
Lemma crefs_marks_app : forall a b, crefs_marks (a ++ b) = crefs_marks a ++ crefs_marks b.
Proof. intros. unfold crefs_marks. rewrite map_app. apply concat_app. Qed.

(** ** Slicing located text *)

Lemma located_slice_ok : forall l a n, asciis (l_str l) -> a < length (l_str l) ->
  a + n <= length (l_str l) ->
  located_slice l a n =
  Ok (Located (advance_over (l_loc l) (firstn a (l_str l))) (firstn n (skipn a (l_str l)))).
Proof.
  intros [loc s] a n HA Ha Hn. unfold located_slice; cbn [l_str l_loc] in *.
  rewrite asciis_blen by assumption.
  rewrite !rassert_true by (apply Nat.ltb_lt || apply Nat.leb_le; assumption). cbn [bind].
  rewrite bsplit_ascii by (assumption || lia). cbn [bind].
  rewrite bsplit_ascii; [reflexivity|now apply asciis_skipn|rewrite skipn_length; lia].
Qed.

Lemma located_slice_marks : forall l a n l', asciis (l_str l) -> located_slice l a n = Ok l' ->
  located_marks l' = firstn n (skipn a (located_marks l)) /\ asciis (l_str l') /\ length (l_str l') = n.
Proof.
  intros l a n l' HA E.
  assert (Hb : a < length (l_str l) /\ a + n <= length (l_str l)).
  { unfold located_slice in E. rewrite asciis_blen in E by assumption.
    destruct (Nat.ltb_spec a (length (l_str l))); [|discriminate]. cbn in E.
    destruct (Nat.leb_spec (a + n) (length (l_str l))); [|discriminate]. auto. }
  destruct Hb as [H1 H2]. rewrite located_slice_ok in E by assumption. inversion E; subst; clear E.
  unfold located_marks; cbn. rewrite mark_skipn, mark_firstn. ands.
  - now apply asciis_firstn, asciis_skipn.
  - rewrite firstn_length, skipn_length. lia.
Qed.

(** ** Simplification *)

Definition triple_ref (t : nat * nat * node) : cref := let '(o, l, n) := t in CRef o l n.
Definition ref_triple (c : cref) : nat * nat * node := match c with CRef o l n => (o, l, n) end.
Definition tmap {A B} (f : A -> B) (t : nat * nat * A) : nat * nat * B :=
  let '(o, l, a) := t in (o, l, f a).

Lemma trim_front_map : forall {A B} (f : A -> B) l off,
  trim_front off (List.map (tmap f) l) =
  match trim_front off l with Ok r => Ok (List.map (tmap f) r) | Panic => Panic | OutOfFuel => OutOfFuel end.
Proof.
  intros A B f. induction l as [|[[o n] a] l IH]; intros off; [reflexivity|]. cbn.
  destruct (n <=? off); [apply IH|reflexivity].
Qed.

Lemma trim_back_map : forall {A B} (f : A -> B) l len,
  trim_back len (List.map (tmap f) l) =
  match trim_back len l with Ok r => Ok (List.map (tmap f) r) | Panic => Panic | OutOfFuel => OutOfFuel end.
Proof.
  intros A B f. induction l as [|[[o n] a] l IH]; intros len; [reflexivity|]. cbn.
  destruct (len <=? n); [destruct (len =? 0); reflexivity|].
  rewrite IH. destruct (trim_back (len - n) l); reflexivity.
Qed.

Definition trefs (l : list (nat * nat * node)) : list cref := List.map triple_ref l.

Lemma wf_cref_trim : forall o n m k, wf_cref (CRef o n m) -> k < n -> wf_cref (CRef (o + k) (n - k) m).
Proof. intros o n m k (H1 & H2 & H3) Hk. unfold wf_cref; fold wf_node. ands; [lia|lia|assumption]. Qed.

Lemma wf_cref_short : forall o n m k, wf_cref (CRef o n m) -> 0 < k -> k <= n -> wf_cref (CRef o k m).
Proof. intros o n m k (H1 & H2 & H3) Hk Hk2. unfold wf_cref; fold wf_node. ands; [lia|lia|assumption]. Qed.

Lemma trim_front_ok : forall l off, Forall wf_cref (trefs l) -> off < sum_len (trefs l) ->
  exists r, trim_front off l = Ok r /\ Forall wf_cref (trefs r) /\
    crefs_marks (trefs r) = skipn off (crefs_marks (trefs l)) /\
    (forall P : node -> Prop, Forall (fun t => P (snd t)) l -> Forall (fun t => P (snd t)) r).
Proof.
  induction l as [|[[o n] m] l IH]; intros off HW Hlt; [unfold sum_len in Hlt; cbn in Hlt; lia|].
  cbn [trefs List.map triple_ref] in *. fold (trefs l) in *.
  inversion HW as [|? ? HW1 HW2]; subst. rewrite sum_len_cons in Hlt. cbn [c_len] in Hlt.
  cbn [trim_front]. rewrite crefs_marks_cons.
  pose proof (cref_marks_len _ HW1) as HL. cbn [c_len] in HL.
  destruct (Nat.leb_spec n off) as [Hn|Hn].
  - destruct (IH (off - n) HW2 ltac:(lia)) as (r & E & W & T & P). exists r. ands; try assumption.
    + rewrite T, skipn_app_ge by lia. f_equal. lia.
    + intros Q HQ. inversion HQ; subst. auto.
  - eexists. split; [reflexivity|]. cbn [trefs List.map triple_ref]. fold (trefs l). ands.
    + constructor; [now apply wf_cref_trim|assumption].
    + rewrite crefs_marks_cons, skipn_app. replace (off - length (cref_marks (CRef o n m))) with 0 by lia.
      cbn [skipn]. f_equal. cbn [cref_marks]. rewrite skipn_firstn_comm, skipn_skipn'. reflexivity.
    + intros Q HQ. inversion HQ; subst. constructor; assumption.
Qed.

Lemma trim_back_ok : forall l len, Forall wf_cref (trefs l) -> 0 < len -> len <= sum_len (trefs l) ->
  exists r, trim_back len l = Ok r /\ Forall wf_cref (trefs r) /\
    crefs_marks (trefs r) = firstn len (crefs_marks (trefs l)) /\
    sum_len (trefs r) = len /\
    (forall P : node -> Prop, Forall (fun t => P (snd t)) l -> Forall (fun t => P (snd t)) r).
Proof.
  induction l as [|[[o n] m] l IH]; intros len HW Hpos Hle; [unfold sum_len in Hle; cbn in Hle; lia|].
  cbn [trefs List.map triple_ref] in *. fold (trefs l) in *.
  inversion HW as [|? ? HW1 HW2]; subst. rewrite sum_len_cons in Hle. cbn [c_len] in Hle.
  cbn [trim_back]. rewrite crefs_marks_cons.
  pose proof (cref_marks_len _ HW1) as HL. cbn [c_len] in HL.
  destruct (Nat.leb_spec len n) as [Hn|Hn].
  - destruct (Nat.eqb_spec len 0); [lia|]. eexists. split; [reflexivity|]. cbn [trefs List.map triple_ref]. ands.
    + constructor; [now apply (wf_cref_short o n)|constructor].
    + rewrite crefs_marks_cons. unfold crefs_marks at 1; cbn [List.map concat]. rewrite app_nil_r.
      rewrite firstn_app. replace (len - length (cref_marks (CRef o n m))) with 0 by lia. cbn [firstn].
      rewrite app_nil_r. cbn [cref_marks]. rewrite firstn_firstn_le by assumption. reflexivity.
    + rewrite sum_len_cons. unfold sum_len. cbn. lia.
    + intros Q HQ. inversion HQ; subst. constructor; [assumption|constructor].
  - destruct (IH (len - n) HW2 ltac:(lia) ltac:(lia)) as (r & E & W & T & S & P). rewrite E. cbn [bind].
    eexists. split; [reflexivity|]. cbn [trefs List.map triple_ref]. fold (trefs r). ands.
    + constructor; assumption.
    + rewrite crefs_marks_cons, T, firstn_app, HL. rewrite (firstn_all2 (cref_marks _)) by lia. reflexivity.
    + rewrite sum_len_cons, S. cbn. lia.
    + intros Q HQ. inversion HQ; subst. constructor; auto.
Qed.

Definition simp_ok (n : node) : Prop := forall off len,
  wf_cref (CRef off len n) ->
  exists c', simplify_ref n off len = Ok c' /\ wf_cref c' /\
             cref_marks c' = cref_marks (CRef off len n) /\ c_len c' = len.

Lemma filter_wf_triples : forall {A} (l : list (nat * nat * A)),
  Forall (fun t => 0 < snd (fst t)) l ->
  filter (fun '(_, k, _) => negb (k =? 0)) l = l.
Proof.
  induction l as [|[[o n] a] l IH]; intros H; [reflexivity|]. inversion H; subst. cbn in *.
  destruct (Nat.eqb_spec n 0); [lia|]. cbn. now rewrite IH.
Qed.

Lemma mapM_simp : forall l, Forall wf_cref (trefs l) -> Forall (fun t => simp_ok (snd t)) l ->
  exists cs, mapM (fun '(o, k, f) => f o k) (List.map (tmap simplify_ref) l) = Ok cs /\
    Forall wf_cref cs /\ crefs_marks cs = crefs_marks (trefs l) /\ sum_len cs = sum_len (trefs l).
Proof.
  induction l as [|[[o n] m] l IH]; intros HW HS; cbn.
  - exists []. ands. constructor.
  - cbn [trefs List.map triple_ref] in *. fold (trefs l) in *.
    inversion HW as [|? ? HW1 HW2]; subst. inversion HS as [|? ? HS1 HS2]; subst. cbn [snd] in HS1.
    destruct (HS1 _ _ HW1) as (c' & E & W & T & L). rewrite E. cbn [bind].
    destruct (IH HW2 HS2) as (cs & E' & W' & T' & L'). rewrite E'. cbn [bind].
    exists (c' :: cs). ands.
    + constructor; assumption.
    + rewrite !crefs_marks_cons, T, T'. reflexivity.
    + rewrite !sum_len_cons, L, L'. reflexivity.
Qed.

Lemma trefs_ref_triple : forall cs, trefs (List.map ref_triple cs) = cs.
Proof. induction cs as [|[o l n] cs IH]; [reflexivity|]. cbn. fold (trefs (List.map ref_triple cs)). now rewrite IH. Qed.

Lemma trefs_pos : forall l, Forall wf_cref (trefs l) -> Forall (fun t : nat * nat * node => 0 < snd (fst t)) l.
Proof.
  induction l as [|[[o n] m] l IH]; intros H; [constructor|]. inversion H; subst.
  constructor; [|auto]. cbn. now apply (wf_cref_pos (CRef o n m)).
Qed.

Lemma simplify_ref_ok : forall n, simp_ok n.
Proof.
  apply (node_ind' simp_ok (fun c => simp_ok (c_node c))).
  - intros l off len (Hl & Hle & HW). cbn [node_len wf_node] in *.
    rewrite asciis_blen in Hle by assumption. cbn [simplify_ref].
    rewrite located_slice_ok by (assumption || lia). cbn [bind].
    eexists. split; [reflexivity|]. ands.
    + cbn. ands; [assumption| |now apply asciis_firstn, asciis_skipn].
      rewrite asciis_blen by now apply asciis_firstn, asciis_skipn.
      rewrite firstn_length, skipn_length. lia.
    + cbn [cref_marks node_marks]. unfold located_marks; cbn [l_loc l_str].
      change (skipn 0 ?x) with x. rewrite <- mark_firstn, <- mark_skipn, firstn_firstn_le by lia. reflexivity.
  - intros n v Hv HF off len HWc.
    destruct n as [l|b|nm b|nm k r b|b]; [discriminate Hv|..];
      try (cbn [simplify_ref]; eexists; split; [reflexivity|]; ands; assumption).
    cbn in Hv. injection Hv as <-. destruct b as [sens cs]. cbn [b_content] in HF.
    destruct HWc as (Hl & Hle & HW).
    assert (HWcs : Forall wf_cref cs) by (now apply fold_and_Forall in HW).
    change (node_len (NConcat (Blk sens cs))) with (sum_len cs) in Hle.
    cbn [simplify_ref].
    assert (Eitems : List.map (fun c => match c with CRef o l m => (o, l, simplify_ref m) end) cs
                     = List.map (tmap simplify_ref) (List.map ref_triple cs)).
    { rewrite map_map. apply map_ext. intros [o l m]. reflexivity. }
    rewrite Eitems, trim_front_map.
    pose proof (trefs_ref_triple cs) as Et.
    destruct (trim_front_ok (List.map ref_triple cs) off) as (r & E1 & W1 & T1 & P1);
      [now rewrite Et|rewrite Et; lia|]. rewrite E1. cbn [bind].
    rewrite trim_back_map.
    assert (Hsum : sum_len (trefs r) = sum_len cs - off).
    { rewrite <- crefs_marks_len by assumption. rewrite T1, Et, skipn_length, crefs_marks_len by assumption. reflexivity. }
    destruct (trim_back_ok r len W1 Hl ltac:(lia)) as (r2 & E2 & W2 & T2 & S2 & P2). rewrite E2. cbn [bind].
    rewrite filter_wf_triples.
    2:{ pose proof (trefs_pos _ W2) as Hp. clear - Hp. induction Hp as [|[[o n] m] l H Hp IH]; constructor; auto. }
    destruct (mapM_simp r2 W2) as (cs' & E3 & W3 & T3 & S3).
    { apply P2, P1. clear - HF. induction HF as [|[o l n] cs H HF IH]; constructor; auto. }
    rewrite E3. cbn [bind]. eexists. split; [reflexivity|].
    assert (HWb : wf_cref (CRef 0 len (NConcat (Blk sens cs')))).
    { cbn [wf_cref wf_node]. ands; [assumption| |now apply fold_and_Forall].
      change (node_len (NConcat (Blk sens cs'))) with (sum_len cs'). lia. }
    ands; [assumption|].
    cbn [cref_marks node_marks]. fold (crefs_marks cs') (crefs_marks cs). cbn [skipn].
    rewrite T3, T2, T1, Et. rewrite firstn_firstn_le by lia. reflexivity.
  - intros o l n H. exact H.
Qed.

Lemma cref_simplify_ok : forall c, wf_cref c -> exists c', cref_simplify c = Ok c' /\ wf_cref c' /\
  cref_marks c' = cref_marks c /\ c_len c' = c_len c.
Proof. intros [o l n] H. now apply simplify_ref_ok. Qed.

(** References that may be empty (constructors can produce those; [Block::new]
    drops them). *)
Definition wf_cref0 (c : cref) : Prop := wf_cref c \/ c_len c = 0.

Lemma wf_cref_w0 : forall c, wf_cref_w c -> wf_cref0 c.
Proof.
  intros [o l n] (H1 & H2). unfold wf_cref0. cbn [c_len]. destruct l; [right; reflexivity|left].
  unfold wf_cref; fold wf_node. ands; [lia|assumption..].
Qed.

Lemma marks_empty_ref : forall c, c_len c = 0 -> cref_marks c = [].
Proof. intros [o l n] H. cbn in *. subst. reflexivity. Qed.

Lemma block_new_ok : forall sens cs, Forall wf_cref0 cs ->
  exists b, block_new sens cs = Ok b /\ wf_block b /\ block_marks b = crefs_marks cs /\
            b_sens b = sens /\ block_len b = sum_len cs.
Proof.
  intros sens cs H. unfold block_new, block_simplify. cbn [b_content b_sens].
  assert (G : exists cs', mapM cref_simplify (filter (fun c => negb (c_len c =? 0)) cs) = Ok cs' /\
      Forall wf_cref cs' /\ crefs_marks cs' = crefs_marks cs /\ sum_len cs' = sum_len cs).
  { induction H as [|c cs H HF IH]; [exists []; ands; constructor|].
    destruct IH as (cs' & E & W & T & S). cbn [filter].
    destruct (Nat.eqb_spec (c_len c) 0) as [E0|E0]; cbn [negb].
    - exists cs'. ands; try assumption.
      + rewrite crefs_marks_cons, marks_empty_ref by assumption. assumption.
      + rewrite sum_len_cons. lia.
    - destruct H as [H|H]; [|contradiction].
      destruct (cref_simplify_ok c H) as (c' & Ec & Wc & Tc & Lc). cbn [mapM]. rewrite Ec. cbn [bind]. rewrite E. cbn [bind].
      exists (c' :: cs'). ands.
      + constructor; assumption.
      + rewrite !crefs_marks_cons. congruence.
      + rewrite !sum_len_cons. congruence. }
  destruct G as (cs' & E & W & T & S). rewrite E. cbn [bind]. eexists. split; [reflexivity|]. ands; assumption.
Qed.

(** ** Blocks from spans *)

Lemma cover_ok : forall cs len, Forall wf_cref_w cs -> 0 < len -> len <= sum_len cs ->
  exists r, cover len cs = Ok r /\ Forall wf_cref_w r /\
            crefs_marks r = firstn len (crefs_marks cs) /\ sum_len r = len /\
            (Forall wf_cref cs -> Forall wf_cref r).
Proof.
  induction cs as [|[o n m] cs IH]; intros len HW Hp Hle; [unfold sum_len in Hle; cbn in Hle; lia|].
  inversion HW as [|? ? HW1 HW2]; subst. rewrite sum_len_cons in Hle. cbn [c_len] in Hle.
  cbn [cover]. rewrite crefs_marks_cons. pose proof (cref_marks_len_w _ HW1) as HL. cbn [c_len] in HL.
  destruct (Nat.ltb_spec n len) as [Hn|Hn].
  - destruct (IH (len - n) HW2 ltac:(lia) ltac:(lia)) as (r & E & W & T & S & HS). rewrite E. cbn [bind].
    eexists. split; [reflexivity|]. ands.
    + constructor; assumption.
    + rewrite crefs_marks_cons, T, firstn_app, HL. rewrite (firstn_all2 (cref_marks _)) by lia. reflexivity.
    + rewrite sum_len_cons, S. cbn. lia.
    + intros H. inversion H; subst. constructor; auto.
  - eexists. split; [reflexivity|]. ands.
    + constructor; [|constructor]. destruct HW1 as [H1 H2]. split; [lia|assumption].
    + rewrite crefs_marks_cons. unfold crefs_marks at 1; cbn [List.map concat]. rewrite app_nil_r.
      rewrite firstn_app. replace (len - length (cref_marks (CRef o n m))) with 0 by lia. cbn [firstn].
      rewrite app_nil_r. cbn [cref_marks]. rewrite firstn_firstn_le by assumption. reflexivity.
    + rewrite sum_len_cons. unfold sum_len. cbn. lia.
    + intros H. inversion H; subst. constructor; [now apply (wf_cref_short o n)|constructor].
Qed.

Lemma span_cover_ok : forall s, wf_span s -> 0 < sp_len s ->
  exists r, span_cover s = Ok r /\ Forall wf_cref_w r /\ crefs_marks r = span_marks s /\ sum_len r = sp_len s /\
            (Forall wf_cref (sp_contents s) -> Forall wf_cref r).
Proof.
  intros s H Hp. pose proof (wf_span_contents _ H) as HC. destruct H as (_ & _ & Hle & Hf).
  destruct (Hf Hp) as ([o l n] & cs & E & Hlt). unfold span_cover, span_marks. rewrite E in *. cbn [c_len] in Hlt.
  rewrite rassert_true by now apply Nat.ltb_lt. cbn [bind].
  inversion HC as [|? ? HC1 HC2]; subst.
  pose proof (cref_marks_len_w _ HC1) as HL. cbn [c_len] in HL.
  destruct (cover_ok (CRef (o + sp_off s) (l - sp_off s) n :: cs) (sp_len s)) as (r & E1 & W & T & S & HS);
    try assumption.
  - constructor; [|assumption]. destruct HC1 as [H1 H2]. split; [lia|assumption].
  - rewrite sum_len_cons in *. cbn [c_len] in *. lia.
  - exists r. ands; try assumption.
    + rewrite T. f_equal. rewrite !crefs_marks_cons, skipn_app.
      replace (sp_off s - length (cref_marks (CRef o l n))) with 0 by lia. cbn [skipn]. f_equal.
      cbn [cref_marks]. rewrite skipn_firstn_comm, skipn_skipn'. reflexivity.
    + intros H. apply HS. inversion H; subst. constructor; [now apply wf_cref_trim|assumption].
Qed.

Lemma block_empty_wf : wf_block block_empty.
Proof. constructor. Qed.

Lemma to_new_block_ok : forall s, wf_span s ->
  exists b, to_new_block s = Ok b /\ wf_block b /\ block_marks b = span_marks s /\
            (0 < sp_len s -> b_sens b = b_sens (sp_parent s)).
Proof.
  intros s H. unfold to_new_block. destruct (Nat.eqb_spec (sp_len s) 0) as [E|E].
  - exists block_empty. ands; [apply block_empty_wf|unfold span_marks; rewrite E; reflexivity|lia].
  - destruct (span_cover_ok s H ltac:(lia)) as (r & E1 & W & T & S & _). rewrite E1. cbn [bind].
    destruct (block_new_ok (b_sens (sp_parent s)) r) as (b & E2 & W2 & T2 & S2 & _).
    { apply Forall_impl with (2 := W). exact wf_cref_w0. }
    exists b. rewrite E2. ands; try assumption; [congruence|auto].
Qed.

Lemma push_all_contents_w : forall b s, wf_block_w b -> wf_span s ->
  exists b', push_all_contents b s = Ok b' /\ wf_block_w b' /\
             block_marks b' = block_marks b ++ span_marks s /\
             (0 < sp_len s -> b_sens b' = set_union (b_sens b) (b_sens (sp_parent s))) /\
             (sp_len s = 0 -> b' = b) /\
             (wf_block b -> Forall wf_cref (sp_contents s) -> wf_block b') /\
             (exists more, b_content b' = b_content b ++ more).
Proof.
  intros b s Hb H. unfold push_all_contents. destruct (Nat.eqb_spec (sp_len s) 0) as [E|E].
  - exists b. ands; try assumption; try lia; auto.
    + unfold span_marks. rewrite E. now rewrite app_nil_r.
    + exists []. now rewrite app_nil_r.
  - destruct (span_cover_ok s H ltac:(lia)) as (r & E1 & W & T & S & HS). rewrite E1. cbn [bind].
    eexists. split; [reflexivity|]. ands.
    + apply Forall_app; split; assumption.
    + unfold block_marks. cbn [b_content]. rewrite crefs_marks_app, T. reflexivity.
    + lia.
    + intros H1 H2. apply Forall_app; split; auto.
    + exists r. reflexivity.
Qed.

Lemma push_all_contents_ok : forall b s, wf_block b -> wf_span s -> wf_block (sp_parent s) ->
  exists b', push_all_contents b s = Ok b' /\ wf_block b' /\
             block_marks b' = block_marks b ++ span_marks s /\
             (0 < sp_len s -> b_sens b' = set_union (b_sens b) (b_sens (sp_parent s))) /\
             (sp_len s = 0 -> b' = b).
Proof.
  intros b s Hb H HP. destruct (push_all_contents_w b s (wf_block_weak _ Hb) H) as (b' & E & _ & T & S & Z & W & _).
  exists b'. ands; try assumption. apply W; [assumption|].
  destruct H as (_ & (pre & Ep) & _). unfold wf_block in HP. rewrite Ep in HP. apply Forall_app in HP. apply HP.
Qed.

(** ** Segments *)

Definition seg_good (l : located) : Prop := asciis (l_str l) /\ l_str l <> [].

Definition segs_show (sg : segs) (M : list (char * location)) : Prop :=
  Forall seg_good (fst sg) /\
  if snd sg then exists rest, M = segments_marks (fst sg) ++ rest
  else M = segments_marks (fst sg).

Lemma segments_marks_cons : forall l ls, segments_marks (l :: ls) = located_marks l ++ segments_marks ls.
Proof. reflexivity. Qed.
Lemma located_marks_len : forall l, length (located_marks l) = length (l_str l).
Proof. intros. apply mark_length. Qed.

Lemma segs_show_cons : forall l r b M, seg_good l -> segs_show (r, b) M -> segs_show (l :: r, b) (located_marks l ++ M).
Proof.
  intros l r b M Hl [HF HM]. split; [constructor; assumption|]. cbn [fst snd] in *.
  destruct b.
  - destruct HM as (rest & ->). exists rest. rewrite segments_marks_cons, app_assoc. reflexivity.
  - subst. reflexivity.
Qed.

Lemma sg_good_slice : forall l a l', seg_good l -> located_slice l a (blen (l_str l) - a) = Ok l' ->
  seg_good l' /\ located_marks l' = skipn a (located_marks l) /\ a < length (l_str l) /\
  length (l_str l') = length (l_str l) - a.
Proof.
  intros l a l' [HA HN] E.
  assert (Ha : a < length (l_str l)).
  { unfold located_slice in E. rewrite asciis_blen in E by assumption.
    destruct (Nat.ltb_spec a (length (l_str l))); [assumption|discriminate]. }
  destruct (located_slice_marks _ _ _ _ HA E) as (M & A & L). rewrite asciis_blen in * by assumption. ands.
  - split; [assumption|]. intros E0. rewrite E0 in L. cbn in L. lia.
  - rewrite M. apply firstn_all2. rewrite skipn_length, located_marks_len. lia.
  - assumption.
  - assumption.
Qed.

Lemma sg_good_prefix : forall l n l', seg_good l -> 0 < n -> located_slice l 0 n = Ok l' ->
  seg_good l' /\ located_marks l' = firstn n (located_marks l).
Proof.
  intros l n l' [HA HN] Hn E. destruct (located_slice_marks _ _ _ _ HA E) as (M & A & L).
  split; [|exact M]. split; [assumption|]. intros E0. rewrite E0 in L. cbn in L. lia.
Qed.

(** Both iterators have the same shape: skip, slice, cut. [slice0] tells
    whether a slice at offset 0 is done ([cref]) or skipped ([span]). *)
Lemma segs_step : forall tr tr1 l' b off len r b' M,
  seg_good tr -> seg_good tr1 -> located_marks tr1 = skipn off (located_marks tr) ->
  off < length (l_str tr) -> ~ len < blen (l_str tr1) ->
  segs_show (r, b') (firstn (len - blen (l_str tr1)) (skipn 0 M)) ->
  segs_show (l', b) M ->
  segs_show (tr1 :: r, b') (firstn len (skipn off (located_marks tr ++ M))).
Proof.
  intros tr tr1 l' b off len r b' M G G1 E Hoff Hlen HS _.
  rewrite skipn_app. rewrite located_marks_len. replace (off - length (l_str tr)) with 0 by lia.
  rewrite <- E, firstn_app. rewrite located_marks_len.
  rewrite asciis_blen in * by apply G1.
  rewrite (firstn_all2 (located_marks tr1)) by (rewrite located_marks_len; lia).
  apply segs_show_cons; assumption.
Qed.

Lemma segs_show_tail : forall tr l b M, segs_show (tr :: l, b) M ->
  seg_good tr /\ exists M', M = located_marks tr ++ M' /\ segs_show (l, b) M'.
Proof.
  intros tr l b M [HF HM]. inversion HF; subst. split; [assumption|]. cbn [fst snd] in HM.
  destruct b.
  - destruct HM as (rest & ->). rewrite segments_marks_cons, <- app_assoc.
    eexists. split; [reflexivity|]. split; [assumption|]. exists rest. reflexivity.
  - subst. rewrite segments_marks_cons. eexists. split; [reflexivity|]. split; [assumption|reflexivity].
Qed.

Lemma cref_segs_of_ok : forall l off len b M, segs_show (l, b) M -> off + len <= length M ->
  segs_show (cref_segs_of off len l b) (firstn len (skipn off M)).
Proof.
  induction l as [|tr l IH]; intros off len b M HS Hle.
  - destruct len; [split; [constructor|reflexivity]|]. cbn [cref_segs_of].
    split; [constructor|]. cbn [fst snd]. destruct b.
    + eexists. reflexivity.
    + destruct HS as [_ HM]. cbn in HM. subst M. cbn in Hle. lia.
  - apply segs_show_tail in HS as (G & M' & -> & HS). destruct len as [|len]; [split; [constructor|reflexivity]|].
    cbn [cref_segs_of]. rewrite app_length, located_marks_len in Hle. rewrite asciis_blen by apply G.
    destruct (Nat.ltb_spec (length (l_str tr)) off) as [Ho|Ho].
    + rewrite skipn_app_ge; rewrite located_marks_len; [|lia]. apply IH; [assumption|lia].
    + rewrite <- (asciis_blen (l_str tr)) by apply G.
      destruct (located_slice tr off (blen (l_str tr) - off)) as [tr1| |] eqn:E1;
        [|split; [constructor|eexists; reflexivity]..].
      destruct (sg_good_slice _ _ _ G E1) as (G1 & M1 & Hlt & L1).
      destruct (Nat.ltb_spec (S len) (blen (l_str tr1))) as [Hl|Hl].
      * destruct (located_slice tr1 0 (S len)) as [tr2| |] eqn:E2;
          [|split; [constructor|eexists; reflexivity]..].
        destruct (sg_good_prefix _ _ _ G1 (Nat.lt_0_succ len) E2) as (G2 & M2).
        split; [constructor; [assumption|constructor]|]. cbn [fst snd].
        change (segments_marks [tr2]) with (located_marks tr2 ++ []). rewrite app_nil_r, M2, M1.
        rewrite firstn_skipn_app by (rewrite located_marks_len; lia).
        rewrite firstn_app. rewrite <- M1, located_marks_len.
        rewrite asciis_blen in Hl by apply G1.
        replace (S len - length (l_str tr1)) with 0 by lia. rewrite firstn_O. now rewrite app_nil_r.
      * destruct (cref_segs_of 0 (S len - blen (l_str tr1)) l b) as [r b'] eqn:E3.
        rewrite asciis_blen in * by apply G1.
        eapply segs_step; try eassumption; [rewrite asciis_blen by apply G1; lia|].
        rewrite <- E3, asciis_blen by apply G1. apply IH; [assumption|lia].
Qed.

Lemma span_segs_of_ok : forall l off len b M, segs_show (l, b) M -> off + len <= length M ->
  segs_show (span_segs_of off len l b) (firstn len (skipn off M)).
Proof.
  induction l as [|tr l IH]; intros off len b M HS Hle.
  - destruct len; [split; [constructor|reflexivity]|]. cbn [span_segs_of].
    split; [constructor|]. cbn [fst snd]. destruct b.
    + eexists. reflexivity.
    + destruct HS as [_ HM]. cbn in HM. subst M. cbn in Hle. lia.
  - apply segs_show_tail in HS as (G & M' & -> & HS). destruct len as [|len]; [split; [constructor|reflexivity]|].
    cbn [span_segs_of]. rewrite app_length, located_marks_len in Hle. rewrite asciis_blen by apply G.
    destruct (Nat.ltb_spec (length (l_str tr)) off) as [Ho|Ho].
    + rewrite skipn_app_ge; rewrite located_marks_len; [|lia]. apply IH; [assumption|lia].
    + cbv zeta.
      assert (Hsl : forall tr1, (if off =? 0 then Ok tr else located_slice tr off (length (l_str tr) - off)) = Ok tr1 ->
                seg_good tr1 /\ located_marks tr1 = skipn off (located_marks tr) /\ off < length (l_str tr) /\
                length (l_str tr1) = length (l_str tr) - off).
      { intros tr1. destruct (Nat.eqb_spec off 0) as [->|Hne].
        - intros E; inversion E; subst. ands; try assumption; [|lia].
          destruct G as [_ Gn]. destruct (l_str tr1); [easy|cbn; lia].
        - rewrite <- (asciis_blen (l_str tr)) by apply G. intros E1.
          apply (sg_good_slice _ _ _ G) in E1. rewrite !asciis_blen in * by apply G. assumption. }
      destruct (if off =? 0 then Ok tr else located_slice tr off (length (l_str tr) - off)) as [tr1| |] eqn:E1;
        [|split; [constructor|eexists; reflexivity]..].
      destruct (Hsl _ eq_refl) as (G1 & M1 & Hlt & L1).
      destruct (Nat.ltb_spec (S len) (blen (l_str tr1))) as [Hl|Hl].
      * destruct (located_slice tr1 0 (S len)) as [tr2| |] eqn:E2;
          [|split; [constructor|eexists; reflexivity]..].
        destruct (sg_good_prefix _ _ _ G1 (Nat.lt_0_succ len) E2) as (G2 & M2).
        split; [constructor; [assumption|constructor]|]. cbn [fst snd].
        change (segments_marks [tr2]) with (located_marks tr2 ++ []). rewrite app_nil_r, M2, M1.
        rewrite firstn_skipn_app by (rewrite located_marks_len; lia).
        rewrite firstn_app. rewrite <- M1, located_marks_len.
        rewrite asciis_blen in Hl by apply G1.
        replace (S len - length (l_str tr1)) with 0 by lia. rewrite firstn_O. now rewrite app_nil_r.
      * destruct (span_segs_of 0 (S len - blen (l_str tr1)) l b) as [r b'] eqn:E3.
        rewrite asciis_blen in * by apply G1.
        eapply segs_step; try eassumption; [rewrite asciis_blen by apply G1; lia|].
        rewrite <- E3, asciis_blen by apply G1. apply IH; [assumption|lia].
Qed.

Lemma segs_show_app : forall a b M N, segs_show a M -> segs_show b N -> segs_show (sg_app a b) (M ++ N).
Proof.
  intros [la ba] [lb bb] M N [Fa Ha] [Fb Hb]. unfold sg_app. cbn [fst snd] in *. destruct ba.
  - split; [assumption|]. destruct Ha as (rest & ->). exists (rest ++ N). cbn [fst]. rewrite <- app_assoc. reflexivity.
  - subst M. split; [apply Forall_app; auto|]. cbn [fst snd]. destruct bb.
    + destruct Hb as (rest & ->). exists rest. unfold segments_marks. rewrite map_app, concat_app, app_assoc. reflexivity.
    + subst. unfold segments_marks. rewrite map_app, concat_app. reflexivity.
Qed.

Lemma iter_segs_ok : forall cs off len, Forall wf_cref_w cs ->
  Forall (fun c => segs_show (cref_segs c) (cref_marks c)) cs -> off + len <= sum_len cs ->
  segs_show (iter_segs (List.map cref_segs cs) off len) (firstn len (skipn off (crefs_marks cs))).
Proof.
  intros cs off len HW HS Hle. unfold iter_segs. cbv zeta.
  assert (H : segs_show (fold_right sg_app ([], false) (List.map cref_segs cs)) (crefs_marks cs)).
  { clear - HS. induction HS as [|c cs H HS IH]; [split; [constructor|reflexivity]|].
    cbn [List.map fold_right]. rewrite crefs_marks_cons. now apply segs_show_app. }
  destruct (fold_right sg_app ([], false) (List.map cref_segs cs)) as [l b]. cbn [fst snd].
  apply span_segs_of_ok; [assumption|]. now rewrite crefs_marks_len_w.
Qed.

(** A constant reached through a non-empty reference has non-empty text, so its
    single segment is good. *)
Definition segs_ok_node (n : node) : Prop := wf_node n -> 0 < node_len n -> segs_show (node_segs n) (node_marks n).
Definition segs_ok_ref (c : cref) : Prop := wf_cref_w c -> segs_show (cref_segs c) (cref_marks c).

Lemma segs_ok_trees : (forall n, segs_ok_node n) /\ (forall c, segs_ok_ref c).
Proof.
  assert (Hc : forall l, segs_ok_node (NConst l)).
  { intros l HW Hlen. cbn in *. split; [|cbn; now rewrite app_nil_r]. constructor; [|constructor].
    split; [assumption|]. intros E. rewrite E in Hlen. cbn in Hlen. lia. }
  assert (Hb : forall n v, node_block n = Some v -> Forall segs_ok_ref (b_content v) -> segs_ok_node n).
  { intros n v Hv HF HW Hlen. rewrite (node_segs_block _ _ Hv), (node_marks_block _ _ Hv).
    apply (wf_node_block _ _ Hv) in HW. unfold block_marks, block_len.
    rewrite <- (firstn_all (crefs_marks (b_content v))). rewrite crefs_marks_len by assumption.
    apply (iter_segs_ok (b_content v) 0); [now apply wf_crefs_weak| |lia].
    apply wf_crefs_weak in HW. rewrite Forall_forall in *. intros c Hc'. apply HF; auto. }
  assert (Hr : forall o l n, segs_ok_node n -> segs_ok_ref (CRef o l n)).
  { intros o l n HN HWc. pose proof HWc as (Hle & HW). cbn [cref_segs cref_marks]. cbv zeta.
    destruct (Nat.eq_dec l 0) as [->|Hl].
    { replace (cref_segs_of o 0 (fst (node_segs n)) (snd (node_segs n))) with (@nil located, false) by (destruct (fst (node_segs n)); reflexivity).
      split; [constructor|reflexivity]. }
    assert (HS : segs_show (node_segs n) (node_marks n)) by (apply HN; [assumption|lia]).
    destruct (node_segs n) as [ls b]. cbn [fst snd]. apply cref_segs_of_ok; [assumption|].
    rewrite node_marks_len by assumption. assumption. }
  split; [apply (node_ind' _ _ Hc Hb Hr)|apply (cref_ind' _ _ Hc Hb Hr)].
Qed.

Lemma span_segs_ok : forall s, wf_span s -> segs_show (span_segs s) (span_marks s).
Proof.
  intros s H. pose proof (wf_span_contents _ H) as HC. destruct H as (_ & _ & Hle & _).
  apply iter_segs_ok; try assumption. rewrite Forall_forall in *. intros c Hc. apply segs_ok_trees. auto.
Qed.

Lemma span_location_ok : forall s, wf_span s -> 0 < sp_len s ->
  match span_location s with
  | Ok (Some l) => option_map snd (hd_error (span_marks s)) = Some l
  | Ok None => False
  | _ => snd (span_segs s) = true
  end.
Proof.
  intros s H Hp. pose proof (span_segs_ok s H) as HS. unfold span_location.
  destruct (span_segs s) as [[|l ls] b].
  - destruct b; [reflexivity|]. destruct HS as [_ HS]. cbn in HS.
    assert (E : length (span_marks s) = 0) by now rewrite HS.
    rewrite <- (map_length fst), span_marks_text, span_text_len in E by assumption. lia.
  - apply segs_show_tail in HS as ([_ Gn] & M' & -> & _).
    unfold located_marks. destruct (l_str l); [easy|]. reflexivity.
Qed.

(** Trees all of whose references start at offset 0. *)
Fixpoint off0_node (n : node) : Prop :=
  match n with
  | NConst s => True
  | NConcat v | NVar _ v | NSubst _ _ _ v | NEval v =>
      match v with Blk _ cs => fold_right (fun c P => off0_cref c /\ P) True cs end
  end
with off0_cref (c : cref) : Prop :=
  match c with CRef off len n => off = 0 /\ off0_node n end.

Lemma cref_segs_of_0 : forall l len, Forall seg_good l -> snd (cref_segs_of 0 len l false) = false.
Proof.
  induction l as [|tr l IH]; intros len HF; destruct len; try reflexivity.
  inversion HF as [|? ? G HF']; subst. cbn [cref_segs_of].
  assert (Hn : 0 < length (l_str tr)) by (destruct G as [_ Gn]; destruct (l_str tr); [easy|cbn; lia]).
  rewrite asciis_blen by apply G.
  destruct (Nat.ltb_spec (length (l_str tr)) 0); [lia|].
  rewrite located_slice_ok by (apply G || lia).
  cbn [l_str]. rewrite Nat.sub_0_r. cbn [skipn]. rewrite firstn_all, asciis_blen by apply G.
  destruct (Nat.ltb_spec (S len) (length (l_str tr))).
  - rewrite located_slice_ok by (cbn [l_str]; (apply G || lia)). reflexivity.
  - destruct (cref_segs_of 0 (S len - length (l_str tr)) l false) eqn:E. cbn.
    change b with (snd (l0, b)). rewrite <- E. now apply IH.
Qed.

Lemma span_segs_of_0 : forall l len, Forall seg_good l -> snd (span_segs_of 0 len l false) = false.
Proof.
  induction l as [|tr l IH]; intros len HF; destruct len; try reflexivity.
  inversion HF as [|? ? G HF']; subst. cbn [span_segs_of].
  assert (Hn : 0 < length (l_str tr)) by (destruct G as [_ Gn]; destruct (l_str tr); [easy|cbn; lia]).
  rewrite asciis_blen by apply G.
  destruct (Nat.ltb_spec (length (l_str tr)) 0); [lia|]. cbn [Nat.eqb]. cbv zeta.
  rewrite asciis_blen by apply G.
  destruct (Nat.ltb_spec (S len) (length (l_str tr))).
  - rewrite located_slice_ok by (apply G || lia). reflexivity.
  - destruct (span_segs_of 0 (S len - length (l_str tr)) l false) eqn:E. cbn.
    change b with (snd (l0, b)). rewrite <- E. now apply IH.
Qed.

Lemma fold_sg_app_false : forall l, Forall (fun sg : segs => snd sg = false) l ->
  snd (fold_right sg_app ([], false) l) = false.
Proof. induction l as [|a l IH]; intros H; [reflexivity|]. inversion H; subst. cbn. unfold sg_app. rewrite H2. cbn. auto. Qed.

Lemma segs_no_panic : (forall n, wf_node n -> 0 < node_len n -> off0_node n -> snd (node_segs n) = false) /\
                      (forall c, wf_cref_w c -> off0_cref c -> snd (cref_segs c) = false).
Proof.
  assert (Hc : forall l, wf_node (NConst l) -> 0 < node_len (NConst l) -> off0_node (NConst l) -> snd (node_segs (NConst l)) = false)
    by reflexivity.
  assert (Hb : forall n v, node_block n = Some v ->
     Forall (fun c => wf_cref_w c -> off0_cref c -> snd (cref_segs c) = false) (b_content v) ->
     wf_node n -> 0 < node_len n -> off0_node n -> snd (node_segs n) = false).
  { intros n [sens cs] Hv HF HW Hlen H0. rewrite (node_segs_block _ _ Hv).
    apply (wf_node_block _ _ Hv), wf_crefs_weak in HW. cbn [b_content] in *.
    assert (H0' : Forall off0_cref cs).
    { destruct n; cbn in Hv; inversion Hv; subst; cbn in H0; now apply fold_and_Forall. }
    unfold iter_segs. cbv zeta.
    assert (HS : segs_show (fold_right sg_app ([], false) (List.map cref_segs cs)) (crefs_marks cs)).
    { clear - HW. induction HW as [|c cs H HS IH]; [split; [constructor|reflexivity]|].
      cbn [List.map fold_right]. rewrite crefs_marks_cons. apply segs_show_app; [now apply segs_ok_trees|assumption]. }
    assert (HN : snd (fold_right sg_app ([], false) (List.map cref_segs cs)) = false).
    { apply fold_sg_app_false. apply Forall_map. rewrite Forall_forall in *. intros c Hin. apply HF; auto. }
    rewrite HN. apply span_segs_of_0. apply HS. }
  assert (Hr : forall o l n, (wf_node n -> 0 < node_len n -> off0_node n -> snd (node_segs n) = false) ->
     wf_cref_w (CRef o l n) -> off0_cref (CRef o l n) -> snd (cref_segs (CRef o l n)) = false).
  { intros o l n HN HWc (Ho & H0). pose proof HWc as (Hle & HW). subst o. cbn [cref_segs]. cbv zeta.
    destruct (Nat.eq_dec l 0) as [->|Hl]; [destruct (fst (node_segs n)); reflexivity|].
    rewrite HN by (assumption || lia). apply cref_segs_of_0.
    apply (proj1 segs_ok_trees n HW ltac:(lia)). }
  split; [apply (node_ind' _ _ Hc Hb Hr)|apply (cref_ind' _ _ Hc Hb Hr)].
Qed.

(** A span whose trees have only zero offsets: [segments] panics exactly if the
    span's own offset is positive and falls on a boundary between segments. *)
Fixpoint on_boundary (off : nat) (l : list located) : Prop :=
  match l with
  | [] => False
  | tr :: l' => off = length (l_str tr) \/ (length (l_str tr) < off /\ on_boundary (off - length (l_str tr)) l')
  end.

Lemma span_segs_of_panic : forall l off len, Forall seg_good l -> 0 < len ->
  off + len <= length (segments_marks l) ->
  (snd (span_segs_of off len l false) = true <-> 0 < off /\ on_boundary off l).
Proof.
  induction l as [|tr l IH]; intros off len HF Hp Hle; [cbn in Hle; lia|].
  inversion HF as [|? ? G HF']; subst. rewrite segments_marks_cons, app_length, located_marks_len in Hle.
  destruct len as [|len]; [lia|]. cbn [span_segs_of on_boundary].
  assert (Hn : 0 < length (l_str tr)) by (destruct G as [_ Gn]; destruct (l_str tr); [easy|cbn; lia]).
  rewrite asciis_blen by apply G.
  destruct (Nat.ltb_spec (length (l_str tr)) off) as [Ho|Ho].
  - rewrite IH by (assumption || lia). split; intros H.
    + split; [lia|]. right. split; [lia|apply H].
    + destruct H as [_ [H|[_ H]]]; [lia|]. split; [|assumption].
      lia.
  - cbv zeta. destruct (Nat.eq_dec off (length (l_str tr))) as [E|E].
    + split; [intros _; split; [lia|left; assumption]|intros _].
      destruct (Nat.eqb_spec off 0); [lia|]. unfold located_slice.
      rewrite asciis_blen by apply G. destruct (Nat.ltb_spec off (length (l_str tr))); [lia|]. reflexivity.
    + assert (E1 : exists tr1, (if off =? 0 then Ok tr else located_slice tr off (length (l_str tr) - off)) = Ok tr1 /\ seg_good tr1).
      { destruct (Nat.eqb_spec off 0); [exists tr; auto|].
        destruct (located_slice tr off (length (l_str tr) - off)) as [tr1| |] eqn:E1.
        - exists tr1. split; [reflexivity|]. rewrite <- (asciis_blen (l_str tr)) in E1 by apply G. now apply (sg_good_slice _ _ _ G) in E1.
        - rewrite located_slice_ok in E1 by (apply G || lia). discriminate.
        - rewrite located_slice_ok in E1 by (apply G || lia). discriminate. }
      destruct E1 as (tr1 & -> & G1).
      split; [|intros [_ [H|[H _]]]; lia]. intros H. exfalso.
      assert (Hn1 : 0 < length (l_str tr1)) by (destruct G1 as [_ Gn]; destruct (l_str tr1); [easy|cbn; lia]).
      rewrite asciis_blen in H by apply G1.
      destruct (Nat.ltb_spec (S len) (length (l_str tr1))).
      * rewrite located_slice_ok in H by (apply G1 || lia). discriminate.
      * destruct (span_segs_of 0 (S len - length (l_str tr1)) l false) eqn:E3. cbn in H.
        pose proof (span_segs_of_0 l (S len - length (l_str tr1)) HF') as Hf. rewrite E3 in Hf. cbn in Hf. congruence.
Qed.

Lemma span_segs_panic : forall s, wf_span s -> Forall off0_cref (sp_contents s) -> 0 < sp_len s ->
  (snd (span_segs s) = true <->
   0 < sp_off s /\ on_boundary (sp_off s) (fst (fold_right sg_app ([], false) (List.map cref_segs (sp_contents s))))).
Proof.
  intros s H H0 Hp. pose proof (wf_span_contents _ H) as HC. destruct H as (_ & _ & Hle & _).
  unfold span_segs, iter_segs. cbv zeta. set (cs := sp_contents s) in *.
  assert (HS : segs_show (fold_right sg_app ([], false) (List.map cref_segs cs)) (crefs_marks cs)).
  { clear - HC. induction HC as [|c l H HS IH]; [split; [constructor|reflexivity]|].
    cbn [List.map fold_right]. rewrite crefs_marks_cons. apply segs_show_app; [now apply segs_ok_trees|assumption]. }
  assert (HN : snd (fold_right sg_app ([], false) (List.map cref_segs cs)) = false).
  { apply fold_sg_app_false. apply Forall_map. rewrite Forall_forall in *. intros c Hin. apply segs_no_panic; auto. }
  destruct (fold_right sg_app ([], false) (List.map cref_segs cs)) as [l b]. cbn [fst snd] in *. subst b.
  destruct HS as [HF HM]. cbn [fst snd] in *. apply span_segs_of_panic; try assumption.
  rewrite <- HM, crefs_marks_len_w by assumption. assumption.
Qed.

(** ** Offset *)

Lemma offset_walk_sum : forall pre rest acc, offset_walk (length pre) (pre ++ rest) acc = acc + sum_len pre.
Proof.
  induction pre as [|c pre IH]; intros rest acc; cbn.
  - destruct rest; unfold sum_len; cbn; lia.
  - rewrite IH, sum_len_cons. lia.
Qed.

(** What [offset] really computes after removing [n] bytes: it drops the offset
    into the piece where the rest begins, unless that is the first piece. *)
Lemma offset_slice : forall s n s', wf_span s -> n < sp_len s -> slice_from s n = Ok s' ->
  exists pre, sp_contents s = pre ++ sp_contents s' /\
    offset s s' = Ok (match pre with [] => n | _ => n - sp_off s' end) /\ sp_off s' <= sp_off s + n /\
    (pre <> [] -> sp_off s' <= n).
Proof.
  intros s n s' H Hn E. pose proof (wf_span_contents _ H) as HC. destruct H as (HW & Hp & Hle & Hf).
  unfold slice_from in E. rewrite usub_ok in E by lia. cbn [bind] in E. unfold revalidate in E. cbn [sp_len sp_off sp_contents sp_parent] in E.
  destruct (Nat.eqb_spec (sp_len s - n) 0); [lia|].
  destruct (reval_ok (sp_contents s) (sp_off s + n) HC ltac:(lia)) as (pre & off' & cs' & R1 & R2 & R3 & R4 & R5).
  rewrite R1 in E. cbn in E. inversion E; subst s'; clear E. cbn [sp_contents sp_off].
  destruct (Hf ltac:(lia)) as (c & cs & Ec & Hlt).
  exists pre. split; [assumption|]. unfold offset. cbn [sp_contents sp_off]. rewrite R2.
  rewrite usub_ok by (rewrite app_length; lia). cbn [bind]. rewrite app_length.
  replace (length pre + length cs' - length cs') with (length pre) by lia.
  destruct pre as [|p pre].
  - cbn [length]. unfold sum_len in R3; cbn in R3. rewrite usub_ok by lia. ands; [f_equal; lia|lia|easy].
  - cbn [length]. assert (p = c) by (rewrite Ec in R2; now inversion R2). subst p.
    cbn [app]. rewrite usub_ok by lia. cbn [bind]. rewrite offset_walk_sum.
    rewrite sum_len_cons in R3. ands; [f_equal; lia|lia|lia].
Qed.
