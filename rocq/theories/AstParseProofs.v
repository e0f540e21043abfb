(** Proofs about expression parsing: flat text, balanced text, arguments. *)
From Coq Require Import String Lia.
From Verif Require Import Base LocModel EvdModel NomModel AstModel ParseModel AstParseModel
  EvdSpec ParseSpec EvalSpec AstParseSpec EvdProofs EvdProofs2 EvdProofs3 ParseProofs ParseProofs2.
Local Open Scope nat_scope.

(** * Flat text *)

Lemma leaf_node_block : forall n v, node_block n = Some v -> leaf_node n ->
  exists c, b_content v = [c] /\ leaf_cref c.
Proof.
  intros n v E L. destruct n; cbn in E; try discriminate; injection E as <-; cbn in L;
    [destruct b as [sens cs]| destruct value as [sens cs]..]; destruct cs as [|c [|]]; try contradiction; exists c; auto.
Qed.

(** One segment, or none when empty. *)
Definition one_seg (sg : segs) (n : nat) : Prop :=
  snd sg = false /\ (0 < n -> exists s, fst sg = [s] /\ seg_good s /\ length (l_str s) = n).

Lemma located_slice_one : forall s off len, seg_good s -> 0 < len -> off + len <= length (l_str s) ->
  exists s', located_slice s off len = Ok s' /\ seg_good s' /\ length (l_str s') = len.
Proof.
  intros s off len (A & N) P L. rewrite located_slice_ok by (auto; lia). eexists. split; [reflexivity|].
  assert (length (firstn len (skipn off (l_str s))) = len) as K by (rewrite firstn_length, skipn_length; lia).
  split; [|exact K]. split; cbn [l_str].
  - now apply asciis_firstn, asciis_skipn.
  - intros E. rewrite E in K. cbn in K. lia.
Qed.

Lemma cref_segs_one : forall sg n off len, one_seg sg n -> off + len <= n ->
  one_seg (cref_segs_of off len (fst sg) (snd sg)) len.
Proof.
  intros (l, b) n off len (B & O) L. cbn [fst snd] in *. subst b. destruct len as [|len].
  - split; [destruct l; reflexivity|lia].
  - destruct O as (s & -> & G & K); [lia|]. cbn [cref_segs_of]. rewrite asciis_blen by apply G. rewrite K.
    destruct (Nat.ltb_spec n off); [lia|].
    destruct (located_slice_one s off (n - off) G) as (s1 & -> & G1 & K1); [lia..|].
    rewrite asciis_blen by apply G1. rewrite K1. destruct (Nat.ltb_spec (S len) (n - off)).
    + destruct (located_slice_one s1 0 (S len) G1) as (s2 & -> & G2 & K2); [lia..|].
      split; [reflexivity|]. intros _. exists s2. auto.
    + assert (S len = n - off) as Q by lia. rewrite Q, Nat.sub_diag. cbn. split; [reflexivity|]. intros _. exists s1. auto.
Qed.

Lemma leaf_segs : (forall n, wf_node n -> leaf_node n -> 0 < node_len n -> one_seg (node_segs n) (node_len n)) /\
                  (forall c, wf_cref_w c -> leaf_cref c -> one_seg (cref_segs c) (c_len c)).
Proof.
  set (P := fun n => wf_node n -> leaf_node n -> 0 < node_len n -> one_seg (node_segs n) (node_len n)).
  set (Q := fun c => wf_cref_w c -> leaf_cref c -> one_seg (cref_segs c) (c_len c)).
  assert (Hc : forall l, P (NConst l)).
  { intros l W _ L. cbn in *. split; [reflexivity|]. intros _. exists l. cbn. rewrite asciis_blen in * by exact W.
    split; [reflexivity|]. split; [|reflexivity]. split; [exact W|]. intros E. rewrite E in L. cbn in L. lia. }
  assert (Hb : forall n v, node_block n = Some v -> Forall Q (b_content v) -> P n).
  { intros n v Hv HQ W L N. destruct (leaf_node_block _ _ Hv L) as (c & E & Lc).
    apply (wf_node_block _ _ Hv) in W. unfold wf_block in W. rewrite E in *. inversion W as [|x y Wc _]; subst.
    inversion HQ as [|x y Qc _]; subst. destruct (Qc (wf_cref_weak _ Wc) Lc) as (B & O).
    rewrite (node_segs_block _ _ Hv), (node_len_block _ _ Hv). unfold block_len, sum_len. rewrite E. cbn [List.map list_sum fold_right].
    rewrite Nat.add_0_r. destruct O as (s & F & G & K); [now apply wf_cref_pos|].
    unfold iter_segs. cbn [fold_right]. unfold sg_app. rewrite B. cbn [fst snd]. rewrite F. cbn [app].
    destruct (c_len c) as [|m] eqn:M; [apply wf_cref_pos in Wc; lia|]. cbn [span_segs_of].
    rewrite asciis_blen by apply G. destruct (Nat.ltb_spec (length (l_str s)) 0); [lia|]. cbn [Nat.eqb].
    rewrite asciis_blen by apply G. rewrite K. destruct (Nat.ltb_spec (S m) (S m)); [lia|].
    rewrite Nat.sub_diag. cbn. split; [reflexivity|]. intros _. exists s. auto. }
  assert (Hr : forall o l n, P n -> Q (CRef o l n)).
  { intros o l n HP (W & Wn) L. cbn in L. cbn [cref_segs c_len]. destruct (Nat.eq_dec l 0) as [->|Z].
    - split; [|lia]. destruct (node_segs n) as ([|], ?); reflexivity.
    - apply (cref_segs_one _ (node_len n)); [|exact W]. apply HP; auto; lia. }
  split; [apply (node_ind' P Q Hc Hb Hr)|apply (cref_ind' P Q Hc Hb Hr)].
Qed.

Lemma flat_segs_of : forall cs off len, Forall wf_cref_w cs -> Forall leaf_cref cs -> off + len <= sum_len cs ->
  (0 < len -> exists c cs', cs = c :: cs' /\ off < c_len c) ->
  snd (iter_segs (List.map cref_segs cs) off len) = false.
Proof.
  assert (H0 : forall cs, Forall wf_cref_w cs -> Forall leaf_cref cs ->
    snd (fold_right sg_app ([], false) (List.map cref_segs cs)) = false /\
    Forall seg_good (fst (fold_right sg_app ([], false) (List.map cref_segs cs)))).
  { induction cs as [|c cs IH]; intros W L; [split; constructor|]. inversion W; inversion L; subst.
    destruct IH as (A & B); [assumption..|]. destruct (proj2 leaf_segs c) as (C & D); [assumption..|].
    cbn [List.map fold_right]. unfold sg_app. rewrite C. cbn [fst snd]. split; [exact A|].
    apply Forall_app. split; [|exact B]. destruct (Nat.eq_dec (c_len c) 0) as [Z|Z].
    - destruct c as [o l n]. cbn in Z. subst l. cbn. destruct (node_segs n) as ([|],?); constructor.
    - destruct D as (s & -> & G & _); [lia|]. auto. }
  intros cs off len W L B F. unfold iter_segs. destruct len as [|len].
  { destruct (fold_right sg_app ([], false) (List.map cref_segs cs)) as ([|],?); reflexivity. }
  destruct F as (c & cs' & -> & O); [lia|]. inversion W; inversion L; subst.
  destruct (H0 cs') as (A & G); [assumption..|]. destruct (proj2 leaf_segs c) as (C & D); [assumption..|].
  destruct D as (s & E & Gs & K); [lia|].
  cbn [List.map fold_right]. unfold sg_app at 1 3. rewrite C. cbn [fst snd]. rewrite E, A. cbn [app].
  cbn [span_segs_of]. rewrite asciis_blen by apply Gs. rewrite K.
  destruct (Nat.ltb_spec (c_len c) off); [lia|]. destruct (Nat.eqb_spec off 0) as [->|Z].
  - rewrite asciis_blen by apply Gs. destruct (Nat.ltb_spec (S len) (length (l_str s))).
    + destruct (located_slice_one s 0 (S len) Gs) as (s2 & -> & G2 & K2); [lia..|]. reflexivity.
    + pose proof (span_segs_of_0 (fst (fold_right sg_app ([], false) (List.map cref_segs cs'))) (S len - length (l_str s)) G) as X.
      destruct (span_segs_of 0 _ _ false). exact X.
  - destruct (located_slice_one s off (c_len c - off) Gs) as (s1 & -> & G1 & K1); [lia..|].
    rewrite asciis_blen by apply G1. destruct (Nat.ltb_spec (S len) (length (l_str s1))).
    + destruct (located_slice_one s1 0 (S len) G1) as (s2 & -> & G2 & K2); [lia..|]. reflexivity.
    + pose proof (span_segs_of_0 (fst (fold_right sg_app ([], false) (List.map cref_segs cs'))) (S len - length (l_str s1)) G) as X.
      destruct (span_segs_of 0 _ _ false). exact X.
Qed.

Lemma flat_no_panic : forall s, wf_span s -> flat s -> snd (span_segs s) = false.
Proof.
  intros s W F. apply flat_segs_of; [now apply wf_span_contents|exact F|apply W|apply W].
Qed.

(** * Text written in one go *)

Section Parted.
  Context {A : Type} (m : A -> list placed).
  Lemma parted_suffix : forall p q, parted m (p ++ q) -> parted m q.
  Proof.
    intros p q H p' q' u x y v E U V. apply (H (p ++ p') q' (concat (List.map m p) ++ u) x y v); [rewrite E; apply app_assoc| |exact V].
    rewrite map_app, concat_app, U. apply app_assoc.
  Qed.
  Lemma parted_nil : parted m [].
  Proof. intros p q u x y v E U V. symmetry in E. apply app_eq_nil in E as (-> & ->). discriminate. Qed.
  Lemma parted_one : forall a, parted m [a].
  Proof.
    intros a p q u x y v E U V. destruct p as [|b p]; [destruct u; discriminate|]. injection E as <- E.
    symmetry in E. apply app_eq_nil in E as (-> & ->). discriminate.
  Qed.
  (** Shortening the first part at its front. *)
  Lemma parted_first : forall a a' l w, m a = w ++ m a' -> parted m (a :: l) -> parted m (a' :: l).
  Proof.
    intros a a' l w W H p q u x y v E U V. destruct p as [|b p]; [destruct u; discriminate|]. injection E as <- E.
    apply (H (a :: p) q (w ++ u) x y v); [cbn; now rewrite E| |exact V]. cbn in U |- *. rewrite W, <- !app_assoc. now rewrite U.
  Qed.

  (** [r] is a beginning of [l], its last part perhaps shortened. *)
  Definition cut (l r : list A) : Prop := forall p q, r = p ++ q -> q <> [] ->
    exists Q v, l = p ++ Q /\ concat (List.map m Q) = concat (List.map m q) ++ v.
  Lemma cut_parted : forall l r, cut l r -> parted m l -> parted m r.
  Proof.
    intros l r C H p q u x y v E U V. assert (N : q <> []) by (intros ->; discriminate).
    destruct (C p q E N) as (Q & w & El & EQ). apply (H p Q u x y (v ++ w)); auto. now rewrite EQ, V.
  Qed.
  Lemma cut_cons : forall a l r, cut l r -> cut (a :: l) (a :: r).
  Proof.
    intros a l r C p q E N. destruct p as [|b p].
    - cbn in E. subst q. destruct r as [|b r].
      + exists (a :: l), (concat (List.map m l)). split; [reflexivity|]. cbn. now rewrite app_nil_r.
      + destruct (C [] (b :: r) eq_refl ltac:(discriminate)) as (Q & v & -> & EQ). exists (a :: Q), v. split; [reflexivity|].
        cbn in EQ |- *. now rewrite EQ, <- !app_assoc.
    - injection E as <- E. destruct (C p q E N) as (Q & v & -> & EQ). exists Q, v. auto.
  Qed.
End Parted.
Arguments cut {A}.

Lemma span_segs_cut : forall l n, Forall seg_good l -> cut located_marks l (fst (span_segs_of 0 n l false)).
Proof.
  induction l as [|tr l IH]; intros n G; (destruct n as [|n]; [intros p q E N; symmetry in E; apply app_eq_nil in E as (_ & ->); now contradiction N|]).
  - intros p q E N. symmetry in E. apply app_eq_nil in E as (_ & ->). now contradiction N.
  - inversion G as [|? ? Gt Gl]; subst. cbn [span_segs_of]. destruct (blen (l_str tr) <? 0) eqn:Z; [apply Nat.ltb_lt in Z; lia|].
    cbn [Nat.eqb]. cbv zeta. destruct (S n <? blen (l_str tr)).
    + destruct (located_slice tr 0 (S n)) as [tr2| |] eqn:E2; try (intros p q E N; symmetry in E; apply app_eq_nil in E as (_ & ->); now contradiction N).
      destruct (sg_good_prefix _ _ _ Gt (Nat.lt_0_succ n) E2) as (_ & M2). intros p q E N. cbn [fst] in E. destruct p as [|b p].
      * cbn in E. subst q. exists (tr :: l), (skipn (S n) (located_marks tr) ++ segments_marks l). split; [reflexivity|].
        cbn [List.map concat]. rewrite M2, app_nil_r, app_assoc, firstn_skipn. reflexivity.
      * injection E as _ E. symmetry in E. apply app_eq_nil in E as (_ & ->). now contradiction N.
    + specialize (IH (S n - blen (l_str tr)) Gl). destruct (span_segs_of 0 _ l false) as (r & b). cbn [fst] in *. now apply cut_cons.
Qed.

Lemma span_segs_parted : forall l off n, Forall seg_good l -> parted located_marks l -> parted located_marks (fst (span_segs_of off n l false)).
Proof.
  induction l as [|tr l IH]; intros off n G P; (destruct n as [|n]; [apply parted_nil|]).
  - apply parted_nil.
  - inversion G as [|? ? Gt Gl]; subst. cbn [span_segs_of]. destruct (blen (l_str tr) <? off).
    + apply IH; [exact Gl|]. exact (parted_suffix _ [tr] l P).
    + assert (S : forall tr1, (if off =? 0 then Ok tr else located_slice tr off (blen (l_str tr) - off)) = Ok tr1 -> seg_good tr1 /\ exists w, located_marks tr = w ++ located_marks tr1).
      { intros tr1. destruct (off =? 0).
        - intros E. inversion E; subst. split; [exact Gt|]. exists []. reflexivity.
        - intros E. destruct (sg_good_slice _ _ _ Gt E) as (G1 & M1 & _). split; [exact G1|]. exists (firstn off (located_marks tr)).
          rewrite M1. symmetry. apply firstn_skipn. }
      cbv zeta. destruct (if off =? 0 then _ else _) as [tr1| |]; try apply parted_nil. destruct (S _ eq_refl) as (G1 & w & M1).
      pose proof (parted_first _ _ _ _ _ M1 P) as P1. destruct (Datatypes.S n <? blen (l_str tr1)).
      * destruct (located_slice tr1 0 (Datatypes.S n)); [apply parted_one|apply parted_nil..].
      * pose proof (span_segs_cut l (Datatypes.S n - blen (l_str tr1)) Gl) as C. destruct (span_segs_of 0 _ l false) as (r & b). cbn [fst] in *.
        exact (cut_parted _ _ _ (cut_cons _ tr1 _ _ C) P1).
Qed.

(** The same parts, apart from empty ones. *)
Section SameParts.
  Context {A B : Type} (m1 : A -> list placed) (m2 : B -> list placed).
  Inductive same_parts : list A -> list B -> Prop :=
  | OE_nil : same_parts [] []
  | OE_none : forall c cs g, m1 c = [] -> same_parts cs g -> same_parts (c :: cs) g
  | OE_one : forall c cs s g, m2 s = m1 c -> same_parts cs g -> same_parts (c :: cs) (s :: g).

  Lemma same_parts_split : forall cs g, same_parts cs g -> forall p q, g = p ++ q ->
    exists P Q, cs = P ++ Q /\ concat (List.map m1 P) = concat (List.map m2 p) /\ concat (List.map m1 Q) = concat (List.map m2 q).
  Proof.
    intros cs g H. induction H as [|c cs g N H IH|c cs s g M H IH]; intros p q E.
    - symmetry in E. apply app_eq_nil in E as (-> & ->). exists [], []. auto.
    - destruct (IH p q E) as (P & Q & -> & EP & EQ). exists (c :: P), Q. split; [reflexivity|]. split; [|exact EQ].
      cbn. rewrite N. exact EP.
    - destruct p as [|s' p].
      + cbn in E. subst q. destruct (IH [] g eq_refl) as (P & Q & -> & EP & EQ). exists [], (c :: P ++ Q). split; [reflexivity|]. split; [reflexivity|].
        cbn. rewrite <- M, map_app, concat_app, EP, EQ. reflexivity.
      + injection E as <- E. destruct (IH p q E) as (P & Q & -> & EP & EQ). exists (c :: P), Q. split; [reflexivity|]. split; [|exact EQ].
        cbn. rewrite M, EP. reflexivity.
  Qed.

  Lemma same_parts_parted : forall cs g, same_parts cs g -> parted m1 cs -> parted m2 g.
  Proof.
    intros cs g H P p q u x y v E U V. destruct (same_parts_split _ _ H p q E) as (P' & Q' & -> & EP & EQ).
    apply (P P' Q' u x y v eq_refl); [exact (eq_trans EP U)|exact (eq_trans EQ V)].
  Qed.
End SameParts.

(** The segments of the pieces of a text, one for every piece that is not empty. *)
Notation one_each := (same_parts cref_marks located_marks).

Lemma flat_one_each : forall cs, Forall wf_cref_w cs -> Forall leaf_cref cs ->
  snd (fold_right sg_app ([], false) (List.map cref_segs cs)) = false /\
  one_each cs (fst (fold_right sg_app ([], false) (List.map cref_segs cs))).
Proof.
  induction cs as [|c cs IH]; intros W L; [split; constructor|]. inversion W as [|? ? Wc Wcs]; inversion L as [|? ? Lc Lcs]; subst.
  destruct (IH Wcs Lcs) as (A & B). destruct (proj2 leaf_segs c Wc Lc) as (C & D). pose proof (proj2 segs_ok_trees c Wc) as (_ & M). rewrite C in M.
  cbn [List.map fold_right]. unfold sg_app. rewrite C. cbn [fst snd]. split; [exact A|]. destruct (Nat.eq_dec (c_len c) 0) as [Z|Z].
  - assert (E : fst (cref_segs c) = []). { destruct c as [o l n]. cbn in Z. subst l. cbn. destruct (node_segs n) as ([|],?); reflexivity. }
    rewrite E in *. apply OE_none; [exact M|exact B].
  - destruct D as (s & E & _); [lia|]. rewrite E in *. cbn [app]. apply OE_one; [|exact B]. rewrite M. symmetry. apply app_nil_r.
Qed.

Lemma tidy_segs : forall s, wf_span s -> tidy s -> parted located_marks (fst (span_segs s)).
Proof.
  intros s W (F & P). unfold span_segs, iter_segs. cbv zeta. destruct (flat_one_each (sp_contents s) (wf_span_contents s W) F) as (B & O).
  rewrite B. apply span_segs_parted; [|exact (same_parts_parted _ _ _ _ O P)].
  assert (H : Forall (fun c => segs_show (cref_segs c) (cref_marks c)) (sp_contents s)).
  { eapply Forall_impl; [|exact (wf_span_contents s W)]. apply segs_ok_trees. }
  clear - H. induction H as [|c cs H HS IH]; [constructor|]. cbn [List.map fold_right]. unfold sg_app. destruct H as (G & _).
  destruct (cref_segs c) as (l & b). cbn [fst snd] in *. destruct b; [exact G|]. cbn. now apply Forall_app.
Qed.

Lemma flat_sub : forall s a n s', flat s -> sub s a n s' -> flat s'.
Proof.
  intros s a n s' F (_ & _ & _ & _ & _ & pre & E & _). unfold flat in *. rewrite E in F. now apply Forall_app in F.
Qed.

Lemma tidy_sub : forall s a n s', tidy s -> sub s a n s' -> tidy s'.
Proof.
  intros s a n s' (F & P) S. split; [exact (flat_sub _ _ _ _ F S)|]. destruct S as (_ & _ & _ & _ & _ & pre & E & _). rewrite E in P.
  exact (parted_suffix _ _ _ P).
Qed.

Lemma block_span_flat : forall b, flat_block b -> flat (block_span b).
Proof. intros b H. exact H. Qed.

(** Location of a span: the first mark, or a panic on text that is not flat. *)
Lemma location_cases : forall s, wf_span s ->
  match span_location s with
  | Ok l => l = option_map snd (hd_error (span_marks s))
  | Panic => ~ flat s
  | OutOfFuel => False
  end.
Proof.
  intros s W. destruct (Nat.eq_dec (sp_len s) 0) as [Z|Z].
  - unfold span_location, span_segs, iter_segs. rewrite Z.
    assert (span_marks s = []) as -> by (apply length_zero_iff_nil; rewrite span_marks_len; auto).
    destruct (fold_right _ _ _) as ([|],?); reflexivity.
  - pose proof (flat_no_panic s W) as F. assert (0 < sp_len s) as P by lia. pose proof (span_location_ok s W P) as L.
    unfold span_location in *. destruct (span_segs s) as ([|x l], [|]); cbn [snd] in *.
    + intros G. specialize (F G). discriminate.
    + contradiction.
    + symmetry. exact L.
    + symmetry. exact L.
Qed.

(** The segments of a span: constants that spell it, or a panic. *)
Lemma constants_cases : forall s, wf_span s ->
  match constants_of s with
  | Ok cs => exists g, cs = List.map a_constant g /\ spells g (span_marks s) /\ (tidy s -> parted located_marks g)
  | Panic => ~ flat s
  | OutOfFuel => False
  end.
Proof.
  intros s W. unfold constants_of. pose proof (flat_no_panic s W) as F. pose proof (tidy_segs s W) as T. pose proof (span_segs_ok s W) as (G & S).
  destruct (span_segs s) as (l, [|]); cbn [fst snd] in *.
  - intros X. specialize (F X). discriminate.
  - exists l. split; [reflexivity|]. split; [|exact T]. split; [now symmetry|]. eapply Forall_impl; [|exact G]. intros a (_ & N). exact N.
Qed.

Lemma first_segment_one : forall s c, wf_span s -> span_marks s = [c] ->
  match first_segment s with
  | Ok l => l = Located (snd c) [fst c]
  | Panic => ~ flat s
  | OutOfFuel => False
  end.
Proof.
  intros s c W E. unfold first_segment. pose proof (flat_no_panic s W) as F. pose proof (span_segs_ok s W) as (G & S).
  assert (H : forall x l rest, Forall seg_good (x :: l) -> [c] = segments_marks (x :: l) ++ rest -> x = Located (snd c) [fst c]).
  { intros x l rest Gx Sx. inversion Gx as [|y z (_ & N) Gl]; subst. rewrite segments_marks_cons in Sx.
    destruct x as [loc str]. unfold located_marks in Sx. cbn [l_loc l_str] in *. destruct str as [|a str]; [now contradiction N|].
    cbn in Sx. injection Sx as Ex Sx. destruct str; [|discriminate]. subst c. reflexivity. }
  destruct (span_segs s) as ([|x l], [|]); cbn [fst snd] in *.
  - intros X. specialize (F X). discriminate.
  - rewrite E in S. discriminate.
  - destruct S as (rest & S). rewrite E in S. eapply H; eauto.
  - rewrite E in S. eapply (H x l []); [exact G|]. rewrite app_nil_r. exact S.
Qed.

(** * Counting *)

Lemma count_app : forall c t u, count c (t ++ u) = count c t + count c u.
Proof. intros. unfold count. rewrite filter_app, app_length. reflexivity. Qed.
Lemma count_cons : forall c a t, count c (a :: t) = (if (fst a =? c)%N then 1 else 0) + count c t.
Proof. intros. unfold count. cbn. destruct (fst a =? c)%N; reflexivity. Qed.

(** From a text with [k] groups open. *)
Definition opened_from (k : nat) (o c : char) (t : list placed) : Prop :=
  forall p q, t = p ++ q -> count c p <= k + count o p.

Lemma opened_from_nil : forall k o c, opened_from k o c [].
Proof. intros k o c p q E. symmetry in E. apply app_eq_nil in E as (-> & _). cbn. lia. Qed.

Lemma opened_from_cons : forall k o c a t k', o <> c ->
  (fst a = o -> k' = S k) -> (fst a = c -> k = S k') -> (fst a <> o -> fst a <> c -> k' = k) ->
  opened_from k' o c t -> opened_from k o c (a :: t).
Proof.
  intros k o c a t k' N A B C H p q E. destruct p as [|x p]; [cbn; lia|]. injection E as <- E.
  specialize (H p q E). rewrite !count_cons.
  destruct (N.eqb_spec (fst a) o); destruct (N.eqb_spec (fst a) c); try congruence.
  - rewrite A in H by assumption. lia.
  - rewrite B by assumption. lia.
  - rewrite C in H by assumption. lia.
Qed.

Lemma find_balance_ok : forall o c, o <> c -> forall t h k,
  match find_balance o c k (combine (seq h (List.length t)) (List.map fst t)) false with
  | Ok (Some i) => exists inner x rest, t = inner ++ x :: rest /\ fst x = c /\ i = h + List.length inner /\
      opened_from k o c inner /\ k + count o inner = count c inner
  | Ok None => opened_from k o c t
  | _ => False
  end.
Proof.
  intros o c N. induction t as [|a t IH]; intros h k.
  - cbn. apply opened_from_nil.
  - cbn [List.length seq List.map combine find_balance].
    assert (G : forall k', (fst a = o -> k' = S k) -> (fst a = c -> k = S k') -> (fst a <> o -> fst a <> c -> k' = k) ->
      match find_balance o c k' (combine (seq (S h) (List.length t)) (List.map fst t)) false with
      | Ok (Some i) => exists inner x rest, a :: t = inner ++ x :: rest /\ fst x = c /\ i = h + List.length inner /\
          opened_from k o c inner /\ k + count o inner = count c inner
      | Ok None => opened_from k o c (a :: t)
      | _ => False
      end).
    { intros k' A B C. specialize (IH (S h) k'). destruct (find_balance _ _ _ _ _) as [[i|]| |]; auto.
      - destruct IH as (inner & x & rest & -> & X & -> & O & Q). exists (a :: inner), x, rest. ands; auto.
        + cbn. lia.
        + eapply opened_from_cons; eauto.
        + rewrite !count_cons. destruct (N.eqb_spec (fst a) o); destruct (N.eqb_spec (fst a) c); try congruence.
          * rewrite A in Q by assumption. lia.
          * rewrite B by assumption. lia.
          * rewrite C in Q by assumption. lia.
      - eapply opened_from_cons; eauto. }
    destruct (N.eqb_spec (fst a) o) as [E|E]; [apply G; intros; congruence|].
    destruct (N.eqb_spec (fst a) c) as [E2|E2].
    + destruct k as [|k].
      * exists [], a, t. ands; auto; try (cbn; lia); apply opened_from_nil.
      * apply G; intros; congruence.
    + apply G; intros; congruence.
Qed.

Lemma app_prefix : forall {A} (a b c d : list A), a ++ b = c ++ d -> List.length a <= List.length c -> exists e, c = a ++ e /\ b = e ++ d.
Proof.
  induction a as [|x a IH]; intros b c d E L; [now exists c|]. destruct c as [|y c]; [cbn in L; lia|].
  injection E as <- E. destruct (IH _ _ _ E) as (e & -> & ->); [cbn in L; lia|]. now exists e.
Qed.

Lemma group_unique : forall o c t i r i' r', o <> c -> group o c t i r -> group o c t i' r' -> i = i' /\ r = r'.
Proof.
  assert (H : forall o c t i r i' r', o <> c -> group o c t i r -> group o c t i' r' -> List.length i <= List.length i' -> i = i' /\ r = r').
  { intros o c t i r i' r' N (A & B & x & X & E) (A' & B' & x' & X' & E') L. rewrite E in E'.
    destruct (app_prefix _ _ _ _ E' L) as (e & -> & F). destruct e as [|y e].
    - rewrite app_nil_r. cbn in F. injection F as _ ->. auto.
    - cbn in F. injection F as <- F. exfalso.
      specialize (A' (i ++ [x]) e). rewrite <- app_assoc in A'. specialize (A' eq_refl).
      rewrite !count_app, !count_cons in A'. cbn [count] in A'. rewrite X, N.eqb_refl in A'.
      destruct (N.eqb_spec c o); [congruence|]. unfold all_closed in B. cbn in A'. lia. }
  intros o c t i r i' r' N G G'. destruct (le_ge_dec (List.length i) (List.length i')); [eapply H; eauto|].
  destruct (H o c t i' r' i r N G' G) as (-> & ->); auto.
Qed.

Lemma opened_no_group : forall o c t, o <> c -> opened_from 0 o c t -> forall i r, ~ group o c t i r.
Proof.
  intros o c t N H i r (A & B & x & X & E). specialize (H (i ++ [x]) r). rewrite <- app_assoc in H.
  specialize (H E). rewrite !count_app, !count_cons in H. rewrite X, N.eqb_refl in H.
  destruct (N.eqb_spec c o); [congruence|]. unfold all_closed in B. cbn in H. lia.
Qed.

(** * Arguments *)

Lemma in_comma : comma <> open_paren /\ comma <> close_paren /\ comma <> open_brace /\ comma <> close_brace.
Proof. ands; discriminate. Qed.

(** [paren], [curly]: what is open at the start. *)
Definition outside_from (paren curly : nat) (t : list placed) : Prop :=
  paren + count open_paren t = count close_paren t /\ curly + count open_brace t = count close_brace t.
Definition no_comma (paren curly : nat) (t : list placed) : Prop :=
  forall p x q, t = p ++ x :: q -> fst x = comma -> ~ outside_from paren curly p.

Lemma no_comma_nil : forall a b, no_comma a b [].
Proof. intros a b p x q E. destruct p; discriminate. Qed.

Lemma scan_ok : forall t h a b,
  match scan_argument a b (combine (seq h (List.length t)) (List.map fst t)) false with
  | Ok (ArgComma j) => exists arg x rest, t = arg ++ x :: rest /\ fst x = comma /\ j = h + List.length arg /\
      opened_from a open_paren close_paren arg /\ opened_from b open_brace close_brace arg /\
      no_comma a b arg /\ outside_from a b arg
  | Ok ArgEnd => opened_from a open_paren close_paren t /\ opened_from b open_brace close_brace t /\ no_comma a b t
  | Ok ArgUnbalanced => exists p q, t = p ++ q /\ no_comma a b p /\
      (~ opened_from a open_paren close_paren p \/ ~ opened_from b open_brace close_brace p)
  | _ => False
  end.
Proof.
  induction t as [|y t IH]; intros h a b.
  - cbn. ands; [apply opened_from_nil..|apply no_comma_nil].
  - cbn [List.length seq List.map combine scan_argument].
    assert (NC : forall a' b' u, (fst y = comma -> ~ (a = 0 /\ b = 0)) ->
       (forall p, outside_from a b (y :: p) -> outside_from a' b' p) -> no_comma a' b' u -> no_comma a b (y :: u)).
    { intros a' b' u C O H p x q E X. destruct p as [|z p].
      - injection E as <- <-. intros (U & V). cbn in U, V. apply C; auto. split; lia.
      - injection E as <- E. intros Z. apply (H p x q E X). auto. }
    assert (G : forall a' b', (fst y = comma -> ~ (a = 0 /\ b = 0)) ->
      (fst y = open_paren -> a' = S a) -> (fst y = close_paren -> a = S a') -> (fst y <> open_paren -> fst y <> close_paren -> a' = a) ->
      (fst y = open_brace -> b' = S b) -> (fst y = close_brace -> b = S b') -> (fst y <> open_brace -> fst y <> close_brace -> b' = b) ->
      match scan_argument a' b' (combine (seq (S h) (List.length t)) (List.map fst t)) false with
      | Ok (ArgComma j) => exists arg x rest, y :: t = arg ++ x :: rest /\ fst x = comma /\ j = h + List.length arg /\
          opened_from a open_paren close_paren arg /\ opened_from b open_brace close_brace arg /\
          no_comma a b arg /\ outside_from a b arg
      | Ok ArgEnd => opened_from a open_paren close_paren (y :: t) /\ opened_from b open_brace close_brace (y :: t) /\ no_comma a b (y :: t)
      | Ok ArgUnbalanced => exists p q, y :: t = p ++ q /\ no_comma a b p /\
          (~ opened_from a open_paren close_paren p \/ ~ opened_from b open_brace close_brace p)
      | _ => False
      end).
    { intros a' b' C A1 A2 A3 B1 B2 B3.
      assert (O : forall p, outside_from a b (y :: p) <-> outside_from a' b' p).
      { intros p. unfold outside_from. rewrite !count_cons.
        destruct (N.eqb_spec (fst y) open_paren); destruct (N.eqb_spec (fst y) close_paren); try congruence;
        destruct (N.eqb_spec (fst y) open_brace); destruct (N.eqb_spec (fst y) close_brace); try congruence;
        repeat match goal with
        | H : ?P -> _, K : ?P |- _ => specialize (H K)
        | H : ?P -> ?Q -> _, K : ?P, L : ?Q |- _ => specialize (H K L) end; lia. }
      assert (OP : forall p, opened_from a' open_paren close_paren p -> opened_from a open_paren close_paren (y :: p)).
      { intros p. apply opened_from_cons; auto. discriminate. }
      assert (OB : forall p, opened_from b' open_brace close_brace p -> opened_from b open_brace close_brace (y :: p)).
      { intros p. apply opened_from_cons; auto. discriminate. }
      assert (OP' : forall p, opened_from a open_paren close_paren (y :: p) -> opened_from a' open_paren close_paren p).
      { intros p H u v E. subst p. specialize (H (y :: u) v eq_refl). rewrite !count_cons in H.
        destruct (N.eqb_spec (fst y) open_paren); destruct (N.eqb_spec (fst y) close_paren); try congruence;
        repeat match goal with
        | H : ?P -> _, K : ?P |- _ => specialize (H K)
        | H : ?P -> ?Q -> _, K : ?P, L : ?Q |- _ => specialize (H K L) end; lia. }
      assert (OB' : forall p, opened_from b open_brace close_brace (y :: p) -> opened_from b' open_brace close_brace p).
      { intros p H u v E. subst p. specialize (H (y :: u) v eq_refl). rewrite !count_cons in H.
        destruct (N.eqb_spec (fst y) open_brace); destruct (N.eqb_spec (fst y) close_brace); try congruence;
        repeat match goal with
        | H : ?P -> _, K : ?P |- _ => specialize (H K)
        | H : ?P -> ?Q -> _, K : ?P, L : ?Q |- _ => specialize (H K L) end; lia. }
      specialize (IH (S h) a' b'). destruct (scan_argument _ _ _ _) as [[j| |]| |]; auto.
      - destruct IH as (arg & x & rest & -> & X & -> & Q1 & Q2 & Q3 & Q4). exists (y :: arg), x, rest. ands; auto.
        + cbn. lia.
        + eapply NC; eauto. intros p. apply O.
        + now apply O.
      - destruct IH as (Q1 & Q2 & Q3). ands; auto. eapply NC; eauto. intros p. apply O.
      - destruct IH as (p & q & -> & Q3 & Q). exists (y :: p), q. ands; auto.
        + eapply NC; eauto. intros p0. apply O.
        + destruct Q as [Q|Q]; [left|right]; auto. }
    unfold c_lparen, c_rparen, c_lbrace, c_rbrace, c_comma.
    destruct (N.eqb_spec (fst y) open_paren) as [E1|E1]; [apply G; intros; try congruence; auto|].
    destruct (N.eqb_spec (fst y) close_paren) as [E2|E2].
    { destruct a as [|a].
      - exists [y], t. ands; auto.
        + intros p x q E X. destruct p as [|? [|]]; [injection E as <- <-; congruence|discriminate..].
        + left. intros H. specialize (H [y] [] eq_refl). rewrite !count_cons, E2 in H. cbn in H. lia.
      - apply G; intros; congruence. }
    destruct (N.eqb_spec (fst y) open_brace) as [E3|E3]; [apply G; intros; congruence|].
    destruct (N.eqb_spec (fst y) close_brace) as [E4|E4].
    { destruct b as [|b].
      - exists [y], t. ands; auto.
        + intros p x q E X. destruct p as [|? [|]]; [injection E as <- <-; congruence|discriminate..].
        + right. intros H. specialize (H [y] [] eq_refl). rewrite !count_cons, E4 in H. cbn in H. lia.
      - apply G; intros; congruence. }
    destruct (N.eqb_spec (fst y) comma) as [E5|E5].
    + destruct (Nat.eqb_spec b 0) as [Zb|Zb]; destruct (Nat.eqb_spec a 0) as [Za|Za]; cbn [andb];
        try (apply G; intros; try congruence; lia).
      subst. exists [], y, t. ands; auto; try apply opened_from_nil; try apply no_comma_nil; try (cbn; lia).
      split; reflexivity.
    + apply G; intros; congruence.
Qed.

Lemma argument_unique : forall t a r a' r', argument t a r -> argument t a' r' -> a = a' /\ r = r'.
Proof.
  assert (H : forall t a r a' r', argument t a r -> argument t a' r' -> List.length a <= List.length a' -> a = a' /\ r = r').
  { intros t a r a' r' (E & _ & _ & _ & R) (E' & _ & _ & C & _) L. rewrite E in E'.
    destruct (app_prefix _ _ _ _ E' L) as (e & -> & F). destruct e as [|y e].
    - rewrite app_nil_r. auto.
    - exfalso. cbn in F. subst r. destruct R as (X & O). exact (C a y e eq_refl X O). }
  intros t a r a' r' G G'. destruct (le_ge_dec (List.length a) (List.length a')); [eapply H; eauto|].
  destruct (H t a' r' a r G' G) as (-> & ->); auto.
Qed.

Lemma unbalanced_no_argument : forall p q,
  no_comma 0 0 p -> (~ opened_from 0 open_paren close_paren p \/ ~ opened_from 0 open_brace close_brace p) ->
  forall a r, ~ argument (p ++ q) a r.
Proof.
  intros p q N O a r (E & A & B & _ & R). destruct (le_ge_dec (List.length p) (List.length a)) as [L|L].
  - destruct (app_prefix _ _ _ _ E L) as (e & -> & _). destruct O as [O|O]; apply O; intros u v X; subst p.
    + apply (A u (v ++ e)). now rewrite <- app_assoc.
    + apply (B u (v ++ e)). now rewrite <- app_assoc.
  - symmetry in E. destruct (app_prefix _ _ _ _ E L) as (e & -> & X). destruct r as [|x r].
    + symmetry in X. apply app_eq_nil in X as (-> & ->). rewrite app_nil_r in *. destruct O as [O|O]; apply O.
      * exact A.
      * exact B.
    + destruct e as [|y e].
      * rewrite app_nil_r in *. destruct O as [O|O]; apply O; [exact A|exact B].
      * injection X as -> X. destruct R as (C & D). exact (N a y e eq_refl C D).
Qed.
