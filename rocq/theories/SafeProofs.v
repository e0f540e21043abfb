(** Proofs about the engine as a whole, first part: every function keeps texts
    and the state well-formed and never exhausts its inner fuel, whatever the
    input. *)
From Coq Require Import String Lia.
From Verif Require Import Base LocModel EvdModel NomModel AstModel ParseModel AstParseModel EngineModel
  EvdSpec DbSpec ParseSpec EvalSpec AstParseSpec EngineSpec DbProofs EvdProofs EvdProofs2 EvdProofs3 ParseProofs ParseProofs2
  ParseProofs3 ParseProofs4 ParseProofs5 SubstProofs EvalProofs EvalProofs2 EvalProofs3 EvalProofs4
  AstParseProofs AstParseProofs2 AstParseProofs3.
Local Open Scope nat_scope.

(** [safe F P r]: if [r] is a value, [P] holds of it; it may be a panic; it is
    out of fuel only if [F]. *)
Definition safe {A} (F : Prop) (P : A -> Prop) (r : res A) : Prop :=
  match r with Ok a => P a | Panic => True | OutOfFuel => F end.

Lemma safe_bind : forall {A B} F (P : A -> Prop) (Q : B -> Prop) r f,
  safe F P r -> (forall a, P a -> safe F Q (f a)) -> safe F Q (bind r f).
Proof. intros A B F P Q [a| |] f H K; cbn in *; auto. Qed.

Lemma safe_weak : forall {A} (F G : Prop) (P Q : A -> Prop) r, safe F P r -> (F -> G) -> (forall a, P a -> Q a) -> safe G Q r.
Proof. intros A F G P Q [a| |] H I K; cbn in *; auto. Qed.

Lemma safe_false : forall {A} F (P : A -> Prop) r, safe False P r -> safe F P r.
Proof. intros. eapply safe_weak; eauto. contradiction. Qed.

Lemma safe_usub : forall F (P : nat -> Prop) a b, (b <= a -> P (a - b)) -> safe F P (usub a b).
Proof. intros F P a b H. unfold usub. destruct (Nat.leb_spec b a); cbn; auto. Qed.

Lemma safe_unwrap : forall {A} F (P : A -> Prop) o, (forall a, o = Some a -> P a) -> safe F P (unwrap o).
Proof. intros A F P [a|] H; cbn; auto. Qed.

Lemma safe_rassert : forall F (P : unit -> Prop) b, (b = true -> P tt) -> safe F P (rassert b).
Proof. intros F P [|] H; cbn; auto. Qed.


Lemma sub_gspan : forall s a n s', gspan s -> sub s a n s' -> gspan s'.
Proof. intros s a n s' (W & P) S. split; [apply S|]. destruct S as (_ & _ & _ & _ & -> & _). exact P. Qed.

Lemma sub_len : forall s a n s', sub s a n s' -> sp_len s' = n /\ a + n <= sp_len s.
Proof. intros s a n s' S. split; apply S. Qed.

Lemma block_gspan : forall b, wf_block b -> gspan (block_span b).
Proof. intros b W. split; [now apply block_span_wf|exact W]. Qed.

Lemma gspan_contents : forall s, gspan s -> Forall wf_cref (sp_contents s).
Proof.
  intros s ((_ & (pre & E) & _) & W). unfold wf_block in W. rewrite E in W. apply Forall_app in W. apply W.
Qed.

(** The result of a parser: the rest is well-formed and at most [n] long. *)
Definition pgood {A} (n : nat) (P : A -> Prop) (r : presult A) : Prop :=
  match r with POk i a => gspan i /\ sp_len i <= n /\ P a | _ => True end.

Lemma pgood_weak : forall {A} n m (P Q : A -> Prop) r, pgood n P r -> n <= m -> (forall a, P a -> Q a) -> pgood m Q r.
Proof. intros A n m P Q [i a| |] H L K; cbn in *; auto. destruct H as (G & Ln & H). repeat split; auto; try apply G. lia. Qed.

Lemma safe_pbind : forall {A B} F (P : A -> Prop) (Q : B -> Prop) n r f,
  safe F (pgood n P) r -> (forall i a, gspan i -> sp_len i <= n -> P a -> safe F (pgood n Q) (f i a)) ->
  safe F (pgood n Q) (pbind r f).
Proof.
  intros A B F P Q n r f H K. unfold pbind. eapply safe_bind; [exact H|]. intros [i a| |] G; cbn in *; auto.
  destruct G as (G & L & X). apply K; auto.
Qed.

Lemma safe_pok : forall {A} F (P : A -> Prop) n i a, gspan i -> sp_len i <= n -> P a -> safe F (pgood n P) (pok i a).
Proof. intros. cbn. auto. Qed.

Lemma safe_pweak : forall {A} F n m (P Q : A -> Prop) r, safe F (pgood n P) r -> n <= m -> (forall a, P a -> Q a) ->
  safe F (pgood m Q) r.
Proof. intros. eapply safe_weak; eauto. intros x G. eapply pgood_weak; eauto. Qed.

(** A parser that is safe on every good span. *)
Definition psafe {A} (p : parser A) (Q : span -> A -> Prop) : Prop :=
  forall s, gspan s -> safe False (pgood (sp_len s) (Q s)) (p s).

Definition part_of (s a : span) : Prop := gspan a /\ sp_len a <= sp_len s.

Lemma sub_part : forall s a n s', gspan s -> sub s a n s' -> part_of s s'.
Proof.
  intros s a n s' G S. split; [eapply sub_gspan; eauto|]. destruct (sub_len _ _ _ _ S). lia.
Qed.

Lemma ws_safe : psafe makefile_whitespace part_of.
Proof.
  intros s G. destruct (makefile_whitespace_ok s (proj1 G)) as (r & q & E & Sr & Sq). rewrite E. cbn.
  split; [eapply sub_gspan; eauto|]. split; [apply sub_len in Sr; lia|eapply sub_part; eauto].
Qed.

Lemma tag_safe : forall t, asciis t -> psafe (tag t) part_of.
Proof.
  intros t A s G. pose proof (tag_ok s t (proj1 G) A) as T. destruct (starts_with t (span_text s)).
  - destruct T as (r & p & E & Sr & Sp & L). rewrite E. cbn.
    split; [eapply sub_gspan; eauto|]. split; [apply sub_len in Sr; lia|eapply sub_part; eauto].
  - rewrite T. exact I.
Qed.

(** As [tag_safe], with the exact length of the rest. *)
Lemma tag_rest : forall t s r p, asciis t -> gspan s -> tag t s = Ok (POk r p) ->
  sp_len r = sp_len s - length t /\ length t <= sp_len s /\ gspan r /\ gspan p /\ sp_len p = length t.
Proof.
  intros t s r p A G E. pose proof (tag_ok s t (proj1 G) A) as T. destruct (starts_with t (span_text s)).
  - destruct T as (r' & p' & E' & Sr & Sp & L). rewrite E in E'. injection E' as <- <-.
    split; [apply Sr|]. split; [exact L|]. split; [eapply sub_gspan; eauto|]. split; [eapply sub_gspan; eauto|apply Sp].
  - rewrite E in T. discriminate.
Qed.

Lemma tag_no_case_safe : forall t, asciis t -> psafe (tag_no_case t) part_of.
Proof.
  intros t A s G. pose proof (tag_no_case_ok s t (proj1 G) A) as T.
  destruct (starts_with (List.map ascii_lower t) (List.map ascii_lower (span_text s))).
  - destruct T as (r & p & E & Sr & Sp & L). rewrite E. cbn.
    split; [eapply sub_gspan; eauto|]. split; [apply sub_len in Sr; lia|eapply sub_part; eauto].
  - rewrite T. exact I.
Qed.

Lemma tag_no_case_rest : forall t s r p, asciis t -> gspan s -> tag_no_case t s = Ok (POk r p) ->
  sp_len r = sp_len s - length t /\ length t <= sp_len s.
Proof.
  intros t s r p A G E. pose proof (tag_no_case_ok s t (proj1 G) A) as T.
  destruct (starts_with (List.map ascii_lower t) (List.map ascii_lower (span_text s))).
  - destruct T as (r' & p' & E' & Sr & Sp & L). rewrite E in E'. injection E' as <- <-. split; [apply Sr|exact L].
  - rewrite E in T. discriminate.
Qed.

Lemma take_till_safe : forall p, psafe (take_till p) part_of.
Proof.
  intros p s G. destruct (take_till_ok s p (proj1 G)) as (r & q & E & Sr & Sq). rewrite E. cbn.
  split; [eapply sub_gspan; eauto|]. split; [apply sub_len in Sr; lia|eapply sub_part; eauto].
Qed.

Lemma prest_safe : psafe prest part_of.
Proof.
  intros s G. destruct (prest_ok s (proj1 G)) as (r & E & Sr). rewrite E. cbn.
  split; [eapply sub_gspan; eauto|]. split; [apply sub_len in Sr; lia|]. split; [exact G|lia].
Qed.

Lemma take_until_safe : forall c, ascii c -> psafe (take_until [c]) part_of.
Proof.
  intros c A s G. pose proof (take_until_ok s c (proj1 G) A) as T. destruct (index_of (is_char c) (span_text s)).
  - destruct T as (r & p & E & Sr & Sp & L). rewrite E. cbn.
    split; [eapply sub_gspan; eauto|]. split; [apply sub_len in Sr; lia|eapply sub_part; eauto].
  - rewrite T. exact I.
Qed.

Lemma pchar_safe : forall c, ascii c -> forall s, gspan s -> safe False (pgood (sp_len s - 1) (fun d => d = c)) (pchar c s).
Proof.
  intros c A s G. pose proof (pchar_ok s c (proj1 G) A) as T. destruct (span_text s) as [|d t]; [rewrite T; exact I|].
  destruct (d =? c)%N.
  - destruct T as (r & E & Sr & L). rewrite E. cbn. split; [eapply sub_gspan; eauto|]. split; [apply sub_len in Sr; lia|reflexivity].
  - rewrite T. exact I.
Qed.

(** If a parser consumed a character, there was one. *)
Lemma pchar_pos : forall c s r d, ascii c -> gspan s -> pchar c s = Ok (POk r d) -> 0 < sp_len s /\ sp_len r = sp_len s - 1.
Proof.
  intros c s r d A G E. pose proof (pchar_ok s c (proj1 G) A) as T. destruct (span_text s) as [|x t]; [rewrite T in E; discriminate|].
  destruct (x =? c)%N; [|rewrite T in E; discriminate]. destruct T as (r' & E' & Sr & L). rewrite E in E'. injection E' as <- _.
  split; [exact L|apply Sr].
Qed.

Lemma grab_line_safe : psafe makefile_grab_line (fun s out => part_of s (fst out)).
Proof.
  intros s G. pose proof (grab_line_ok s (proj1 G)) as T. destruct (grab (span_text s)) as [[n reason] k].
  destruct T as (r & l & E & Sr & Sl & L1 & L2). rewrite E. cbn.
  split; [eapply sub_gspan; eauto|]. split; [apply sub_len in Sr; lia|eapply sub_part; eauto].
Qed.

Lemma take_split_safe : forall s n, gspan s -> safe False (fun rp => gspan (fst rp) /\ gspan (snd rp) /\
  n <= sp_len s /\ sp_len (fst rp) = sp_len s - n /\ sp_len (snd rp) = n) (take_split s n).
Proof.
  intros s n G. destruct (Nat.le_gt_cases n (sp_len s)) as [L|L].
  - destruct (take_split_sub s n (proj1 G) L) as (r & p & E & Sr & Sp). rewrite E. cbn.
    repeat split; try (eapply sub_gspan; eauto); auto; try apply Sr; try apply Sp.
  - unfold take_split. replace (n <=? sp_len s) with false by (symmetry; apply Nat.leb_gt; lia). exact I.
Qed.

Lemma slice_from_safe : forall s n, gspan s -> safe False (fun r => gspan r /\ n <= sp_len s /\ sp_len r = sp_len s - n) (slice_from s n).
Proof.
  intros s n G. destruct (Nat.le_gt_cases n (sp_len s)) as [L|L].
  - destruct (slice_from_sub s n (proj1 G) L) as (r & E & Sr). rewrite E. cbn.
    repeat split; try (eapply sub_gspan; eauto); auto; try apply Sr.
  - unfold slice_from, usub. replace (n <=? sp_len s) with false by (symmetry; apply Nat.leb_gt; lia). exact I.
Qed.

Lemma slice_to_gspan : forall s n, gspan s -> n <= sp_len s -> gspan (slice_to s n).
Proof. intros s n G L. eapply sub_gspan; [exact G|]. apply slice_to_sub; [apply G|exact L]. Qed.

Lemma to_new_block_safe : forall s, gspan s -> safe False (fun b => wf_block b /\ block_len b = sp_len s) (to_new_block s).
Proof.
  intros s G. destruct (to_new_block_ok s (proj1 G)) as (b & E & W & M & _). rewrite E. cbn. split; [exact W|].
  rewrite <- (span_marks_len s (proj1 G)), <- M. symmetry. apply crefs_marks_len. exact W.
Qed.

Lemma push_safe : forall b s, wf_block b -> gspan s ->
  safe False (fun b' => wf_block b' /\ block_len b' = block_len b + sp_len s) (push_all_contents b s).
Proof.
  intros b s W G. destruct (push_all_contents_ok b s W (proj1 G) (proj2 G)) as (b' & E & W' & M & _). rewrite E. cbn.
  split; [exact W'|]. rewrite <- (span_marks_len s (proj1 G)). unfold block_len.
  rewrite <- (crefs_marks_len _ W), <- (crefs_marks_len _ W').
  unfold block_marks in M. rewrite M. apply app_length.
Qed.

Lemma block_len_span : forall b, sp_len (block_span b) = block_len b.
Proof. reflexivity. Qed.

Lemma into_string_safe : forall b, wf_block b -> safe False (fun t => t = block_text b) (block_into_string b).
Proof. intros b W. rewrite (block_into_string_ok b W). reflexivity. Qed.

Lemma parse_ast_safe : psafe parse_ast (fun _ a => ast_ok a).
Proof.
  intros s G. pose proof (parse_ast_good s (proj1 G)) as P. unfold parse_good in P.
  destruct (parse_ast s) as [[r a|ks|ks]| |] eqn:E; cbn; auto.
  destruct P as ((W & L & _ & Pa & _) & Z & R). split; [split; [exact W|rewrite Pa; apply G]|]. split; [lia|].
  apply (proj1 (proj2 (reads_ok _)) _ _ R). apply span_ascii. apply G.
Qed.

(** * Combinators *)

Lemma palt_safe : forall {A} F (P : A -> Prop) n s (ps : list (parser A)),
  Forall (fun p : parser A => safe F (pgood n P) (p s)) ps -> safe F (pgood n P) (palt ps s).
Proof.
  intros A F P n s ps H. induction H as [|p ps Hp Hps IH]; cbn [palt]; [exact I|].
  eapply safe_bind; [exact Hp|]. intros [i a| |] G; cbn; auto.
Qed.

Lemma pmap_safe : forall {A B} F (f : A -> B) (p : parser A) (P : A -> Prop) (Q : B -> Prop) n s,
  safe F (pgood n P) (p s) -> (forall a, P a -> Q (f a)) -> safe F (pgood n Q) (pmap f p s).
Proof.
  intros A B F f p P Q n s H K. unfold pmap. eapply safe_pbind; [exact H|]. intros i a G L Pa. apply safe_pok; auto.
Qed.

Lemma preceded_safe : forall {A B} F (a : parser A) (b : parser B) (P : A -> Prop) (Q : B -> Prop) n s,
  safe F (pgood n P) (a s) -> (forall i, gspan i -> sp_len i <= n -> safe F (pgood n Q) (b i)) ->
  safe F (pgood n Q) (preceded a b s).
Proof. intros. unfold preceded. eapply safe_pbind; [eassumption|]. intros i x G L Px. auto. Qed.

Lemma terminated_safe : forall {A B} F (a : parser A) (b : parser B) (P : A -> Prop) (Q : B -> Prop) n s,
  safe F (pgood n P) (a s) -> (forall i, gspan i -> sp_len i <= n -> safe F (pgood n Q) (b i)) ->
  safe F (pgood n P) (terminated a b s).
Proof.
  intros A B F a b P Q n s Ha Hb. unfold terminated. eapply safe_pbind; [exact Ha|]. intros i x G L Px.
  eapply safe_pbind; [apply Hb; auto|]. intros j y Gj Lj _. apply safe_pok; auto.
Qed.

Lemma add_return_error_safe : forall {A} F k (p : parser A) (P : A -> Prop) n s,
  safe F (pgood n P) (p s) -> safe F (pgood n P) (add_return_error k p s).
Proof. intros. unfold add_return_error. eapply safe_bind; [eassumption|]. intros [i a| |] G; cbn in *; auto. Qed.

Lemma return_error_safe : forall {A} F k (p : parser A) (P : A -> Prop) n s,
  safe F (pgood n P) (p s) -> safe F (pgood n P) (return_error k p s).
Proof. intros. unfold return_error. eapply safe_bind; [eassumption|]. intros [i a| |] G; cbn in *; auto. Qed.

(** A parser result used on a possibly longer input. *)
Lemma psafe_at : forall {A} F (p : parser A) Q n s, psafe p Q -> gspan s -> sp_len s <= n ->
  safe F (pgood n (Q s)) (p s).
Proof. intros A F p Q n s H G L. eapply safe_pweak; [apply safe_false, H, G|exact L|auto]. Qed.

(** * Positions *)

(** [s'] is what is left of [s] after [k] characters. *)
Definition after (s : span) (k : nat) (s' : span) : Prop :=
  sub s k (sp_len s - k) s' /\ k <= sp_len s /\
  exists pre, sp_contents s = pre ++ sp_contents s' /\ sum_len pre + sp_off s' = sp_off s + k.

Lemma after_refl : forall s, wf_span s -> after s 0 s.
Proof. intros s W. split; [rewrite Nat.sub_0_r; now apply sub_refl|]. split; [lia|]. exists []. split; [reflexivity|unfold sum_len; cbn; lia]. Qed.

Lemma after_trans : forall s k s' j s'', after s k s' -> after s' j s'' -> after s (k + j) s''.
Proof.
  intros s k s' j s'' (S1 & L1 & p & E1 & O1) (S2 & L2 & q & E2 & O2). destruct (sub_len _ _ _ _ S1) as (Ls & _).
  split; [|split].
  - replace (sp_len s - (k + j)) with (sp_len s' - j) by lia. eapply sub_sub; eauto.
  - lia.
  - exists (p ++ q). rewrite E1, E2, app_assoc. split; [reflexivity|]. rewrite sum_len_app. lia.
Qed.

Lemma reval_pos : forall cs off off' cs', reval off cs = Ok (off', cs') ->
  exists pre, cs = pre ++ cs' /\ sum_len pre + off' = off.
Proof.
  induction cs as [|c cs IH]; cbn; intros off off' cs' E; [discriminate|].
  destruct (Nat.leb_spec (c_len c) off).
  - apply IH in E as (pre & -> & P). exists (c :: pre). split; [reflexivity|].
    change (c :: pre) with ([c] ++ pre). rewrite sum_len_app. replace (sum_len [c]) with (c_len c) by (unfold sum_len; cbn; lia). lia.
  - inversion E; subst. exists []. split; [reflexivity|unfold sum_len; cbn; lia].
Qed.

Lemma slice_from_after : forall s n s', wf_span s -> slice_from s n = Ok s' -> after s n s'.
Proof.
  intros s n s' W E. assert (L : n <= sp_len s).
  { unfold slice_from in E. destruct (usub (sp_len s) n) eqn:U; try discriminate. apply usub_inv in U as (U & _). exact U. }
  destruct (slice_from_sub s n W L) as (s2 & E2 & S2). rewrite E in E2. injection E2 as <-.
  split; [exact S2|]. split; [exact L|].
  unfold slice_from in E. rewrite usub_ok in E by exact L. cbn [bind] in E.
  unfold revalidate in E. cbn [sp_len sp_off sp_contents sp_parent] in E. destruct (sp_len s - n =? 0).
  - inversion E; subst. exists []. split; [reflexivity|unfold sum_len; cbn; lia].
  - destruct (reval (sp_off s + n) (sp_contents s)) as [[o cs]| |] eqn:R; try discriminate. cbn [bind] in E.
    inversion E; subst. apply reval_pos in R as (pre & P & O). exists pre. split; [exact P|exact O].
Qed.

Lemma offset_after : forall s k s', after s k s' -> safe False (fun n => n <= k) (offset s s').
Proof.
  intros s k s' (_ & _ & pre & E & O). unfold offset. rewrite E, app_length, usub_ok by lia. cbn [bind].
  replace (length pre + length (sp_contents s') - length (sp_contents s')) with (length pre) by lia.
  destruct pre as [|c pre]; cbn [length app].
  - change (sum_len []) with 0 in O. apply safe_usub. lia.
  - eapply safe_bind; [apply safe_usub with (P := fun n => n = c_len c - sp_off s /\ sp_off s <= c_len c); auto|].
    intros n (-> & Lo). rewrite offset_walk_sum. change (c :: pre) with ([c] ++ pre) in O. rewrite sum_len_app in O.
    replace (sum_len [c]) with (c_len c) in O by (unfold sum_len; cbn; lia). cbn. lia.
Qed.

(** A parser that only cuts text from the front. *)
Definition cutter {A} (p : parser A) : Prop := forall s, wf_span s ->
  (exists r a k, p s = Ok (POk r a) /\ after s k r) \/ (exists ks, p s = Ok (PError ks)).

Lemma many_loop_after : forall {A} (p : parser A), cutter p -> forall fuel s, wf_span s -> sp_len s < fuel ->
  exists r k, many_loop fuel p s = Ok (POk r tt) /\ after s k r.
Proof.
  intros A p C. induction fuel as [|fuel IH]; intros s W L; [lia|]. cbn [many_loop].
  destruct (C s W) as [(r & a & k & E & Af)|(ks & E)]; rewrite E; cbn [bind].
  - destruct (Nat.eqb_spec (sp_len r) (sp_len s)) as [Q|Q].
    + exists s, 0. split; [reflexivity|now apply after_refl].
    + destruct Af as (S1 & L1 & X). destruct (sub_len _ _ _ _ S1) as (Ls & _).
      destruct (IH r (sub_wf _ _ _ _ S1)) as (r2 & k2 & E2 & A2); [lia|]. exists r2, (k + k2). split; [exact E2|].
      eapply after_trans; [|exact A2]. split; auto.
  - exists s, 0. split; [reflexivity|now apply after_refl].
Qed.

Lemma many1_after : forall {A} (p : parser A), cutter p -> cutter (many1 p).
Proof.
  intros A p C s W. unfold many1. destruct (C s W) as [(r & a & k & E & Af)|(ks & E)]; rewrite E; cbn [bind].
  - left. destruct (many_loop_after p C (S (sp_len r)) r) as (r2 & k2 & E2 & A2); [apply Af|lia|].
    exists r2, tt, (k + k2). split; [exact E2|eapply after_trans; eauto].
  - right. exists [KNom]. reflexivity.
Qed.

Lemma recognize_safe : forall {A} (p : parser A), cutter p -> psafe (recognize p) part_of.
Proof.
  intros A p C s G. unfold recognize. destruct (C s (proj1 G)) as [(r & a & k & E & Af)|(ks & E)]; rewrite E; cbn [pbind bind]; [|exact I].
  eapply safe_bind; [exact (offset_after s k r Af)|]. intros n Ln. cbn beta in Ln. destruct Af as (S1 & L1 & _).
  apply safe_pok.
  - eapply sub_gspan; eauto.
  - apply sub_len in S1. lia.
  - split; [apply slice_to_gspan; [exact G|lia]|]. cbn. lia.
Qed.

Lemma take_until_cutter : forall t, asciis t -> cutter (take_until t).
Proof.
  intros t A s W. unfold take_until. destruct (find_any s t W A) as (r & E & F). rewrite E. cbn [bind]. destruct r as [n|]; [left|right; eexists; reflexivity].
  destruct F as ((post & L & _) & _). rewrite <- span_marks_text, map_length, span_marks_len in L by exact W.
  destruct (take_split_sub s n W L) as (r & p & E2 & Sr & Sp). rewrite E2. cbn [bind pok]. exists r, p, n. split; [reflexivity|].
  unfold take_split in E2. rewrite rassert_true in E2 by (apply Nat.leb_le; exact L). cbn [bind] in E2.
  destruct (slice_from s n) as [x| |] eqn:E3; try discriminate. cbn [bind] in E2. injection E2 as -> _.
  now apply slice_from_after.
Qed.

Lemma consume_cutter : forall c, ascii c -> cutter (take_until_and_consume [c]).
Proof.
  intros c A s W. unfold take_until_and_consume. rewrite find_char by auto. cbn [bind].
  destruct (index_of (is_char c) (span_text s)) as [n|] eqn:I; [left|right; eexists; reflexivity].
  apply index_of_lt in I. rewrite <- span_marks_text, map_length, span_marks_len in I by exact W.
  assert (B : blen [c] = 1). { cbn. rewrite (ascii_len c A). reflexivity. }
  rewrite B. destruct (slice_from_sub s (n + 1) W) as (r & E & Sr); [lia|]. rewrite E. cbn [bind pok].
  exists r, (slice_to s n), (n + 1). split; [reflexivity|]. now apply slice_from_after.
Qed.

Lemma colon_find_safe : psafe colon_find (fun s out => part_of s (fst out) /\ part_of s (snd out)).
Proof.
  intros s G. unfold colon_find.
  eapply safe_pbind with (P := part_of s).
  - apply (recognize_safe _ (many1_after _ (consume_cutter c_colon eq_refl)) s G).
  - intros i nm Gi Li Hn. eapply safe_pbind with (P := part_of s).
    + eapply safe_pweak; [apply (recognize_safe _ (many1_after _ (consume_cutter c_eq eq_refl)) i Gi)|exact Li|].
      intros a (Ga & La). split; [exact Ga|lia].
    + intros j key Gj Lj Hk. apply safe_pok; auto.
Qed.

Lemma drop_last_safe : forall s, gspan s -> safe False (fun r => gspan r /\ sp_len r <= sp_len s) (drop_last_byte s).
Proof.
  intros s G. unfold drop_last_byte. eapply safe_bind; [apply safe_usub with (P := fun n => n = sp_len s - 1); auto|].
  intros n ->. cbn. split; [apply slice_to_gspan; [exact G|lia]|lia].
Qed.
