(** Proofs about the engine on text straight from a file, first part: logical
    lines of such text are flat. *)
From Coq Require Import String Lia ZArith.
From Verif Require Import Base LocModel EvdModel NomModel AstModel ParseModel AstParseModel EngineModel
  EvdSpec DbSpec ParseSpec EvalSpec AstParseSpec EngineSpec DbProofs EvdProofs EvdProofs2 EvdProofs3 ParseProofs ParseProofs2
  ParseProofs3 ParseProofs4 ParseProofs5 SubstProofs EvalProofs EvalProofs2 EvalProofs3 EvalProofs4
  AstParseProofs AstParseProofs2 AstParseProofs3 SafeProofs SafeProofs2 SafeProofs3 SafeProofs4 EngineProofs EngineProofs2.
Local Open Scope nat_scope.

(** * Parts of a span *)

Definition within (s r : span) : Prop := exists pre, sp_contents s = pre ++ sp_contents r.
Definition single (s : span) : Prop := flat1 s /\ flat s.

Lemma within_refl : forall s, within s s.
Proof. intros s. exists []. reflexivity. Qed.
Lemma within_trans : forall a b c, within a b -> within b c -> within a c.
Proof. intros a b c (p & E) (q & F). exists (p ++ q). rewrite E, F. apply app_assoc. Qed.
Lemma within_single : forall s r, within s r -> single s -> single r.
Proof.
  intros s r (pre & E) (F1 & F). unfold single, flat1, flat in *. rewrite E in *. rewrite app_length in F1.
  apply Forall_app in F. split; [lia|apply F].
Qed.
Lemma within_flat : forall s r, within s r -> flat s -> flat r.
Proof. intros s r (pre & E) F. unfold flat in *. rewrite E in F. now apply Forall_app in F. Qed.
Lemma sub_within : forall s a n r, sub s a n r -> within s r.
Proof. intros s a n r (_ & _ & _ & _ & _ & pre & E & _). exists pre. exact E. Qed.
Lemma within_to : forall s n, within s (slice_to s n).
Proof. intros s n. exists []. reflexivity. Qed.

Lemma bind_inv : forall {A B} (r : res A) (k : A -> res B) x, bind r k = Ok x -> exists a, r = Ok a /\ k a = Ok x.
Proof. intros A B [a| |] k x E; try discriminate. exists a. split; [reflexivity|exact E]. Qed.
Ltac inv_bind E := let x := fresh "x" in let Ex := fresh "Ex" in apply bind_inv in E; destruct E as (x & Ex & E).
Lemma pbind_inv : forall {A B} (r : res (presult A)) (k : span -> A -> res (presult B)) i b, pbind r k = Ok (POk i b) ->
  exists j a, r = Ok (POk j a) /\ k j a = Ok (POk i b).
Proof. intros A B r k i b E. unfold pbind in E. inv_bind E. destruct x; try discriminate. eauto. Qed.

Lemma reval_suffix : forall cs off o cs', reval off cs = Ok (o, cs') -> exists pre, cs = pre ++ cs'.
Proof.
  induction cs as [|c cs IH]; intros off o cs' E; [discriminate|]. cbn in E. destruct (c_len c <=? off).
  - apply IH in E. destruct E as (pre & ->). exists (c :: pre). reflexivity.
  - inversion E; subst. exists []. reflexivity.
Qed.
Lemma within_revalidate : forall s r, revalidate s = Ok r -> within s r.
Proof.
  intros s r E. unfold revalidate in E. destruct (sp_len s =? 0); [inversion E; apply within_refl|].
  inv_bind E. destruct x as [o cs]. inversion E; subst. apply reval_suffix in Ex. exact Ex.
Qed.
Lemma within_from : forall s n r, slice_from s n = Ok r -> within s r.
Proof. intros s n r E. unfold slice_from in E. inv_bind E. apply within_revalidate in E. exact E. Qed.
Lemma within_range : forall s a n r, slice_range s a n = Ok r -> within s r.
Proof. intros s a n r E. unfold slice_range in E. inv_bind E. apply within_revalidate in E. exact E. Qed.
Lemma within_take_split : forall s n r p, take_split s n = Ok (r, p) -> within s r /\ within s p.
Proof.
  intros s n r p E. unfold take_split in E. inv_bind E. inv_bind E. inversion E; subst. split; [eapply within_from; eauto|apply within_to].
Qed.
Lemma within_till : forall f s r p, take_till f s = Ok (POk r p) -> within s r /\ within s p.
Proof.
  intros f s r p E. unfold take_till in E. inv_bind E. destruct x as [a b]. inversion E; subst.
  unfold split_at_position in Ex. destruct (span_indices s) as [l boom]. inv_bind Ex. destruct x as [k|].
  - inv_bind Ex. inversion Ex; subst. split; [eapply within_from; eauto|apply within_to].
  - inversion Ex; subst. split; [exists (sp_contents p); symmetry; apply app_nil_r|apply within_refl].
Qed.
Lemma within_until : forall t s r p, take_until t s = Ok (POk r p) -> within s r /\ within s p.
Proof.
  intros t s r p E. unfold take_until in E. inv_bind E. destruct x as [k|]; [|discriminate]. inv_bind E. destruct x as [a b].
  inversion E; subst. eapply within_take_split; eauto.
Qed.
Lemma within_tag : forall t s r p, tag t s = Ok (POk r p) -> within s r /\ within s p.
Proof.
  intros t s r p E. unfold tag in E. inv_bind E. destruct x; try discriminate. inv_bind E. destruct x as [a b].
  inversion E; subst. eapply within_take_split; eauto.
Qed.
Lemma within_rest : forall s r p, prest s = Ok (POk r p) -> within s r /\ within s p.
Proof. intros s r p E. unfold prest in E. inv_bind E. inversion E; subst. split; [eapply within_from; eauto|apply within_refl]. Qed.

Lemma palt_inv : forall {A} (ps : list (parser A)) i r a, palt ps i = Ok (POk r a) -> exists p, In p ps /\ p i = Ok (POk r a).
Proof.
  induction ps as [|p ps IH]; intros i r a E; [discriminate|]. cbn [palt] in E. inv_bind E. destruct x as [j b|ks|ks].
  - inversion E; subst. exists p. split; [left; reflexivity|exact Ex].
  - apply IH in E. destruct E as (q & I & Q). exists q. split; [right; exact I|exact Q].
  - discriminate.
Qed.

Lemma within_grab : forall s r p e, makefile_grab_line s = Ok (POk r (p, e)) -> within s r /\ within s p.
Proof.
  intros s r p e E. unfold makefile_grab_line in E. apply palt_inv in E. destruct E as (q & I & E). cbn in I.
  assert (T : forall t, pmap (fun l => (l, LELineBreak)) (terminated (take_until t) (tag t)) s = Ok (POk r (p, e)) -> within s r /\ within s p).
  { intros t X. unfold pmap, terminated in X. apply pbind_inv in X. destruct X as (j & a & X & Y). inversion Y; subst.
    apply pbind_inv in X. destruct X as (j1 & b & X & Z). apply pbind_inv in Z. destruct Z as (j2 & c & Z & V). inversion V; subst.
    apply within_until in X. apply within_tag in Z. destruct X as (X1 & X2), Z as (Z1 & Z2). split; [exact (within_trans _ _ _ X1 Z1)|exact X2]. }
  destruct I as [<-|[<-|[<-|[<-|[]]]]].
  - unfold pmap in E. apply pbind_inv in E. destruct E as (j & a & X & Y). inversion Y; subst. eapply within_until; eauto.
  - eapply T; eauto.
  - eapply T; eauto.
  - unfold pmap in E. apply pbind_inv in E. destruct E as (j & a & X & Y). inversion Y; subst. eapply within_rest; eauto.
Qed.
Lemma within_next : forall s r p e, preceded makefile_whitespace makefile_grab_line s = Ok (POk r (p, e)) -> within s r /\ within s p.
Proof.
  intros s r p e E. unfold preceded in E. apply pbind_inv in E. destruct E as (j & a & X & Y). apply within_till in X. apply within_grab in Y.
  destruct X as (X & _), Y as (Y1 & Y2). split; eauto using within_trans.
Qed.
Lemma within_clean : forall s n m r, clean_line_end s n m = Ok r -> within s r.
Proof.
  intros s n m r E. unfold clean_line_end in E. destruct (n =? 1).
  - destruct m.
    + destruct (sp_len s <? 2); [eapply within_range; eauto|]. destruct (span_indices s) as [l [|]]; [discriminate|]. inversion E; apply within_to.
    + inv_bind E. inversion E; apply within_to.
  - inv_bind E. inversion E; apply within_to.
Qed.

(** * Pieces *)

Lemma simplify_leaf : forall n off len c, leaf_node n -> simplify_ref n off len = Ok c -> leaf_cref c.
Proof.
  apply (node_ind' (fun n => forall off len c, leaf_node n -> simplify_ref n off len = Ok c -> leaf_cref c)
      (fun c => forall off len c', leaf_cref c -> simplify_ref (c_node c) off len = Ok c' -> leaf_cref c')).
  - intros l off len c _ E. cbn in E. inv_bind E. inversion E; subst. exact I.
  - intros n [sens cs] V F off len c L E. destruct n as [l|v|a v|a k r v|v]; cbn in V; inversion V; subst; try (cbn in E; inversion E; subst; exact L).
    cbn [leaf_node] in L. destruct cs as [|[o l m] [|? ?]]; try contradiction. cbn [simplify_ref List.map trim_front] in E.
    destruct (l <=? off); [discriminate|]. cbn [bind trim_back] in E. destruct (len <=? l - off); [|discriminate].
    destruct (len =? 0) eqn:Z; [discriminate|]. cbn [bind filter] in E. rewrite Z in E. cbn [negb mapM bind] in E. inv_bind E. cbn in Ex. inv_bind Ex.
    inversion Ex; subst. inversion E; subst. inversion F as [|? ? F1 _]; subst. cbn [leaf_cref leaf_node]. exact (F1 _ _ _ L Ex0).
  - intros o l n H off len c L E. exact (H _ _ _ L E).
Qed.

Definition piece (c : cref) : Prop := c_len c = 0 \/ leaf_cref c.

Lemma block_new_flat : forall sens cs b, Forall piece cs -> block_new sens cs = Ok b -> flat_block b /\ List.length (b_content b) <= List.length cs.
Proof.
  intros sens cs b F E. unfold block_new, block_simplify in E. cbn [b_content b_sens] in E. inv_bind E. inversion E; subst. unfold flat_block. cbn [b_content].
  clear E. revert x Ex. induction F as [|c cs P F IH]; intros x E; cbn [filter] in E.
  - inversion E; subst. split; [constructor|cbn; lia].
  - destruct (c_len c =? 0) eqn:Z; cbn [negb] in E.
    + apply IH in E. split; [apply E|]. cbn. lia.
    + cbn [mapM] in E. inv_bind E. inv_bind E. inversion E; subst. apply IH in Ex0. split; [|cbn; lia].
      constructor; [|apply Ex0]. destruct P as [P|P]; [rewrite P in Z; discriminate|]. destruct c as [o l n]. exact (simplify_leaf _ _ _ _ P Ex).
Qed.

Lemma cover_leaf : forall cs n r, Forall leaf_cref cs -> cover n cs = Ok r -> Forall leaf_cref r /\ List.length r <= List.length cs.
Proof.
  induction cs as [|[o l m] cs IH]; intros n r F E; [discriminate|]. inversion F; subst. cbn [cover] in E. destruct (l <? n).
  - inv_bind E. inversion E; subst. apply IH in Ex; [|assumption]. split; [constructor; [assumption|apply Ex]|cbn; lia].
  - inversion E; subst. split; [repeat constructor; assumption|cbn; lia].
Qed.
Lemma span_cover_leaf : forall s r, flat s -> span_cover s = Ok r -> Forall leaf_cref r /\ List.length r <= List.length (sp_contents s).
Proof.
  intros s r F E. unfold span_cover in E. unfold flat in F. destruct (sp_contents s) as [|[o l n] cs]; [discriminate|]. inv_bind E.
  inversion F; subst. apply cover_leaf in E; [exact E|]. constructor; assumption.
Qed.
(** * Pieces and what was written in one go *)

Lemma block_new_parted : forall sens cs b, Forall wf_cref0 cs -> parted cref_marks cs -> block_new sens cs = Ok b -> parted cref_marks (b_content b).
Proof.
  intros sens cs b W P E. unfold block_new, block_simplify in E. cbn [b_content b_sens] in E. inv_bind E. inversion E; subst. cbn [b_content].
  apply (same_parts_parted cref_marks cref_marks cs); [|exact P]. clear E P. revert x Ex. induction W as [|c cs W WS IH]; intros x E; cbn [filter] in E.
  - inversion E; subst. constructor.
  - destruct (c_len c =? 0) eqn:Z; cbn [negb] in E.
    + apply Nat.eqb_eq in Z. apply OE_none; [exact (marks_empty_ref c Z)|exact (IH _ E)].
    + cbn [mapM] in E. inv_bind E. inv_bind E. inversion E; subst. destruct W as [W|W]; [|rewrite W in Z; discriminate].
      destruct (cref_simplify_ok c W) as (c' & Ec & _ & M & _). rewrite Ec in Ex. inversion Ex; subst. apply OE_one; [exact M|exact (IH _ Ex0)].
Qed.

Lemma exists_last_or : forall {A} (l : list A), l = [] \/ exists u x, l = u ++ [x].
Proof. intros A l. destruct l as [|a l]; [now left|right]. destruct (exists_last (l := a :: l) ltac:(discriminate)) as (u & x & E). eauto. Qed.
Lemma parted_app : forall {A} (m : A -> list placed) a b, parted m a -> parted m b ->
  (forall u x y v, concat (List.map m a) = u ++ [x] -> concat (List.map m b) = y :: v -> ~ AstParseSpec.follows x y) -> parted m (a ++ b).
Proof.
  intros A m a b Pa Pb H p q u x y v E U V. apply app_eq_app in E as (l & [(-> & ->)|(-> & ->)]).
  - destruct (concat (List.map m l)) as [|y' v'] eqn:L.
    + rewrite map_app, concat_app, L in V. apply (H u x y v); [rewrite map_app, concat_app, L, app_nil_r; exact U|exact V].
    + rewrite map_app, concat_app, L in V. injection V as -> _. exact (Pa p l u x y v' eq_refl U L).
  - destruct (exists_last_or (concat (List.map m l))) as [L|(u' & x' & L)].
    + rewrite map_app, concat_app, L, app_nil_r in U. apply (H u x y v U). rewrite map_app, concat_app, L. exact V.
    + rewrite map_app, concat_app, L, app_assoc in U. apply app_inj_tail in U as (_ & ->). exact (Pb l q u' x y v eq_refl L V).
Qed.
Lemma made_not_first : forall c y, ~ AstParseSpec.follows (made c) y.
Proof. intros c y (N & _). now apply N. Qed.
Lemma made_not_second : forall x c, ~ AstParseSpec.follows x (made c).
Proof.
  intros x c (N & F). cbn in F. unfold step_location in F. destruct (snd x); try now contradiction N. all: destruct (fst x =? c_nl)%N; discriminate.
Qed.
(** A character that was made separates. *)
Lemma parted_made : forall {A} (m : A -> list placed) a c ch b, parted m a -> parted m b -> m c = [made ch] -> parted m (a ++ c :: b).
Proof.
  intros A m a c ch b Pa Pb M. apply parted_app; [exact Pa| |].
  - apply (parted_app m [c] b); [apply parted_one|exact Pb|]. intros u x y v U _. cbn in U. rewrite M in U. destruct u as [|? [|? ?]]; try discriminate.
    injection U as <-. apply made_not_first.
  - intros u x y v _ V. cbn in V. rewrite M in V. injection V as <- _. apply made_not_second.
Qed.

Lemma cref_marks_shorter : forall o l l' n, l' <= l -> exists w, cref_marks (CRef o l n) = cref_marks (CRef o l' n) ++ w.
Proof.
  intros o l l' n L. exists (skipn l' (cref_marks (CRef o l n))). cbn [cref_marks].
  rewrite <- (firstn_skipn l' (firstn l (skipn o (node_marks n)))) at 1. f_equal. apply firstn_firstn_le. exact L.
Qed.
Lemma cref_marks_later : forall o l k n, exists w, cref_marks (CRef o l n) = w ++ cref_marks (CRef (o + k) (l - k) n).
Proof.
  intros o l k n. exists (firstn k (cref_marks (CRef o l n))). cbn [cref_marks].
  rewrite <- (firstn_skipn k (firstn l (skipn o (node_marks n)))) at 1. f_equal. rewrite skipn_firstn_comm, skipn_skipn'. reflexivity.
Qed.

Lemma cover_cut : forall cs n r, cover n cs = Ok r -> cut cref_marks cs r.
Proof.
  induction cs as [|[o l m] cs IH]; intros n r E; [discriminate|]. cbn [cover] in E. destruct (Nat.ltb_spec l n) as [L|L].
  - inv_bind E. inversion E; subst. apply cut_cons. exact (IH _ _ Ex).
  - inversion E; subst. intros p q Ep N. destruct p as [|b p].
    + cbn in Ep. subst q. destruct (cref_marks_shorter o l n m L) as (w & M). exists (CRef o l m :: cs), (w ++ crefs_marks cs). split; [reflexivity|].
      cbn [List.map concat]. rewrite M, app_nil_r, <- app_assoc. reflexivity.
    + injection Ep as _ Ep. symmetry in Ep. apply app_eq_nil in Ep as (_ & ->). now contradiction N.
Qed.
Lemma span_cover_parted : forall s r, parted cref_marks (sp_contents s) -> span_cover s = Ok r -> parted cref_marks r.
Proof.
  intros s r P E. unfold span_cover in E. destruct (sp_contents s) as [|[o l n] cs]; [discriminate|]. inv_bind E.
  apply cover_cut in E. eapply cut_parted; [exact E|]. destruct (cref_marks_later o l (sp_off s) n) as (w & M). exact (parted_first _ _ _ _ _ M P).
Qed.

(** Between any two pieces a character that was made. *)
Definition gapped (cs : list cref) : Prop := forall p q u x y v, cs = p ++ q -> crefs_marks p = u ++ [x] -> crefs_marks q = y :: v ->
  snd x = Synthetic \/ snd y = Synthetic.
Definition ends_made (t : list placed) : Prop := forall u x, t = u ++ [x] -> snd x = Synthetic.

Lemma gapped_parted : forall cs, gapped cs -> parted cref_marks cs.
Proof.
  intros cs G p q u x y v E U V (N & F). destruct (G p q u x y v E U V) as [X|Y]; [contradiction|]. rewrite F in Y.
  unfold step_location in Y. destruct (snd x); try now contradiction N. all: destruct (fst x =? c_nl)%N; discriminate.
Qed.
Lemma new_block_parted : forall s b, wf_span s -> parted cref_marks (sp_contents s) -> to_new_block s = Ok b -> parted cref_marks (b_content b).
Proof.
  intros s b W P E. unfold to_new_block in E. destruct (Nat.eqb_spec (sp_len s) 0) as [Z|Z]; [inversion E; apply parted_nil|].
  inv_bind E. destruct (span_cover_ok s W ltac:(lia)) as (r & E1 & Wr & _). rewrite Ex in E1. inversion E1; subst.
  eapply block_new_parted; [|exact (span_cover_parted _ _ P Ex)|exact E]. eapply Forall_impl; [|exact Wr]. exact wf_cref_w0.
Qed.
Lemma gapped_nil : gapped [].
Proof. intros p q u x y v E U V. symmetry in E. apply app_eq_nil in E as (-> & ->). discriminate. Qed.
Lemma gapped_add : forall cs c, gapped cs -> ends_made (crefs_marks cs) \/ (forall y v, cref_marks c = y :: v -> snd y = Synthetic) -> gapped (cs ++ [c]).
Proof.
  intros cs c G H p q u x y v E U V. destruct q as [|a q]; [discriminate|].
  destruct (exists_last (l := a :: q) ltac:(discriminate)) as (q' & z & Q). rewrite Q in *. rewrite app_assoc in E. apply app_inj_tail in E as (-> & <-).
  rewrite crefs_marks_app in V. destruct (crefs_marks q') as [|y' v'] eqn:Z.
  - cbn in V. rewrite crefs_marks_app, Z, app_nil_r in H. destruct H as [H|H]; [left; exact (H _ _ U)|right].
    rewrite app_nil_r in V. exact (H _ _ V).
  - cbn in V. injection V as -> _. exact (G p q' u x y v' eq_refl U Z).
Qed.
Lemma ends_made_space : forall t, ends_made (t ++ [space_mark]).
Proof. intros t u x E. apply app_inj_tail in E as (_ & <-). reflexivity. Qed.
Lemma marks_space : cref_marks cr_space = [space_mark].
Proof. reflexivity. Qed.

Lemma leaf_piece : forall cs, Forall leaf_cref cs -> Forall piece cs.
Proof. intros cs F. eapply Forall_impl; [|exact F]. intros c L. right. exact L. Qed.

Lemma new_block_flat : forall s b, flat s -> to_new_block s = Ok b -> flat_block b /\ List.length (b_content b) <= List.length (sp_contents s).
Proof.
  intros s b F E. unfold to_new_block in E. destruct (sp_len s =? 0).
  - inversion E; subst. split; [constructor|cbn; lia].
  - inv_bind E. apply span_cover_leaf in Ex; [|exact F]. destruct Ex as (L & N). apply block_new_flat in E; [|apply leaf_piece, L].
    split; [apply E|lia].
Qed.
Lemma reference_piece : forall s c, single s -> to_content_reference s = Ok c -> piece c.
Proof.
  intros s c (F1 & F) E. unfold to_content_reference in E. inv_bind E. apply new_block_flat in Ex; [|exact F]. destruct Ex as (L & N).
  unfold flat1 in F1. destruct x as [sens cs]. cbn [b_content] in *. inversion E; subst. destruct cs as [|c1 [|? ?]]; [| |cbn in N; lia].
  - left. reflexivity.
  - right. inversion L; subst. assumption.
Qed.
Lemma space_piece : piece cr_space.
Proof. right. exact I. Qed.

(** Short texts are in one piece. *)
Lemma short_parted : forall {A} (m : A -> list placed) cs, List.length cs <= 1 -> parted m cs.
Proof. intros A m [|c [|? ?]] L; [apply parted_nil|apply parted_one|cbn in L; lia]. Qed.
Lemma single_tidy : forall s, single s -> tidy s.
Proof. intros s (F1 & F). split; [exact F|]. apply short_parted. exact F1. Qed.
Lemma new_block_tidy : forall s b, single s -> to_new_block s = Ok b -> tidy_block b /\ List.length (b_content b) <= 1.
Proof.
  intros s b (F1 & F) E. destruct (new_block_flat s b F E) as (L & N). unfold flat1 in F1. split; [split; [exact L|apply short_parted; lia]|lia].
Qed.
Lemma within_tidy : forall s r, within s r -> tidy s -> tidy r.
Proof. intros s r W (F & P). split; [exact (within_flat _ _ W F)|]. destruct W as (pre & E). rewrite E in P. exact (parted_suffix _ _ _ P). Qed.
Lemma new_block_tidied : forall s b, wf_span s -> tidy s -> to_new_block s = Ok b -> tidy_block b.
Proof.
  intros s b W (F & P) E. split; [exact (proj1 (new_block_flat s b F E))|exact (new_block_parted s b W P E)].
Qed.
Lemma tidy_flat : forall s, tidy s -> flat s.
Proof. intros s T. apply T. Qed.

Lemma grab_made : forall s r p e, wf_span s -> makefile_grab_line s = Ok (POk r (p, e)) ->
  wf_span r /\ wf_span p /\ (e = LEComment -> exists t, span_text r = c_hash :: t) /\ ((exists t, span_text s = c_hash :: t) -> sp_len p = 0).
Proof.
  intros s r p e W E. pose proof (grab_line_ok s W) as H. destruct (grab (span_text s)) as [[n e'] k] eqn:G.
  destruct H as (r' & p' & E' & R & P & _ & LK). rewrite E in E'. inversion E'; subst. clear E'. split; [eauto using sub_wf|]. split; [eauto using sub_wf|].
  unfold grab in G. split.
  - intros ->. revert G. destruct (index_of (is_char c_hash) (span_text s)) as [i|] eqn:I; intros G; [|destruct (index_of (is_char c_nl) _); discriminate]. inversion G; subst.
    apply index_of_Some in I as (LI & _ & c & post & I & Q). apply N.eqb_eq in Q. subst c. rewrite (sub_text _ _ _ _ R), I. rewrite (span_text_len s W) in LI.
    destruct (sp_len s - k) eqn:Z; [lia|]. cbn. eauto.
  - intros (t & T). rewrite T in G. cbn in G. inversion G; subst. apply P.
Qed.
Lemma next_made : forall s r p e, wf_span s -> preceded makefile_whitespace makefile_grab_line s = Ok (POk r (p, e)) ->
  wf_span r /\ wf_span p /\ (e = LEComment -> exists t, span_text r = c_hash :: t) /\ ((exists t, span_text s = c_hash :: t) -> sp_len p = 0).
Proof.
  intros s r p e W E. unfold preceded in E. destruct (makefile_whitespace_ok s W) as (j & q & Ew & R & _). rewrite Ew in E. cbn [pbind bind] in E.
  destruct (grab_made j r p e (sub_wf _ _ _ _ R) E) as (A & B & C & D). ands; auto. intros (t & T). apply D. exists t.
  rewrite (sub_text _ _ _ _ R). rewrite T. cbn. rewrite T in *. pose proof (span_text_len s W) as L. rewrite T in L. cbn in L. rewrite Nat.sub_0_r, <- L. cbn. f_equal. apply firstn_all.
Qed.
Lemma reference_ok : forall s c, wf_span s -> to_content_reference s = Ok c -> wf_cref0 c /\ cref_marks c = span_marks s.
Proof. intros s c W E. destruct (to_content_reference_ok s W) as (c' & E' & H). rewrite E in E'. inversion E'; subst. tauto. Qed.

Lemma clean_wf : forall s n m r, wf_span s -> ends_with_backslash s = Ok n -> Nat.even n = false -> clean_line_end s n m = Ok r -> wf_span r.
Proof.
  intros s n m r W E O C. rewrite (ends_with_backslash_ok s W) in E. inversion E; subst. destruct (clean_line_end_ok s m W) as (p & E' & H & _).
  - unfold continued. rewrite <- Nat.negb_even, O. reflexivity.
  - rewrite C in E'. inversion E'; subst. exact H.
Qed.

Lemma line_loop_made : forall fuel m i strip add reason lines r b, wf_span i -> Forall wf_cref0 lines -> gapped lines ->
  (add = false \/ strip = true -> ends_made (crefs_marks lines)) -> (reason = LEComment -> exists t, span_text i = c_hash :: t) ->
  makefile_line_loop fuel m i strip add reason lines = Ok (POk r b) -> parted cref_marks (b_content b).
Proof.
  induction fuel as [|fuel IH]; intros m i strip add reason lines r b W F G K C E; [discriminate|]. cbn [makefile_line_loop] in E.
  set (q := match reason with LEComment => _ | _ => _ end) in E.
  assert (Q : Forall wf_cref0 (fst q) /\ gapped (fst q) /\ ends_made (crefs_marks (fst q)) /\ (reason = LEComment \/ snd q = true)).
  { assert (Y : Forall wf_cref0 (lines ++ [cr_space]) /\ gapped (lines ++ [cr_space]) /\ ends_made (crefs_marks (lines ++ [cr_space]))).
    { split; [apply Forall_app; split; [exact F|constructor; [left; exact space_wf|constructor]]|]. split.
      - apply gapped_add; [exact G|right]. rewrite marks_space. intros y v V. inversion V; reflexivity.
      - rewrite crefs_marks_app. apply ends_made_space. }
    unfold q. destruct reason; cbn [fst snd]; [..|]; try (destruct (add && negb strip) eqn:A; cbn [fst snd]); try tauto.
    all: try (apply andb_true_iff in A; destruct A as (A & _); tauto).
    all: ands; auto; apply K; apply andb_false_iff in A; destruct A as [A|A]; auto; right; now destruct strip. }
  destruct q as [lines1 add1]. cbn [fst snd] in Q. destruct Q as (Q1 & Q2 & Q3 & Q4). inv_bind E. destruct x as [j [p e]|ks|ks]; [| |discriminate].
  - apply next_made in Ex; [|exact W]. destruct Ex as (Wj & Wp & He & Hp).
    assert (Add : forall s c, wf_span s -> to_content_reference s = Ok c -> Forall wf_cref0 (lines1 ++ [c]) /\ gapped (lines1 ++ [c])).
    { intros s c Ws Ec. apply reference_ok in Ec; [|exact Ws]. split; [apply Forall_app; split; [exact Q1|constructor; [apply Ec|constructor]]|].
      apply gapped_add; [exact Q2|left; exact Q3]. }
    inv_bind E. destruct (Nat.even x) eqn:Ev.
    + inv_bind E. inv_bind E. inversion E; subst. destruct (Add p _ Wp Ex0) as (A1 & A2). apply (block_new_parted _ _ _ A1 (gapped_parted _ A2) Ex1).
    + assert (NC : add1 = true).
      { destruct Q4 as [Q4|Q4]; [|exact Q4]. exfalso. specialize (Hp (C Q4)). rewrite (ends_with_backslash_ok p Wp) in Ex. inversion Ex; subst.
        assert (Z : span_marks p = []) by (apply length_zero_iff_nil; rewrite span_marks_len; auto). rewrite Z in Ev. discriminate. }
      subst add1. inv_bind E. pose proof (clean_wf _ _ _ _ Wp Ex Ev Ex0) as Wx. destruct (0 <? sp_len x0).
      * inv_bind E. destruct (Add _ _ Wx Ex1) as (A1 & A2). eapply IH; [exact Wj|exact A1|exact A2| |exact He|exact E]. intros [X|X]; discriminate.
      * eapply IH; [exact Wj|exact Q1|exact Q2| |exact He|exact E]. intros _. exact Q3.
  - inv_bind E. inversion E; subst. apply (block_new_parted _ _ _ Q1 (gapped_parted _ Q2) Ex0).
Qed.

Lemma makefile_line_made : forall m i strip r b, wf_span i -> makefile_line i m strip = Ok (POk r b) -> parted cref_marks (b_content b).
Proof.
  intros m i strip r b W E. unfold makefile_line in E. inv_bind E. destruct x as [j [p e]|ks|ks]; [|discriminate|discriminate].
  assert (H : wf_span j /\ wf_span p /\ (e = LEComment -> exists t, span_text j = c_hash :: t)).
  { destruct strip; [apply next_made in Ex|apply grab_made in Ex]; tauto. }
  destruct H as (Wj & Wp & He).
  assert (Add : forall s c, wf_span s -> to_content_reference s = Ok c -> Forall wf_cref0 [c] /\ gapped [c]).
  { intros s c Ws Ec. apply reference_ok in Ec; [|exact Ws]. split; [constructor; [apply Ec|constructor]|].
    apply (gapped_add [] c gapped_nil). left. intros u x X. destruct u; discriminate. }
  inv_bind E. destruct (Nat.even x) eqn:Ev.
  - inv_bind E. inv_bind E. inversion E; subst. destruct (Add p _ Wp Ex1) as (A1 & A2). apply (block_new_parted _ _ _ A1 (gapped_parted _ A2) Ex2).
  - inv_bind E. pose proof (clean_wf _ _ _ _ Wp Ex0 Ev Ex1) as Wx. destruct (0 <? sp_len x0).
    + inv_bind E. destruct (Add _ _ Wx Ex2) as (A1 & A2). eapply line_loop_made; [exact Wj|exact A1|exact A2| |exact He|exact E]. intros [X|X]; discriminate.
    + eapply line_loop_made; [exact Wj|constructor|exact gapped_nil| |exact He|exact E]. intros _ u y X. destruct u; discriminate.
Qed.

(** Logical lines of text from a file are flat; a line without continuation is one
    piece. *)
Lemma line_loop_flat : forall fuel m i strip add reason lines r b, single i -> Forall piece lines ->
  makefile_line_loop fuel m i strip add reason lines = Ok (POk r b) -> flat_block b /\ within i r.
Proof.
  induction fuel as [|fuel IH]; intros m i strip add reason lines r b S F E; [discriminate|]. cbn [makefile_line_loop] in E.
  set (q := match reason with LEComment => _ | _ => _ end) in E.
  assert (Q : Forall piece (fst q)).
  { unfold q. destruct reason; try (destruct (add && negb strip)); cbn [fst]; try exact F; apply Forall_app; (split; [exact F|constructor; [apply space_piece|constructor]]). }
  destruct q as [lines1 add1]. cbn [fst] in Q. inv_bind E. destruct x as [j [p e]|ks|ks]; [| |discriminate].
  - apply within_next in Ex. destruct Ex as (Wj & Wp). assert (Sp := within_single _ _ Wp S). assert (Sj := within_single _ _ Wj S).
    inv_bind E. destruct (Nat.even x).
    + inv_bind E. inv_bind E. inversion E; subst. apply block_new_flat in Ex1; [|apply Forall_app; split; [exact Q|constructor; [exact (reference_piece p _ Sp Ex0)|constructor]]].
      split; [apply Ex1|exact Wj].
    + inv_bind E. apply within_clean in Ex0. assert (Sx := within_single _ _ Ex0 Sp). destruct (0 <? sp_len x0).
      * inv_bind E. apply IH in E; [|exact Sj|apply Forall_app; split; [exact Q|constructor; [exact (reference_piece x0 _ Sx Ex1)|constructor]]].
        split; [apply E|]. eapply within_trans; [exact Wj|apply E].
      * apply IH in E; [|exact Sj|exact Q]. split; [apply E|]. eapply within_trans; [exact Wj|apply E].
  - inv_bind E. inversion E; subst. apply block_new_flat in Ex0; [|exact Q]. split; [apply Ex0|apply within_refl].
Qed.

Lemma makefile_line_flat : forall m i strip r b, single i -> makefile_line i m strip = Ok (POk r b) -> flat_block b /\ within i r.
Proof.
  intros m i strip r b S E. unfold makefile_line in E. inv_bind E. destruct x as [j [p e]|ks|ks]; [|discriminate|discriminate].
  assert (W : within i j /\ within i p) by (destruct strip; [eapply within_next|eapply within_grab]; exact Ex).
  destruct W as (Wj & Wp). assert (Sp := within_single _ _ Wp S). assert (Sj := within_single _ _ Wj S).
  inv_bind E. destruct (Nat.even x).
  - inv_bind E. inv_bind E. inversion E; subst. apply block_new_flat in Ex2; [|constructor; [exact (reference_piece p _ Sp Ex1)|constructor]].
    split; [apply Ex2|exact Wj].
  - inv_bind E. apply within_clean in Ex1. assert (Sx := within_single _ _ Ex1 Sp). destruct (0 <? sp_len x0).
    + inv_bind E. apply line_loop_flat in E; [|exact Sj|constructor; [exact (reference_piece x0 _ Sx Ex2)|constructor]].
      split; [apply E|]. eapply within_trans; [exact Wj|apply E].
    + apply line_loop_flat in E; [|exact Sj|constructor]. split; [apply E|]. eapply within_trans; [exact Wj|apply E].
Qed.

Lemma makefile_line_tidy : forall m i strip r b, wf_span i -> single i -> makefile_line i m strip = Ok (POk r b) -> tidy_block b /\ within i r.
Proof.
  intros m i strip r b W S E. destruct (makefile_line_flat _ _ _ _ _ S E) as (F & H). split; [|exact H]. split; [exact F|].
  exact (makefile_line_made _ _ _ _ _ W E).
Qed.
