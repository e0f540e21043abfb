(** Proofs about the evaluator: it computes the expansion of [EvalSpec]. *)
From Verif Require Import Base LocModel EvdModel NomModel AstModel ParseModel EvdSpec ParseSpec EvalSpec DbProofs
  EvdProofs EvdProofs2 EvdProofs3 ParseProofs ParseProofs2 ParseProofs3 ParseProofs4 ParseProofs5 SubstProofs EvalProofs EngineModel.

(** * The result of a substitution reference is unique *)
Section Det.
  Context {A : Type} (ch : A -> char).
  Lemma matches_det : forall pk qk (w : list A) s1 s2, matches ch pk qk w s1 -> matches ch pk qk w s2 -> s1 = s2.
  Proof.
    intros pk qk w s1 s2 (a1 & z1 & E1 & A1 & Z1 & M1) (a2 & z2 & E2 & A2 & Z2 & M2).
    assert (La : List.length a1 = List.length a2) by (rewrite <- (map_length ch a1), <- (map_length ch a2); congruence).
    rewrite E1 in E2. apply app_inj_len in E2 as (-> & E2); [|exact La].
    assert (L1 : List.length s1 <= List.length (List.map ch s2)).
    { apply (M1 (List.map ch s2) []). rewrite app_nil_r, E2, map_app, Z2. reflexivity. }
    assert (L2 : List.length s2 <= List.length (List.map ch s1)).
    { apply (M2 (List.map ch s1) []). rewrite app_nil_r, <- E2, map_app, Z1. reflexivity. }
    rewrite map_length in L1, L2. apply app_inj_len in E2 as (E2 & _); [exact E2|lia].
  Qed.
  Lemma replaced_det : forall pk qk pr qr (w : list A) r1 r2, replaced ch pk qk pr qr w r1 -> replaced ch pk qk pr qr w r2 -> r1 = r2.
  Proof.
    intros pk qk pr qr w r1 r2 [w1 s1 M1|w1 N1] H2; inversion H2 as [w2 s2 M2|w2 N2]; subst; auto.
    - rewrite (matches_det _ _ _ _ _ M1 M2). reflexivity.
    - destruct (N2 _ M1).
    - destruct (N1 _ M2).
  Qed.
  Lemma substituted_det : forall sp k r v o1 o2, substituted ch sp k r v o1 -> substituted ch sp k r v o2 -> o1 = o2.
  Proof.
    intros sp k r v o1 o2 (pk & qk & pr & qr & ws & P & F & ->) (pk' & qk' & pr' & qr' & ws' & P' & F' & ->).
    assert (Q : pk' = pk /\ qk' = qk /\ pr' = pr /\ qr' = qr).
    { destruct P; inversion P'; subst;
        repeat match goal with H : unquote _ _ _ ?x = ?a, H' : unquote _ _ _ ?x = ?b |- _ =>
          assert (a = b) as H'' by congruence; inversion H''; subst; clear H'' H' end; auto; try congruence. }
    destruct Q as (-> & -> & -> & ->). f_equal. revert ws' F'. induction F; intros ws' F'; inversion F'; subst; auto.
    f_equal; [eapply replaced_det; eauto|auto].
  Qed.
End Det.

(** * Names and worlds *)
Lemma sbn_refl : forall w, same_but_names w w.
Proof. intros w. unfold same_but_names. ands; auto. exists []. symmetry. apply app_nil_r. Qed.
Lemma sbn_trans : forall a b c, same_but_names a b -> same_but_names b c -> same_but_names a c.
Proof.
  intros a b c (D & C & F & m & V) (D' & C' & F' & m' & V'). unfold same_but_names. ands; try congruence.
  exists (m ++ m'). rewrite V', V, app_assoc. reflexivity.
Qed.

Lemma sbn_name : forall w w' nm id, same_but_names w w' -> variable_name (w_names w) nm = Some id ->
  variable_name (w_names w') nm = Some id.
Proof.
  intros w w' nm id (_ & _ & _ & m & V) H. unfold variable_name in *. rewrite V.
  destruct (interned nm (n_vars (w_names w))) eqn:E; [|discriminate]. rewrite (interned_app _ _ _ _ E). exact H.
Qed.

Lemma intern_world : forall w nm w' id, world_intern_variable w nm = (w', id) ->
  same_but_names w w' /\ variable_name (w_names w') nm = Some id.
Proof.
  intros w nm w' id E. unfold world_intern_variable in E.
  destruct (intern_variable_name (w_names w) nm) as [n i] eqn:I. inversion E; subst.
  assert (V := var_id _ _ _ _ I). split; [|exact V].
  unfold intern_variable_name in I. destruct (intern_spec nm (n_vars (w_names w))) as (k & Ek & _).
  destruct (get_or_intern nm (n_vars (w_names w))) as [l j]. inversion I; subst. cbn in Ek.
  unfold same_but_names, set_names. cbn. ands; auto. exists k. exact Ek.
Qed.

Lemma sbn_ok : forall w w', same_but_names w w' -> world_ok w -> world_ok w'.
Proof.
  intros w w' (D & _ & _ & m & V) H id v G. rewrite D in G. destruct (H id v G) as (L & A). split; auto.
  rewrite V, app_length. lia.
Qed.

Lemma interned_lt : forall s l i, interned s l = Some i -> i < length l.
Proof.
  induction l as [|t l IH]; cbn; intros i E; [discriminate|]. destruct (str_eqb s t); [inversion E; lia|].
  destruct (interned s l) eqn:Q; inversion E; subst. specialize (IH _ eq_refl). lia.
Qed.

Lemma interned_app_none : forall s l m i, interned s l = None -> interned s (l ++ m) = Some i -> length l <= i.
Proof.
  induction l as [|t l IH]; cbn; intros m i N E; [lia|]. destruct (str_eqb s t); [discriminate|].
  destruct (interned s l) eqn:Q; [discriminate|]. destruct (interned s (l ++ m)) eqn:Q2; inversion E; subst.
  specialize (IH m n eq_refl Q2). lia.
Qed.

Lemma sbn_env : forall w w', same_but_names w w' -> world_ok w -> forall nm, world_env w' nm = world_env w nm.
Proof.
  intros w w' Sb Ok nm. unfold world_env. pose proof Sb as (D & _ & _ & m & V). rewrite D.
  destruct (variable_name (w_names w) nm) as [id|] eqn:E; [rewrite (sbn_name _ _ _ _ Sb E); reflexivity|].
  destruct (variable_name (w_names w') nm) as [id|] eqn:E'; [|reflexivity].
  unfold variable_name in *. rewrite V in E'. destruct (interned nm (n_vars (w_names w))) eqn:Q; [discriminate|].
  destruct (interned nm (n_vars (w_names w) ++ m)) eqn:Q'; [|discriminate]. inversion E'; subst.
  apply interned_app_none in Q'; auto. destruct (get_variable (w_db w) (N.of_nat n)) eqn:G; [|reflexivity].
  apply Ok in G as (L & _). rewrite Nnat.Nat2N.id in L. lia.
Qed.

(** A lookup by number is a lookup by name. *)
Lemma env_lookup : forall w nm id, variable_name (w_names w) nm = Some id ->
  world_env w nm = option_map v_ast (get_variable (w_db w) id).
Proof. intros w nm id E. unfold world_env. rewrite E. reflexivity. Qed.

Lemma records_nil : forall w, records w [] [].
Proof. intros w. split; [|intros nm []]. intros id. split; [intros []|intros (nm & [] & _)]. Qed.

Lemma records_later : forall w w' s d, same_but_names w w' -> records w s d -> records w' s d.
Proof.
  intros w w' s d Sb (H1 & H2). split.
  - intros id. rewrite H1. split; intros (nm & I & V).
    + exists nm. split; auto. eapply sbn_name; eauto.
    + exists nm. split; auto. destruct (variable_name (w_names w) nm) as [j|] eqn:E; [|destruct (H2 nm I E)].
      rewrite (sbn_name _ _ _ _ Sb E) in V. exact V.
  - intros nm I E. destruct (variable_name (w_names w) nm) as [j|] eqn:Q; [|destruct (H2 nm I Q)].
    rewrite (sbn_name _ _ _ _ Sb Q) in E. discriminate.
Qed.

Lemma records_union : forall w s1 d1 s2 d2, records w s1 d1 -> records w s2 d2 -> records w (set_union s1 s2) (d1 ++ d2).
Proof.
  intros w s1 d1 s2 d2 (A1 & A2) (B1 & B2). split.
  - intros id. rewrite set_union_In, A1, B1. split.
    + intros [(nm & I & V)|(nm & I & V)]; exists nm; split; auto; apply in_or_app; auto.
    + intros (nm & I & V). apply in_app_or in I as [I|I]; [left|right]; eauto.
  - intros nm I. apply in_app_or in I as [I|I]; auto.
Qed.

Lemma records_add : forall w s d nm id, records w s d -> variable_name (w_names w) nm = Some id -> records w (set_add id s) (nm :: d).
Proof.
  intros w s d nm id (A1 & A2) V. split.
  - intros j. rewrite set_add_In, A1. split.
    + intros [->|(m & I & U)]; [exists nm; split; auto; left; reflexivity|exists m; split; auto; right; exact I].
    + intros (m & [<-|I] & U); [left; congruence|right; eauto].
  - intros m [<-|I]; auto. congruence.
Qed.

Lemma records_perm : forall w s d d', (forall x, In x d <-> In x d') -> records w s d -> records w s d'.
Proof.
  intros w s d d' H (A1 & A2). split.
  - intros id. rewrite A1. split; intros (nm & I & V); exists nm; split; auto; apply H; auto.
  - intros nm I. apply A2, H, I.
Qed.

(** * Pieces *)
Lemma const_cref : forall s, asciis (l_str s) -> wf_cref0 (ev_constant s) /\ cref_marks (ev_constant s) = located_marks s.
Proof.
  intros s A. unfold ev_constant, new_from_node. cbn [node_len].
  assert (B : blen (l_str s) = length (l_str s)).
  { induction A as [|c t Ac _ IH]; cbn; auto. rewrite IH. unfold len_utf8. replace (c <? 128)%N with true; auto.
    symmetry. apply N.ltb_lt. exact Ac. }
  split.
  - apply wf_cref_w0. cbn. split; [lia|exact A].
  - cbn [cref_marks node_marks]. rewrite skipn_O. apply firstn_all2. rewrite B. unfold located_marks.
    clear. generalize (l_loc s). induction (l_str s) as [|c t IH]; intros l; cbn; auto. specialize (IH (step_location l c)). lia.
Qed.

Lemma node_cref : forall n v, node_block n = Some v -> wf_block v ->
  wf_cref0 (new_from_node n) /\ cref_marks (new_from_node n) = block_marks v.
Proof.
  intros n v E W.
  assert (L : length (block_marks v) = block_len v) by (apply crefs_marks_len; exact W).
  assert (NL : node_len n = block_len v) by (destruct n; cbn in E; inversion E; subst; reflexivity).
  assert (Wn : wf_node n).
  { destruct n; cbn in E; inversion E; subst; destruct v as [sens cs]; unfold wf_block in W; cbn in W |- *;
      clear - W; induction W; cbn; auto. }
  unfold new_from_node. rewrite NL. split.
  - apply wf_cref_w0. unfold wf_cref_w. split; [lia|exact Wn].
  - cbn [cref_marks]. rewrite (node_marks_block n v E), skipn_O, firstn_all2; auto. lia.
Qed.

Lemma block_new_pieces : forall sens cs b, block_new sens cs = Ok b -> length cs <= 1 -> length (b_content b) <= 1.
Proof.
  intros sens cs b E L. unfold block_new, block_simplify in E. cbn [b_content] in E.
  destruct cs as [|c [|c' cs]]; cbn in L; [| |lia]; cbn [filter] in E; [cbn in E; inversion E; cbn; lia|].
  destruct (negb (c_len c =? 0)); cbn [mapM] in E; [|cbn in E; inversion E; cbn; lia].
  destruct (cref_simplify c); cbn in E; inversion E. cbn. lia.
Qed.

(** * Parts of expressions and pieces of their values *)
Definition fits (ps : list (option (list placed))) (qs : list (list placed)) : Prop :=
  Forall2 (fun p q => match p with Some t => q = t | None => True end) ps qs.

Lemma one_piece_parts : forall a, one_piece a -> length (parts a) <= 1.
Proof.
  fix IH 1. intros a; destruct a as [| | |? [|a0 [|a1 ns]]| | | | |]; intros H; cbn in *; try lia; try contradiction.
  - rewrite map_length. exact H.
  - rewrite app_nil_r. apply IH. exact H.
Qed.

Lemma fits_pieces : forall a cs, one_piece a -> fits (parts a) cs -> length cs <= 1.
Proof.
  intros a cs O F. apply one_piece_parts in O. assert (length (parts a) = length cs); [|lia].
  clear O. induction F; cbn; auto.
Qed.

Lemma fits_words : forall ps cs, blank_between ps -> fits ps cs -> words_whole cs.
Proof.
  intros ps cs B F before after u x y v E Eu Ev.
  assert (X : exists b1 m b2, before = b1 ++ m :: b2 /\ concat b2 = [] /\ exists u', m = u' ++ [x]).
  { clear - Eu. revert u Eu. induction before as [|m before IH] using rev_ind; intros u Eu; [destruct u; discriminate|].
    rewrite concat_app in Eu. cbn in Eu. rewrite app_nil_r in Eu. destruct m as [|z m _] using rev_ind.
    - rewrite app_nil_r in Eu. destruct (IH u Eu) as (b1 & m & b2 & -> & E2 & X). exists b1, m, (b2 ++ [[]]).
      rewrite <- app_assoc. cbn. split; [reflexivity|]. split; [rewrite concat_app, E2; reflexivity|exact X].
    - exists before, (m ++ [z]), []. split; [reflexivity|]. split; [reflexivity|]. rewrite app_assoc in Eu.
      apply app_inj_tail in Eu as (_ & ->). eauto. }
  destruct X as (b1 & m & b2 & -> & E2 & u' & ->). rewrite <- app_assoc in E. cbn [app] in E.
  assert (Y : exists q rest, b2 ++ after = q :: rest /\ forall z w, q = z :: w -> z = y).
  { destruct b2 as [|q b2]; cbn in *.
    - destruct after as [|q after]; [discriminate|]. exists q, after. split; [reflexivity|]. intros z w ->. cbn in Ev. congruence.
    - exists q, (b2 ++ after). split; [reflexivity|]. intros z w ->. discriminate. }
  destruct Y as (q & rest & Eq & Y). rewrite Eq in E.
  subst cs.
  unfold fits in F. apply Forall2_app_inv_r in F as (p1 & p2 & _ & F & ->). inversion F as [|p ? p3 ? Fp F']; subst.
  inversion F' as [|p' ? p4 ? Fp' _]; subst.
  destruct (B p1 p p' p4 eq_refl) as [(w & z & -> & Z)|(z & w & -> & Z)].
  - left. apply app_inj_tail in Fp as (_ & ->). exact Z.
  - right. rewrite <- (Y _ _ Fp'). exact Z.
Qed.

(** Leaving out empty texts. *)
Lemma words_whole_filter : forall f ps, (forall p, In p ps -> f p = false -> p = []) -> words_whole ps -> words_whole (filter f ps).
Proof.
  intros f ps He H before after u x y v E Eu Ev.
  assert (X : exists p q, ps = p ++ q /\ filter f p = before /\ filter f q = after).
  { clear - E. revert before E. induction ps as [|m ps IH]; intros before E; cbn in E.
    - exists [], []. destruct before; [|discriminate]. cbn in *. auto.
    - destruct (f m) eqn:Fm.
      + destruct before as [|b before].
        * exists [], (m :: ps). cbn in *. rewrite Fm. auto.
        * cbn in E. injection E as <- E. destruct (IH before E) as (p & q & -> & <- & <-). exists (m :: p), q. cbn. rewrite Fm. auto.
      + destruct (IH before E) as (p & q & -> & <- & <-). exists (m :: p), q. cbn. rewrite Fm. auto. }
  destruct X as (p & q & -> & <- & <-).
  assert (C : forall l, (forall p, In p l -> f p = false -> p = []) -> concat (filter f l) = concat l).
  { induction l as [|m l IH]; intros Hl; cbn; auto. destruct (f m) eqn:Fm; cbn; rewrite IH by (intros; apply Hl; cbn; auto); auto.
    rewrite (Hl m (or_introl eq_refl) Fm). reflexivity. }
  rewrite C in Eu, Ev by (intros; apply He; auto; apply in_app_iff; auto). exact (H p q u x y v eq_refl Eu Ev).
Qed.

Lemma bind_ok : forall {A B} (r : res A) (f : A -> res B) z, bind r f = Ok z -> exists x, r = Ok x /\ f x = Ok z.
Proof. intros A B [x| |] f z E; cbn in E; try discriminate. eauto. Qed.

Definition full {A} (p : list A) : bool := negb (List.length p =? 0).
Lemma full_false : forall {A} (p : list A), full p = false -> p = [].
Proof. intros A [|x p] H; [reflexivity|discriminate]. Qed.
Lemma concat_full : forall {A} (ps : list (list A)), concat (filter full ps) = concat ps.
Proof. induction ps as [|[|x p] ps IH]; cbn; auto. f_equal. f_equal. exact IH. Qed.
Lemma in_pieces_full : forall {A} (ps : list (list A)), in_pieces (filter full ps) = in_pieces ps.
Proof. intros A. unfold in_pieces. induction ps as [|[|x p] ps IH]; cbn; auto. f_equal. f_equal. exact IH. Qed.

(** What is known of the pieces of the value of an expression. *)
Definition pieced (ps : list (list placed)) (b : block) : Prop := List.map cref_marks (b_content b) = filter full ps.

Lemma block_new_pieced : forall sens cs b, Forall wf_cref0 cs -> block_new sens cs = Ok b -> pieced (List.map cref_marks cs) b.
Proof.
  intros sens cs b W E. unfold block_new, block_simplify in E. cbn [b_content b_sens] in E. apply bind_ok in E as (x & Ex & E).
  inversion E; subst. unfold pieced. cbn [b_content].
  clear - W Ex. revert x Ex. induction W as [|c cs Wc W IH]; intros x Ex; cbn [filter List.map] in *; [cbn in Ex; inversion Ex; reflexivity|].
  destruct (Nat.eqb_spec (c_len c) 0) as [Z|Z]; cbn [negb] in Ex.
  - rewrite marks_empty_ref by exact Z. cbn. exact (IH _ Ex).
  - destruct Wc as [Wc|Wc]; [|contradiction]. unfold full at 1. rewrite (cref_marks_len c Wc). destruct (Nat.eqb_spec (c_len c) 0); [contradiction|]. cbn [negb].
    cbn [mapM] in Ex. destruct (cref_simplify_ok c Wc) as (c' & Ec & _ & M & _). rewrite Ec in Ex. cbn [bind] in Ex.
    apply bind_ok in Ex as (y & Ey & Ex). inversion Ex; subst. cbn [List.map]. rewrite M. f_equal. exact (IH _ Ey).
Qed.

Lemma pieced_text : forall ps b, pieced ps b -> block_marks b = concat ps.
Proof. intros ps b P. unfold block_marks, crefs_marks. rewrite P. apply concat_full. Qed.

Lemma pieced_words : forall ps b, pieced ps b -> words_whole ps -> words_whole (List.map cref_marks (b_content b)).
Proof. intros ps b P H. rewrite P. apply words_whole_filter; [intros p _; apply full_false|exact H]. Qed.

Lemma pieced_one : forall ps b, pieced ps b -> in_one ps -> length (b_content b) <= 1.
Proof.
  intros ps b P H. rewrite <- (map_length cref_marks), P. clear P.
  assert (G : forall ps : list (list placed), (forall q, In q (filter full ps) -> q <> []) /\ (filter full ps = [] -> True)).
  { intros qs. split; auto. intros q I. apply filter_In in I as (_ & F). destruct q; discriminate. }
  induction ps as [|p ps IH]; cbn; [lia|]. destruct (full p) eqn:F.
  - assert (concat ps = []) as E.
    { destruct (H [p] ps eq_refl) as [Q|Q]; [|exact Q]. cbn in Q. rewrite app_nil_r in Q. subst. discriminate. }
    rewrite <- concat_full in E. destruct (filter full ps) as [|q qs] eqn:Eq; [cbn; lia|].
    destruct (proj1 (G ps) q). + rewrite Eq. now left. + destruct q; [reflexivity|discriminate].
  - apply IH. intros b1 a1 E. destruct (H (p :: b1) a1) as [Q|Q]; [cbn; congruence| |auto]. left. cbn in Q. apply app_eq_nil in Q. tauto.
Qed.

Lemma in_one_short : forall ps, length ps <= 1 -> in_one ps.
Proof. intros ps L before after ->. destruct before as [|p before]; [now left|]. destruct after; [now right|]. rewrite app_length in L. cbn in L. lia. Qed.

Lemma pieces_fit : forall e a ps d, pieces_of e a ps d -> fits (parts a) ps.
Proof.
  intros e. apply (pieces_mut e (fun a ps d _ => fits (parts a) ps) (fun ns ps d _ => fits (concat (List.map parts ns)) ps));
    intros; unfold fits in *; cbn [parts List.map concat]; auto; try (repeat constructor; fail).
  - induction (b_content b); constructor; auto.
  - apply Forall2_app; auto.
Qed.

Lemma one_piece_in : forall e a ps d, pieces_of e a ps d -> one_piece a -> in_one ps.
Proof. intros e a ps d X O. apply in_one_short. exact (fits_pieces a ps O (pieces_fit e a ps d X)). Qed.

Lemma whole_one : forall l s, whole_words (AConst l s).
Proof. intros l s before p q after E. destruct before as [|? [|? ?]]; discriminate. Qed.

Lemma whole_words_in : forall e a ps d, pieces_of e a ps d -> whole_words a -> words_whole ps.
Proof. intros e a ps d X W. exact (fits_words _ _ W (pieces_fit e a ps d X)). Qed.

(** * Expansions as text *)
Lemma E_empty : forall e l, expands e (AEmpty l) [] [].
Proof. intros. exists []. split; [constructor|reflexivity]. Qed.
Lemma E_const : forall e l s, expands e (AConst l s) (located_marks s) [].
Proof. intros. eexists. split; [constructor|]. cbn. now rewrite app_nil_r. Qed.
Lemma E_pre : forall e l b, expands e (APre l b) (block_marks b) [].
Proof. intros. eexists. split; [constructor|]. reflexivity. Qed.
Lemma E_concat : forall e l ns m d, expands_all e ns m d -> expands e (AConcat l ns) m d.
Proof. intros e l ns m d (ps & X & ->). eexists. split; [constructor; eassumption|reflexivity]. Qed.
Lemma E_undefined : forall e l nm m1 d1, expands e nm m1 d1 -> plain m1 -> e (chars m1) = None -> expands e (AVar l nm) [] (d1 ++ [chars m1]).
Proof. intros e l nm m1 d1 (ps & X & ->) P U. exists [[]]. split; [constructor; assumption|reflexivity]. Qed.
Lemma E_var : forall e l nm m1 d1 v m2 d2, expands e nm m1 d1 -> plain m1 -> e (chars m1) = Some v ->
  expands e v m2 d2 -> expands e (AVar l nm) m2 (d1 ++ chars m1 :: d2).
Proof. intros e l nm m1 d1 v m2 d2 (ps & X & ->) P U (qs & Y & ->). eexists. split; [econstructor; eassumption|]. cbn. now rewrite app_nil_r. Qed.
Lemma E_subst_undefined : forall e l nm m1 d1 n k r, expands e nm m1 d1 -> one_piece nm -> is_subst m1 n k r -> e (chars n) = None ->
  expands e (AVar l nm) [] (d1 ++ [chars n]).
Proof. intros e l nm m1 d1 n k r (ps & X & ->) O S U. exists [[]]. split; [econstructor; eauto using one_piece_in|reflexivity]. Qed.
Lemma E_nil : forall e, expands_all e [] [] [].
Proof. intros. exists []. split; [constructor|reflexivity]. Qed.
Lemma E_cons : forall e a ns m1 d1 m2 d2, expands e a m1 d1 -> expands_all e ns m2 d2 -> expands_all e (a :: ns) (m1 ++ m2) (d1 ++ d2).
Proof. intros e a ns m1 d1 m2 d2 (ps & X & ->) (qs & Y & ->). exists (ps ++ qs). split; [constructor; assumption|symmetry; apply concat_app]. Qed.

(** The other way around. *)
Lemma expands_all_nil : forall e m d, expands_all e [] m d -> m = [] /\ d = [].
Proof. intros e m d (ps & X & ->). inversion X; auto. Qed.
Lemma expands_all_cons : forall e a ns m d, expands_all e (a :: ns) m d ->
  exists m1 d1 m2 d2, m = m1 ++ m2 /\ d = d1 ++ d2 /\ expands e a m1 d1 /\ expands_all e ns m2 d2.
Proof.
  intros e a ns m d (ps & X & ->). inversion X as [|? ? p1 d1 p2 d2 X1 X2]; subst. exists (concat p1), d1, (concat p2), d2.
  rewrite concat_app. split; [reflexivity|]. split; [reflexivity|]. split; eexists; split; eauto.
Qed.
Lemma expands_empty : forall e l m d, expands e (AEmpty l) m d -> m = [] /\ d = [].
Proof. intros e l m d (ps & X & ->). inversion X; auto. Qed.

(** * Substitution references are functions *)
Lemma pattern_det : forall {A} (ch : A -> char) k r pk qk pr qr pk' qk' pr' qr', pattern ch k r pk qk pr qr -> pattern ch k r pk' qk' pr' qr' ->
  pk' = pk /\ qk' = qk /\ pr' = pr /\ qr' = qr.
Proof.
  intros A ch k r pk qk pr qr pk' qk' pr' qr' P P'. destruct P; inversion P'; subst;
    repeat match goal with H : unquote _ _ _ ?x = ?a, H' : unquote _ _ _ ?x = ?b |- _ =>
      assert (a = b) as H'' by congruence; inversion H''; subst; clear H'' H' end; auto; try congruence.
Qed.

Lemma cut_replaced_det : forall {A} (ch : A -> char) pk qk pr qr w r1 r2, cut_replaced ch pk qk pr qr w r1 -> cut_replaced ch pk qk pr qr w r2 -> r1 = r2.
Proof.
  intros A ch pk qk pr qr w r1 r2 [a1 s1 z1 M1 A1 Z1|w1 N1] H2; inversion H2 as [a2 s2 z2 M2 A2 Z2 E|w2 N2 E]; subst; auto.
  - rewrite E in M2. assert (Q := matches_det _ _ _ _ _ _ M1 M2). subst s2.
    assert (La : length a1 = length a2) by (rewrite <- (map_length (tch ch) a1), <- (map_length (tch ch) a2), A2; reflexivity).
    apply app_inj_len in E as (-> & E); [|lia]. apply app_inv_head in E as ->. reflexivity.
  - destruct (N2 _ M1).
  - destruct (N1 _ M2).
Qed.

Lemma cut_substituted_det : forall {A} (ch : A -> char) sp k r v o1 o2, cut_substituted ch sp k r v o1 -> cut_substituted ch sp k r v o2 -> o1 = o2.
Proof.
  intros A ch sp k r v o1 o2 (pk & qk & pr & qr & ws & P & F & ->) (pk' & qk' & pr' & qr' & ws' & P' & F' & ->).
  destruct (pattern_det _ _ _ _ _ _ _ _ _ _ _ P P') as (-> & -> & -> & ->). f_equal. revert ws' F'. induction F; intros ws' F'; inversion F'; subst; auto.
  f_equal; [eapply cut_replaced_det; eauto|auto].
Qed.

(** * Unfolding the evaluator *)
Section Unfold.
  Context (ev : world -> ast -> res (world * block)) (pb : world -> block -> res (world * mresult)).
  Fixpoint eval_nodes (w : world) (nodes : list ast) (sens : list N) (acc : list cref) : res (world * list N * list cref) :=
    match nodes with
    | [] => Ok (w, sens, acc)
    | n :: nodes' => let* '(w, s, c) := eval_internal ev pb w n in eval_nodes w nodes' (set_union sens s) (acc ++ c)
    end.
  Lemma eval_concat : forall w l ns, eval_internal ev pb w (AConcat l ns) = eval_nodes w ns [] [].
  Proof. reflexivity. Qed.
End Unfold.

(** * The evaluator computes the expansion *)
Section Correct.
  Context (fs : str -> file).

  Definition good (f : nat) (e : env) (a : ast) (ps : list (list placed)) (d : list str) : Prop :=
    forall w, world_ok w -> ast_ok a -> (forall nm, world_env w nm = e nm) ->
    exists w' sens cs, eval_internal (eval_fuel fs f) (process_fuel fs f) w a = Ok (w', sens, cs) /\
      Forall wf_cref0 cs /\ List.map cref_marks cs = ps /\ same_but_names w w' /\ records w' sens d.

  Definition good_all (f : nat) (e : env) (ns : list ast) (ps : list (list placed)) (d : list str) : Prop :=
    forall w sens0 d0 cs0, world_ok w -> Forall ast_ok ns -> (forall nm, world_env w nm = e nm) ->
    Forall wf_cref0 cs0 -> records w sens0 d0 ->
    exists w' sens cs, eval_nodes (eval_fuel fs f) (process_fuel fs f) w ns sens0 cs0 = Ok (w', sens, cs) /\
      Forall wf_cref0 cs /\ List.map cref_marks cs = List.map cref_marks cs0 ++ ps /\ same_but_names w w' /\ records w' sens (d0 ++ d).

  (** Evaluating the value of a variable. *)
  Lemma good_eval : forall f e a ps d, good f e a ps d -> forall w, world_ok w -> ast_ok a -> (forall nm, world_env w nm = e nm) ->
    exists w' b, eval_fuel fs (S f) w a = Ok (w', b) /\ wf_block b /\ block_marks b = concat ps /\ same_but_names w w' /\
      records w' (b_sens b) d /\ pieced ps b.
  Proof.
    intros f e a ps d G w Ok Aa E. destruct (G w Ok Aa E) as (w' & sens & cs & Ev & Wc & M & Sb & R).
    cbn [eval_fuel]. unfold eval_step. rewrite Ev. cbn [bind].
    destruct (block_new_ok sens cs Wc) as (b & Eb & Wb & Mb & Sb' & _). rewrite Eb. cbn [bind].
    assert (P := block_new_pieced sens cs b Wc Eb). rewrite M in P.
    exists w', b. ands; auto; [exact (pieced_text _ _ P)|rewrite Sb'; exact R].
  Qed.

  Lemma forall_ok : forall ns, fold_right (fun n P => ast_ok n /\ P) True ns -> Forall ast_ok ns.
  Proof. induction ns; cbn; intros H; constructor; try apply IHns; apply H. Qed.

  Ltac fuel_ge f0 f := destruct f as [|f]; [lia|].

  Lemma records_name : forall w w' sens sens' d1 nm id d2, same_but_names w w' -> records w sens d1 ->
    variable_name (w_names w') nm = Some id -> records w' sens' d2 ->
    records w' (set_add id (set_union sens sens')) (d1 ++ nm :: d2).
  Proof.
    intros w w' sens sens' d1 nm id d2 Sb R1 V R2.
    apply records_perm with (nm :: (d1 ++ d2)).
    - intros x. cbn. rewrite !in_app_iff. cbn. tauto.
    - apply records_add; auto. apply records_union; auto. eapply records_later; eauto.
  Qed.

  (** Reading a variable of name [nm] through the name cache. *)
  Lemma deref_ok : forall f e nm w sens d1, world_ok w -> (forall nm, world_env w nm = e nm) -> records w sens d1 ->
    match e nm with
    | None => exists w' sens', deref_variable (eval_fuel fs f) w sens nm = Ok (w', sens', block_empty) /\ same_but_names w w' /\
        records w' sens' (d1 ++ [nm])
    | Some v => forall m d g, good g e v m d -> f = S g -> 
        exists w' sens' b, deref_variable (eval_fuel fs f) w sens nm = Ok (w', sens', b) /\ same_but_names w w' /\
        records w' sens' (d1 ++ nm :: d) /\ wf_block b /\ block_marks b = concat m /\ pieced m b
    end.
  Proof.
    intros f e nm w sens d1 Ok E R. unfold deref_variable. destruct (world_intern_variable w nm) as [w1 id] eqn:I.
    apply intern_world in I as (Sb & V). assert (Env := sbn_env w w1 Sb Ok).
    assert (L := env_lookup w1 nm id V). rewrite Env, E in L. assert (Ok1 := sbn_ok _ _ Sb Ok).
    destruct (e nm) as [v|] eqn:En.
    - intros m d g G ->. destruct (get_variable (w_db w1) id) as [vp|] eqn:Gv; [|discriminate]. cbn in L. inversion L; subst v.
      destruct (good_eval g e _ m d G w1 Ok1) as (w2 & b & Eb & Wb & Mb & Sb2 & R2 & O2).
      { apply (Ok1 id vp Gv). }
      { intros x. rewrite Env. apply E. }
      rewrite Eb. cbn [bind]. exists w2, (set_add id (set_union sens (b_sens b))), b. ands; auto.
      + eapply sbn_trans; eauto.
      + apply (records_name w w2 sens (b_sens b) d1 nm id d); auto; [eapply sbn_trans; eauto|eapply sbn_name; eauto].
    - destruct (get_variable (w_db w1) id) eqn:Gv; [discriminate|]. exists w1, (set_add id sens). ands; auto.
      apply records_perm with (nm :: d1).
      + intros x. rewrite in_app_iff. cbn. tauto.
      + apply records_add; auto. eapply records_later; eauto.
  Qed.

  (** The name of a reference. *)
  Lemma name_ok : forall f e a m d, good f e a m d -> forall w, world_ok w -> ast_ok a -> (forall nm, world_env w nm = e nm) ->
    exists w' sens cs b, eval_internal (eval_fuel fs f) (process_fuel fs f) w a = Ok (w', sens, cs) /\ block_new sens cs = Ok b /\
      wf_block b /\ block_marks b = concat m /\ same_but_names w w' /\ records w' (b_sens b) d /\ world_ok w' /\
      (forall nm, world_env w' nm = e nm) /\ pieced m b.
  Proof.
    intros f e a m d G w Ok Aa E. destruct (G w Ok Aa E) as (w' & sens & cs & Ev & Wc & M & Sb & R).
    destruct (block_new_ok sens cs Wc) as (b & Eb & Wb & Mb & Sb' & _).
    assert (P := block_new_pieced sens cs b Wc Eb). rewrite M in P.
    exists w', sens, cs, b. ands; auto; [exact (pieced_text _ _ P)|rewrite Sb'; exact R|eapply sbn_ok; eauto|].
    intros nm. rewrite (sbn_env w w' Sb Ok). apply E.
  Qed.

  Lemma subref_empty : forall sens key repl, wf_block key -> wf_block repl ->
    exists b, do_subref sens block_empty key repl = Ok b /\ wf_block b /\ block_marks b = [].
  Proof.
    intros sens key repl Wk Wr.
    destruct (do_subref_ok sens block_empty key repl) as (b & E & Wb & pk & qk & pr & qr & ws & _ & F & M);
      [exact (Forall_nil _)|apply words_whole_short; cbn; lia|exact Wk|exact Wr|].
    exists b. ands; auto. change (block_marks block_empty) with (@nil (N * location)) in F. cbn in F. inversion F; subst. exact M.
  Qed.

  Theorem pieces_good : forall e a m d, pieces_of e a m d -> exists f0, forall f, f0 <= f -> good f e a m d.
  Proof.
    intros e.
    apply (pieces_mut e (fun a m d _ => exists f0, forall f, f0 <= f -> good f e a m d)
                         (fun ns m d _ => exists f0, forall f, f0 <= f -> good_all f e ns m d)).
    - intros l. exists 0. intros f _ w Ok Aa E. cbn [eval_internal]. exists w, [], []. ands; auto using sbn_refl, records_nil.
    - intros l s. exists 0. intros f _ w Ok Aa E. cbn [eval_internal]. destruct (const_cref s Aa) as (Wc & M).
      exists w, [], [ev_constant s]. ands; auto using sbn_refl, records_nil.
      cbn [List.map]. rewrite M. reflexivity.
    - intros l b. exists 0. intros f _ w Ok Aa E. cbn [eval_internal]. exists w, [], (b_content b).
      ands; auto using sbn_refl, records_nil. eapply Forall_impl; [|exact Aa]. intros c H. left. exact H.
    - intros l ns m d _ (f0 & IH). exists f0. intros f Lf w Ok Aa E. rewrite eval_concat.
      destruct (IH f Lf w [] [] [] Ok (forall_ok _ Aa) E (Forall_nil _) (records_nil w)) as (w' & sens & cs & Ev & Wc & M & Sb & R).
      exists w', sens, cs. ands; auto.
    - (* undefined *)
      intros l nm m1 d1 _ (f0 & IH) P U. exists f0. intros f Lf w Ok Aa E. cbn [eval_internal].
      destruct (name_ok f e nm m1 d1 (IH f Lf) w Ok Aa E) as (w1 & s1 & c1 & b & Ev & Eb & Wb & Mb & Sb & R & Ok1 & E1 & _).
      rewrite Ev. cbn [bind]. rewrite Eb. cbn [bind].
      destruct (colon_find_plain (block_span b)) as (ks & Ec); [apply block_span_wf; auto|rewrite block_span_marks, Mb; auto|].
      rewrite Ec. cbn [bind]. rewrite (block_into_string_ok b Wb). cbn [bind].
      rewrite <- block_marks_text, Mb. fold (chars (concat m1)).
      pose proof (deref_ok f e (chars (concat m1)) w1 (b_sens b) d1 Ok1 E1 R) as D. rewrite U in D. destruct D as (w2 & s2 & D & Sb2 & R2).
      rewrite D. cbn [bind]. 
      destruct (node_cref (NVar b block_empty) block_empty eq_refl (Forall_nil _)) as (Wc & Mc).
      exists w2, s2, [ev_variable_reference b block_empty]. unfold ev_variable_reference. ands; auto.
      eapply sbn_trans; eauto.
    - (* defined *)
      intros l nm m1 d1 v m2 d2 _ (f0 & IH) P U _ (f1 & IH2). exists (S (f0 + f1)). intros f Lf w Ok Aa E. cbn [eval_internal].
      destruct (name_ok f e nm m1 d1 (IH f ltac:(lia)) w Ok Aa E) as (w1 & s1 & c1 & b & Ev & Eb & Wb & Mb & Sb & R & Ok1 & E1 & _).
      rewrite Ev. cbn [bind]. rewrite Eb. cbn [bind].
      destruct (colon_find_plain (block_span b)) as (ks & Ec); [apply block_span_wf; auto|rewrite block_span_marks, Mb; auto|].
      rewrite Ec. cbn [bind]. rewrite (block_into_string_ok b Wb). cbn [bind].
      rewrite <- block_marks_text, Mb. fold (chars (concat m1)).
      pose proof (deref_ok f e (chars (concat m1)) w1 (b_sens b) d1 Ok1 E1 R) as D. rewrite U in D.
      destruct f as [|g]; [lia|]. destruct (D m2 d2 g (IH2 g ltac:(lia)) eq_refl) as (w2 & s2 & bv & D' & Sb2 & R2 & Wv & Mv & _).
      rewrite D'. cbn [bind].
      destruct (node_cref (NVar b bv) bv eq_refl Wv) as (Wc & Mc).
      exists w2, s2, [ev_variable_reference b bv]. unfold ev_variable_reference. ands; auto.
      + cbn [List.map]. rewrite Mc, Mv. reflexivity.
      + eapply sbn_trans; eauto.
    - (* substitution reference to an undefined variable *)
      intros l nm m1 d1 n k r _ (f0 & IH) Op Su U. exists f0. intros f Lf w Ok Aa E. cbn [eval_internal].
      destruct (name_ok f e nm m1 d1 (IH f Lf) w Ok Aa E) as (w1 & s1 & c1 & b & Ev & Eb & Wb & Mb & Sb & R & Ok1 & E1 & Fl).
      rewrite Ev. cbn [bind]. rewrite Eb. cbn [bind].
      destruct (colon_find_subst (block_span b) n k r) as (rest & sn & sk & c & q & Ec & Wr & Wn & Wk & Mn & Mk & Mr);
        [apply block_span_wf; auto|exact (pieced_one _ _ Fl Op)|rewrite block_span_marks, Mb; auto|].
      rewrite Ec. cbn [bind].
      destruct (drop_last_ok sn n c Wn Mn) as (sn' & En & Wn' & Mn' & _). rewrite En. cbn [bind].
      destruct (to_new_block_ok sn' Wn') as (bn & Ebn & Wbn & Mbn & _). rewrite Ebn. cbn [bind].
      destruct (drop_last_ok sk k q Wk Mk) as (sk' & Ek & Wk' & Mk' & _). rewrite Ek. cbn [bind].
      destruct (to_new_block_ok sk' Wk') as (bk & Ebk & Wbk & Mbk & _). rewrite Ebk. cbn [bind].
      destruct (to_new_block_ok rest Wr) as (br & Ebr & Wbr & Mbr & _). rewrite Ebr. cbn [bind].
      rewrite (block_into_string_ok bn Wbn). cbn [bind]. rewrite <- block_marks_text, Mbn, Mn'. fold (chars n).
      pose proof (deref_ok f e (chars n) w1 (b_sens b) d1 Ok1 E1 R) as D. rewrite U in D. destruct D as (w2 & s2 & D & Sb2 & R2).
      rewrite D. cbn [bind].
      destruct (subref_empty s2 bk br Wbk Wbr) as (bv & Ebv & Wbv & Mbv). rewrite Ebv. cbn [bind].
      destruct (node_cref (NSubst bn bk br bv) bv eq_refl Wbv) as (Wc & Mc).
      exists w2, s2, [ev_substitution_reference bn bk br bv]. unfold ev_substitution_reference. ands; auto.
      + cbn [List.map]. rewrite Mc, Mbv. reflexivity.
      + eapply sbn_trans; eauto.
    - (* substitution reference *)
      intros l nm m1 d1 n k r v m2 d2 out _ (f0 & IH) Op Su U _ (f1 & IH2) Out. exists (S (f0 + f1)). intros f Lf w Ok Aa E. cbn [eval_internal].
      destruct (name_ok f e nm m1 d1 (IH f ltac:(lia)) w Ok Aa E) as (w1 & s1 & c1 & b & Ev & Eb & Wb & Mb & Sb & R & Ok1 & E1 & Fl).
      rewrite Ev. cbn [bind]. rewrite Eb. cbn [bind].
      destruct (colon_find_subst (block_span b) n k r) as (rest & sn & sk & c & q & Ec & Wr & Wn & Wk & Mn & Mk & Mr);
        [apply block_span_wf; auto|exact (pieced_one _ _ Fl Op)|rewrite block_span_marks, Mb; auto|].
      rewrite Ec. cbn [bind].
      destruct (drop_last_ok sn n c Wn Mn) as (sn' & En & Wn' & Mn' & _). rewrite En. cbn [bind].
      destruct (to_new_block_ok sn' Wn') as (bn & Ebn & Wbn & Mbn & _). rewrite Ebn. cbn [bind].
      destruct (drop_last_ok sk k q Wk Mk) as (sk' & Ek & Wk' & Mk' & _). rewrite Ek. cbn [bind].
      destruct (to_new_block_ok sk' Wk') as (bk & Ebk & Wbk & Mbk & _). rewrite Ebk. cbn [bind].
      destruct (to_new_block_ok rest Wr) as (br & Ebr & Wbr & Mbr & _). rewrite Ebr. cbn [bind].
      rewrite (block_into_string_ok bn Wbn). cbn [bind]. rewrite <- block_marks_text, Mbn, Mn'. fold (chars n).
      pose proof (deref_ok f e (chars n) w1 (b_sens b) d1 Ok1 E1 R) as D. rewrite U in D.
      destruct f as [|g]; [lia|]. destruct (D m2 d2 g (IH2 g ltac:(lia)) eq_refl) as (w2 & s2 & bv & D' & Sb2 & R2 & Wv & Mv & Flv).
      rewrite D'. cbn [bind].
      destruct (do_subref_all s2 bv bk br Wv Wbk Wbr) as (bo & Ebo & Wbo & Mbo). rewrite Ebo. cbn [bind].
      destruct (node_cref (NSubst bn bk br bo) bo eq_refl Wbo) as (Wc & Mc).
      exists w2, s2, [ev_substitution_reference bn bk br bo]. unfold ev_substitution_reference. ands; auto.
      + cbn [List.map]. rewrite Mc. f_equal. rewrite Mbk, Mk', Mbr, Mr, Flv in Mbo.
        apply (cut_substituted_det fst (made 32%N) k r m2); [|exact Out].
        unfold cut_substituted in *. rewrite in_pieces_full in Mbo. exact Mbo.
      + eapply sbn_trans; eauto.
    - exists 0. intros f _ w sens0 d0 cs0 Ok An E Wc0 R0. cbn [eval_nodes]. exists w, sens0, cs0.
      rewrite !app_nil_r. ands; auto using sbn_refl.
    - intros a ns m1 d1 m2 d2 _ (f0 & IH) _ (f1 & IH2). exists (f0 + f1). intros f Lf w sens0 d0 cs0 Ok An E Wc0 R0. cbn [eval_nodes].
      inversion An; subst. destruct (IH f ltac:(lia) w Ok H1 E) as (w1 & s1 & c1 & Ev & Wc & M & Sb & R). rewrite Ev. cbn [bind].
      destruct (IH2 f ltac:(lia) w1 (set_union sens0 s1) (d0 ++ d1) (cs0 ++ c1)) as (w2 & s2 & c2 & Ev2 & Wc2 & M2 & Sb2 & R2); auto.
      { eapply sbn_ok; eauto. }
      { intros x. rewrite (sbn_env w w1 Sb Ok). apply E. }
      { apply Forall_app; auto. }
      { apply records_union; auto. eapply records_later; eauto. }
      rewrite Ev2. exists w2, s2, c2. ands; auto.
      + rewrite M2, map_app, M, app_assoc. reflexivity.
      + eapply sbn_trans; eauto.
      + rewrite app_assoc. exact R2.
  Qed.
End Correct.
