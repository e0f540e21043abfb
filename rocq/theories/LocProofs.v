From Verif Require Import Base LocModel LocSpec EvdProofs.

Lemma cmp_refl : forall a, location_partial_cmp a a = Some Eq.
Proof. destruct a; cbn; rewrite ?N.eqb_refl, ?N.compare_refl; reflexivity. Qed.

Lemma cmp_comparable : forall a b, (exists o, location_partial_cmp a b = Some o) <-> same_source a b.
Proof.
  assert (L : forall (al bl ac bc : N), exists o, (if (al =? bl)%N then Some (ac ?= bc)%N else Some (al ?= bl)%N) = Some o)
    by (intros; destruct (_ =? _)%N; eauto).
  destruct a, b; cbn; try (split; [intros [o H]; discriminate|contradiction]).
  - destruct (N.eqb_spec filename filename0); split; intros; auto; [destruct H; discriminate|contradiction].
  - destruct (N.eqb_spec tree_node tree_node0); split; intros; auto; [destruct H; discriminate|contradiction].
  - split; eauto.
  - split; auto.
Qed.

Lemma lex_lt : forall al ac bl bc, (if (al =? bl)%N then Some (ac ?= bc)%N else Some (al ?= bl)%N) = Some Lt <->
  (al < bl \/ (al = bl /\ ac < bc))%N.
Proof.
  intros. destruct (N.eqb_spec al bl) as [->|H].
  - split; [intros E; inversion E; right; split; [reflexivity|assumption]|].
    intros [H|[_ H]]; [lia|]. f_equal. exact H.
  - split; [intros E; inversion E; left; assumption|]. intros [H1|[H1 _]]; [f_equal; exact H1|contradiction].
Qed.

Lemma cmp_lt : forall a b, location_partial_cmp a b = Some Lt <-> same_source a b /\ earlier a b.
Proof.
  unfold earlier. destruct a, b; cbn [location_partial_cmp same_source loc_line loc_col]; cbv zeta; try (split; [discriminate|tauto]).
  - destruct (N.eqb_spec filename filename0); [rewrite lex_lt; tauto|]. split; [discriminate|tauto].
  - destruct (N.eqb_spec tree_node tree_node0); [rewrite lex_lt; tauto|]. split; [discriminate|tauto].
  - split; [discriminate|lia].
  - rewrite lex_lt. tauto.
Qed.

Lemma lex_flip : forall al ac bl bc,
  (if (bl =? al)%N then Some (bc ?= ac)%N else Some (bl ?= al)%N) =
  option_map CompOpp (if (al =? bl)%N then Some (ac ?= bc)%N else Some (al ?= bl)%N).
Proof.
  intros. rewrite (N.eqb_sym bl al), (N.compare_antisym ac bc), (N.compare_antisym al bl). destruct (al =? bl)%N; reflexivity.
Qed.

Lemma cmp_flip : forall a b, location_partial_cmp b a = option_map CompOpp (location_partial_cmp a b).
Proof.
  destruct a, b; cbn; try reflexivity.
  - rewrite N.eqb_sym. destruct (_ =? _)%N; [apply lex_flip|reflexivity].
  - rewrite N.eqb_sym. destruct (_ =? _)%N; [apply lex_flip|reflexivity].
  - apply lex_flip.
Qed.

Lemma cmp_eq : forall a b, location_partial_cmp a b = Some Eq <-> a = b.
Proof.
  intros a b. split; [|intros ->; apply cmp_refl].
  assert (L : forall al ac bl bc, (if (al =? bl)%N then Some (ac ?= bc)%N else Some (al ?= bl)%N) = Some Eq -> al = bl /\ ac = bc).
  { intros. destruct (N.eqb_spec al bl) as [->|H0].
    - inversion H. apply N.compare_eq in H1. auto.
    - inversion H. apply N.compare_eq in H2. contradiction. }
  destruct a, b; cbn; intros H; try discriminate; try reflexivity.
  - destruct (N.eqb_spec filename filename0); [|discriminate]. apply L in H as [-> ->]. congruence.
  - destruct (N.eqb_spec tree_node tree_node0); [|discriminate]. apply L in H as [-> ->]. congruence.
  - apply L in H as [-> ->]. reflexivity.
Qed.

Lemma cmp_trans : forall a b c, location_partial_cmp a b = Some Lt -> location_partial_cmp b c = Some Lt ->
  location_partial_cmp a c = Some Lt.
Proof.
  intros a b c H1 H2. apply cmp_lt in H1 as [S1 E1], H2 as [S2 E2]. apply cmp_lt. unfold earlier in *. split; [|lia].
  destruct a, b, c; cbn in *; try contradiction; congruence.
Qed.

(** ** Slicing *)

Lemma bsplit_spec : forall s n a b, bsplit n s = Ok (a, b) <-> s = a ++ b /\ blen a = n.
Proof.
  assert (Hp : forall c, 0 < len_utf8 c) by (intros c; unfold len_utf8; repeat destruct (_ <? _)%N; lia).
  induction s as [|c s IH]; intros n a b; split.
  - destruct n; cbn; intros H; inversion H; subst. auto.
  - intros [H E]. symmetry in H. apply app_eq_nil in H as [-> ->]. cbn in E. subst. reflexivity.
  - destruct n as [|n]; cbn [bsplit]; [intros H; inversion H; subst; auto|].
    destruct (Nat.leb_spec (len_utf8 c) (S n)); [|discriminate].
    destruct (bsplit (S n - len_utf8 c) s) as [[x y]| |] eqn:E; try discriminate. cbn.
    intros H1; inversion H1; subst. apply IH in E as [-> E]. cbn. split; [reflexivity|]. lia.
  - intros [H E]. destruct a as [|c' a]; cbn in H, E.
    + subst. reflexivity.
    + inversion H; subst. pose proof (Hp c'). destruct (len_utf8 c' + blen a) eqn:El; [lia|]. rewrite <- El.
      cbn [bsplit]. rewrite El. rewrite <- El. destruct (Nat.leb_spec (len_utf8 c') (len_utf8 c' + blen a)); [|lia].
      replace (len_utf8 c' + blen a - len_utf8 c') with (blen a) by lia.
      rewrite (proj2 (IH (blen a) a b)) by auto. reflexivity.
Qed.

Lemma newlines_cons : forall c s, newlines (c :: s) = (if (c =? c_nl)%N then 1 else 0) + newlines s.
Proof. intros. unfold newlines. cbn [filter]. rewrite N.eqb_sym. destruct (c =? c_nl)%N; reflexivity. Qed.

Lemma newlines_none : forall s, newlines s = 0 <-> existsb (N.eqb c_nl) s = false.
Proof.
  induction s as [|c s IH]; [split; reflexivity|]. rewrite newlines_cons. cbn [existsb].
  rewrite (N.eqb_sym c_nl c). destruct (c =? c_nl)%N; cbn; [split; [lia|discriminate]|assumption].
Qed.

Lemma last_line_none : forall s, existsb (N.eqb c_nl) s = false -> last_line s = s.
Proof.
  destruct s as [|c s]; [reflexivity|]. cbn [existsb last_line]. intros H. apply orb_false_iff in H as [H1 H2]. rewrite H2, (N.eqb_sym c c_nl), H1. reflexivity.
Qed.

Definition col_after (c : N) (s : str) : N :=
  (if (newlines s =? 0)%nat then c + N.of_nat (length s) else 1 + N.of_nat (length (last_line s)))%N.

Lemma col_step : forall c0 c s, col_after c0 (c :: s) = if (c =? c_nl)%N then col_after 1 s else col_after (c0 + 1) s.
Proof.
  intros c0 c s. unfold col_after. rewrite newlines_cons. cbn [last_line length].
  destruct (Nat.eqb_spec (newlines s) 0) as [Z|Z].
  - rewrite (proj1 (newlines_none s) Z), Z. destruct (c =? c_nl)%N; cbn [Nat.add Nat.eqb length]; lia.
  - assert (Hx : existsb (N.eqb c_nl) s = true)
      by (destruct (existsb (N.eqb c_nl) s) eqn:E; [reflexivity|exfalso; apply Z, newlines_none; assumption]).
    rewrite Hx. destruct (Nat.eqb_spec ((if (c =? c_nl)%N then 1 else 0) + newlines s) 0); [lia|].
    destruct (c =? c_nl)%N; reflexivity.
Qed.

Lemma advance_moved : forall s l, advance_over l s = moved l s.
Proof.
  induction s as [|c s IH]; intros l.
  - destruct l; cbn; rewrite ?N.add_0_r; reflexivity.
  - change (advance_over l (c :: s)) with (advance_over (if (c =? c_nl)%N then advance_line l else advance_character l) s).
    rewrite IH. clear IH.
    destruct l as [ln co f|t ln co| |ln co]; cbn [moved]; try (destruct (c =? c_nl)%N; reflexivity);
      fold (col_after co (c :: s)); rewrite col_step, newlines_cons;
      destruct (c =? c_nl)%N; cbn [advance_line advance_character moved];
      fold (col_after 1 s); fold (col_after (co + 1) s); f_equal; lia.
Qed.

Lemma moved_later : forall l s, location_partial_cmp l (moved l s) = Some Eq \/ location_partial_cmp l (moved l s) = Some Lt.
Proof.
  intros l s. destruct s as [|c s].
  - left. replace (moved l []) with l by (destruct l; cbn; rewrite ?N.add_0_r; reflexivity). apply cmp_refl.
  - destruct l as [ln co f|t ln co| |ln co]; [right|right|left; reflexivity|right]; apply cmp_lt; unfold earlier; cbn [moved same_source loc_line loc_col];
    (split; [reflexivity || exact I|]); destruct (Nat.eqb_spec (newlines (c :: s)) 0) as [E|E]; try rewrite E; cbn [length]; lia.
Qed.

Lemma located_slice_spec : forall l a n l',
  located_slice l a n = Ok l' <->
  exists skipped rest, l_str l = skipped ++ l_str l' ++ rest /\ blen skipped = a /\ blen (l_str l') = n /\
    a < blen (l_str l) /\ l_loc l' = moved (l_loc l) skipped.
Proof.
  intros l a n l'. unfold located_slice. split.
  - intros H. destruct (Nat.ltb_spec a (blen (l_str l))) as [Ha|Ha]; [|discriminate]. cbn [rassert bind] in H.
    destruct (Nat.leb_spec (a + n) (blen (l_str l))); [|discriminate]. cbn [rassert bind] in H.
    destruct (bsplit a (l_str l)) as [[x y]| |] eqn:E; try discriminate. cbn [bind] in H.
    destruct (bsplit n y) as [[z w]| |] eqn:E2; try discriminate. cbn [bind] in H. inversion H; subst; clear H. cbn [l_str l_loc].
    apply bsplit_spec in E as [E Ex], E2 as [E2 Ez]. exists x, w. ands; try assumption; [congruence|apply advance_moved].
  - intros (x & w & E & Hx & Hz & Ha & El).
    assert (Hblen : forall a b, blen (a ++ b) = blen a + blen b).
    { induction a0 as [|c a0 IH]; intros b; cbn; [reflexivity|]. rewrite IH. lia. }
    rewrite rassert_true by now apply Nat.ltb_lt. cbn [bind].
    rewrite rassert_true. 2:{ apply Nat.leb_le. rewrite E, !Hblen. lia. } cbn [bind].
    rewrite (proj2 (bsplit_spec (l_str l) a x (l_str l' ++ w))) by auto. cbn [bind].
    rewrite (proj2 (bsplit_spec (l_str l' ++ w) n (l_str l') w)) by auto. cbn [bind].
    rewrite advance_moved, <- El. destruct l'; reflexivity.
Qed.

Lemma located_slice_later : forall l a n l', located_slice l a n = Ok l' ->
  located_partial_cmp l l' = Some Eq \/ located_partial_cmp l l' = Some Lt.
Proof.
  intros l a n l' H. apply located_slice_spec in H as (x & w & _ & _ & _ & _ & E).
  unfold located_partial_cmp. rewrite E. apply moved_later.
Qed.

Lemma located_order_witness : exists a b, located_partial_cmp a b = Some Eq /\ a <> b.
Proof. exists (Located Synthetic []), (Located Synthetic [c_nl]). split; [reflexivity|discriminate]. Qed.
