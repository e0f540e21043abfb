(** Substitution references depend on the characters of the texts only. *)
From Verif Require Import Base LocModel EvdModel AstModel EngineModel EvdSpec ParseSpec EvalSpec EvalProofs2.
Local Open Scope nat_scope.

Notation text := (list (N * location)).
Notation same := (fun c : char => c).

Definition end_chars (e : @unquote_end (N * location)) : @unquote_end char :=
  match e with Stopped c r => Stopped (fst c) (chars r) | Ended p => Ended (chars p) end.
Lemma unquote_chars : forall stop (t pend : text),
  unquote same stop (chars pend) (chars t) = (chars (fst (unquote fst stop pend t)), end_chars (snd (unquote fst stop pend t))).
Proof.
  intros stop. induction t as [|c t IH]; intros pend; [reflexivity|]. cbn [unquote chars List.map].
  fold (chars t) (chars pend). assert (L : length (chars pend) = length pend) by apply map_length. rewrite L.
  destruct (backslash (fst c)).
  - rewrite <- IH. unfold chars. rewrite map_app. reflexivity.
  - specialize (IH []). cbn [chars List.map] in IH. fold (chars t) in IH. destruct (stop (fst c)).
    + destruct (Nat.even (length pend)); [cbn; unfold chars; rewrite firstn_map; reflexivity|].
      rewrite IH. destruct (unquote fst stop [] t) as [o e]. cbn. unfold chars. rewrite map_app, firstn_map. reflexivity.
    + rewrite IH. destruct (unquote fst stop [] t) as [o e]. cbn. unfold chars. rewrite map_app. reflexivity.
Qed.

Lemma map_same : forall l : str, List.map same l = l.
Proof. intros l. apply map_id. Qed.
Lemma matches_chars : forall pk qk (w : text) stem, matches same pk qk (chars w) stem ->
  exists st : text, chars st = stem /\ matches fst pk qk w st.
Proof.
  intros pk qk w stem (a & z & E & A & Z & H). unfold chars in E. apply map_eq_app in E as (ta & r & -> & Ea & E).
  apply map_eq_app in E as (st & tz & -> & Es & Ez). exists st. split; [exact Es|]. exists ta, tz. rewrite map_same in A, Z.
  split; [reflexivity|]. split; [congruence|]. split; [congruence|]. intros p q Q. assert (L : length stem = length st) by (rewrite <- Es; apply map_length).
  rewrite <- L. apply (H p q). rewrite map_same, <- Es, <- Ez, <- map_app. exact Q.
Qed.
Lemma chars_matches : forall pk qk (w st : text), matches fst pk qk w st -> matches same pk qk (chars w) (chars st).
Proof.
  intros pk qk w st (a & z & -> & A & Z & H). exists (chars a), (chars z). rewrite !map_same. split; [unfold chars; rewrite !map_app; reflexivity|].
  split; [exact A|]. split; [exact Z|]. intros p q Q. unfold chars. rewrite map_length. apply (H p q). rewrite <- Q. apply map_app.
Qed.
Lemma replaced_chars : forall pk qk (pr qr w : text) o, replaced same pk qk (chars pr) (chars qr) (chars w) o ->
  exists t : text, replaced fst pk qk pr qr w t /\ chars t = o.
Proof.
  intros pk qk pr qr w o R. inversion R as [w' stem M|w' N]; subst.
  - apply matches_chars in M as (st & <- & M). exists (pr ++ st ++ qr). split; [constructor; exact M|]. unfold chars. rewrite !map_app. reflexivity.
  - exists w. split; [|reflexivity]. apply R_keep. intros st M. exact (N _ (chars_matches _ _ _ _ M)).
Qed.
Lemma pattern_chars : forall (k r : text) pk qk pr qr, pattern same (chars k) (chars r) pk qk pr qr ->
  exists tp tq, pattern fst k r pk qk tp tq /\ chars tp = pr /\ chars tq = qr.
Proof.
  intros k r pk qk pr qr P. pose proof (unquote_chars percent k []) as K. pose proof (unquote_chars percent r []) as R. cbn [chars List.map] in K, R.
  destruct (unquote fst percent [] k) as [o e] eqn:Uk, (unquote fst percent [] r) as [o' e'] eqn:Ur. cbn [fst snd] in K, R.
  inversion P as [? ? ? ? Q|? ? ? ? ? ? ? ? Q Q'|? ? ? ? ? ? ? Q Q']; subst; rewrite K in Q.
  - destruct e as [c rest|pend']; [discriminate Q|]. injection Q as <- <-. exists [], r. split; [|split; reflexivity].
    rewrite map_same. replace (chars o ++ chars pend') with (List.map fst (o ++ pend')) by apply map_app. constructor. exact Uk.
  - destruct e as [c' rest'|]; [|discriminate Q]. injection Q as <- <- <-. rewrite R in Q'. destruct e' as [rc' rr'|]; [|discriminate Q']. injection Q' as <- <- <-.
    exists o', rr'. split; [|split; reflexivity]. rewrite !map_same. exact (P_stem fst _ _ _ _ _ _ _ _ Uk Ur).
  - destruct e as [c' rest'|]; [|discriminate Q]. injection Q as <- <- <-. rewrite R in Q'. destruct e' as [|pend']; [discriminate Q'|]. injection Q' as <- <-.
    exists [], (o' ++ pend'). split; [|split; [reflexivity|apply map_app]]. rewrite !map_same. exact (P_no_stem fst _ _ _ _ _ _ _ Uk Ur).
Qed.
Lemma pattern_some : forall k r : text, exists pk qk pr qr, pattern fst k r pk qk pr qr.
Proof.
  intros k r. destruct (unquote fst percent [] k) as [o [c rest|p]] eqn:U.
  - destruct (unquote fst percent [] r) as [o' [c' rest'|p']] eqn:U'; repeat eexists; [eapply P_stem|eapply P_no_stem]; eauto.
  - repeat eexists. eapply P_suffix; eauto.
Qed.
Lemma join_chars : forall (s : N * location) ws, chars (join s ws) = join (fst s) (List.map chars ws).
Proof.
  intros s. induction ws as [|w ws IH]; [reflexivity|]. destruct ws as [|v ws]; [reflexivity|].
  change (join s (w :: v :: ws)) with (w ++ s :: join s (v :: ws)). unfold chars at 1. rewrite map_app. cbn [List.map]. fold (chars (join s (v :: ws))). rewrite IH. reflexivity.
Qed.
Lemma split_same : forall (p : char -> bool) (t w : text), List.map chars (split_at fst p w t) = split_at same p (chars w) (chars t).
Proof.
  intros p. assert (W : forall (w : text) ws, List.map chars (word_and w ws) = word_and (chars w) (List.map chars ws)) by (intros [|a w] ws; reflexivity).
  induction t as [|a t IH]; intros w; cbn [split_at chars List.map]; [exact (W w [])|]. destruct (p (fst a)).
  - rewrite W. f_equal. apply (IH []).
  - rewrite IH. unfold chars. rewrite map_app. reflexivity.
Qed.
Lemma subst_words_chars : forall t : text, subst_words same (chars t) = List.map chars (subst_words fst t).
Proof.
  intros [|a t]; [reflexivity|]. unfold subst_words. cbn [chars List.map]. change (fst a :: List.map fst t) with (chars (a :: t)).
  pose proof (split_same blank (a :: t) []) as Q. cbn [chars List.map] in Q. change (fst a :: List.map fst t) with (chars (a :: t)) in Q. rewrite <- Q. destruct (split_at fst blank [] (a :: t)); reflexivity.
Qed.

Lemma subst_chars : forall (k r m : text) out, substituted same c_space (chars k) (chars r) (chars m) out ->
  exists o, substituted fst (made c_space) k r m o /\ chars o = out.
Proof.
  intros k r m out (pk & qk & pr & qr & ws & P & F & ->). apply pattern_chars in P as (tp & tq & P & <- & <-). rewrite subst_words_chars in F.
  assert (X : exists os : list text, Forall2 (replaced fst pk qk tp tq) (subst_words fst m) os /\ List.map chars os = ws).
  { revert ws F. generalize (subst_words fst m). induction l as [|w l IH]; intros ws F; inversion F; subst; [exists []; split; [constructor|reflexivity]|].
    destruct (IH _ H3) as (os & Fo & <-). match goal with H : replaced _ _ _ _ _ _ _ |- _ => apply replaced_chars in H as (o & R & <-) end.
    exists (o :: os). split; [constructor; auto|reflexivity]. }
  destruct X as (os & Fo & <-). exists (join (made c_space) os). split; [|apply join_chars]. exists pk, qk, tp, tq, os. auto.
Qed.
Lemma subst_nothing : forall k r : text, substituted fst (made c_space) k r [] [].
Proof. intros k r. destruct (pattern_some k r) as (pk & qk & pr & qr & P). exists pk, qk, pr, qr, []. split; [exact P|]. split; [constructor|reflexivity]. Qed.

(** Values in pieces. *)
Definition untag (m : bool * (N * location)) : bool * char := (fst m, fst (snd m)).
Definition same_pieces (tps : list text) (ps : list str) : Prop := List.map untag (in_pieces tps) = in_pieces ps.

Lemma same_nil : same_pieces [] [].
Proof. reflexivity. Qed.
Lemma same_app : forall a b c d, same_pieces a b -> same_pieces c d -> same_pieces (a ++ c) (b ++ d).
Proof. unfold same_pieces, in_pieces. intros a b c d H K. rewrite !map_app, !concat_app, map_app. congruence. Qed.
Lemma same_one : forall t : text, same_pieces [t] [chars t].
Proof. intros [|x t]; [reflexivity|]. unfold same_pieces, in_pieces. cbn. rewrite !app_nil_r. f_equal. rewrite !map_map. reflexivity. Qed.
Lemma same_cons : forall (t : text) s a b, chars t = s -> same_pieces a b -> same_pieces (t :: a) (s :: b).
Proof. intros t s a b <- H. apply (same_app [t] [chars t] a b (same_one t) H). Qed.
Lemma same_empty : forall a b, same_pieces a b -> same_pieces a ([] :: b).
Proof. intros a b H. exact H. Qed.
Lemma in_pieces_chars : forall {A} (ps : list (list A)), List.map snd (in_pieces ps) = concat ps.
Proof.
  intros A ps. unfold in_pieces. induction ps as [|[|x p] ps IH]; cbn; [reflexivity|exact IH|]. f_equal. rewrite map_app, map_map, IH. cbn. rewrite map_id. reflexivity.
Qed.
Lemma same_concat : forall a b, same_pieces a b -> chars (concat a) = concat b.
Proof.
  intros a b H. rewrite <- !in_pieces_chars, <- H. unfold chars. rewrite !map_map. reflexivity.
Qed.

Lemma tch_untag : forall l, List.map (tch same) (List.map untag l) = List.map (tch fst) l.
Proof. intros l. rewrite map_map. reflexivity. Qed.
Lemma split_untag : forall (p : char -> bool) l w, List.map (List.map untag) (split_at (tch fst) p w l) = split_at (tch same) p (List.map untag w) (List.map untag l).
Proof.
  intros p. assert (W : forall w ws, List.map (List.map untag) (word_and w ws) = word_and (List.map untag w) (List.map (List.map untag) ws)) by (intros [|a w] ws; reflexivity).
  induction l as [|a l IH]; intros w; cbn [split_at List.map]; [exact (W w [])|]. change (tch same (untag a)) with (tch fst a). destruct (p (tch fst a)).
  - rewrite W. f_equal. apply (IH []).
  - rewrite IH, map_app. reflexivity.
Qed.
Lemma subst_words_untag : forall l, subst_words (tch same) (List.map untag l) = List.map (List.map untag) (subst_words (tch fst) l).
Proof.
  intros [|a l]; [reflexivity|]. pose proof (split_untag blank (a :: l) []) as Q. cbn [List.map] in Q. unfold subst_words. cbn [List.map]. rewrite <- Q.
  destruct (split_at (tch fst) blank [] (a :: l)); reflexivity.
Qed.
Lemma before_last_untag : forall l, before_last (List.map untag l) = option_map chars (before_last l).
Proof. induction l as [|m l IH]; [reflexivity|]. cbn. rewrite IH. destruct (before_last l); [reflexivity|]. destruct (fst m); reflexivity. Qed.
Lemma kept_untag : forall a z, EvalSpec.kept (List.map untag a) (List.map untag z) = chars (EvalSpec.kept a z).
Proof.
  intros a z. unfold EvalSpec.kept. rewrite firstn_map, <- map_app. destruct (a ++ firstn 1 z) as [|m l]; [reflexivity|]. cbn [List.map].
  rewrite before_last_untag. destruct (before_last l); [reflexivity|]. cbn [option_map]. unfold chars. rewrite !map_map. reflexivity.
Qed.
Lemma matches_untag : forall pk qk w st, matches (tch same) pk qk (List.map untag w) (List.map untag st) -> List.length st <= List.length w -> forall a z, w = a ++ st ++ z -> List.map (tch fst) a = pk -> List.map (tch fst) z = qk -> matches (tch fst) pk qk w st.
Proof.
  intros pk qk w st (a' & z' & E & A' & Z' & H) _ a z -> A Z. exists a, z. split; [reflexivity|]. split; [exact A|]. split; [exact Z|]. intros p q Q.
  specialize (H p q). rewrite map_length in H. apply H. rewrite <- Q, !map_app, tch_untag. congruence.
Qed.
Lemma untag_matches : forall pk qk w st, matches (tch fst) pk qk w st -> matches (tch same) pk qk (List.map untag w) (List.map untag st).
Proof.
  intros pk qk w st (a & z & -> & A & Z & H). exists (List.map untag a), (List.map untag z). rewrite !map_app. split; [reflexivity|]. rewrite !tch_untag. split; [exact A|]. split; [exact Z|].
  intros p q Q. rewrite map_length. apply (H p q). rewrite map_app. exact Q.
Qed.
Lemma cut_replaced_chars : forall pk qk (pr qr : text) w o, cut_replaced same pk qk (chars pr) (chars qr) (List.map untag w) o ->
  exists t : text, cut_replaced fst pk qk pr qr w t /\ chars t = o.
Proof.
  intros pk qk pr qr w o R. inversion R as [a stem z M A Z E|w' N]; subst.
  - symmetry in E. apply map_eq_app in E as (ta & r & -> & <- & E). apply map_eq_app in E as (ts & tz & -> & <- & <-). rewrite !tch_untag in M |- *.
    exists (pr ++ EvalSpec.kept ts tz ++ qr). split; [|unfold chars; rewrite !map_app; f_equal; f_equal; symmetry; apply kept_untag].
    apply CR_match; auto. rewrite <- !map_app in M. eapply (matches_untag _ _ (ta ++ ts ++ tz) ts); [|rewrite !app_length; lia|reflexivity|reflexivity|reflexivity]. rewrite !map_app in *. exact M.
  - exists (List.map snd w). split; [|unfold chars; rewrite !map_map; reflexivity]. apply CR_keep. intros st M. exact (N _ (untag_matches _ _ _ _ M)).
Qed.
Lemma cut_chars : forall (k r : text) tps ps out, same_pieces tps ps -> cut_substituted same c_space (chars k) (chars r) ps out ->
  exists o, cut_substituted fst (made c_space) k r tps o /\ chars o = out.
Proof.
  intros k r tps ps out S (pk & qk & pr & qr & ws & P & F & ->). apply pattern_chars in P as (tp & tq & P & <- & <-).
  unfold same_pieces in S. rewrite <- S, subst_words_untag in F.
  assert (X : exists os : list text, Forall2 (cut_replaced fst pk qk tp tq) (subst_words (tch fst) (in_pieces tps)) os /\ List.map chars os = ws).
  { revert ws F. generalize (subst_words (tch fst) (in_pieces tps)). induction l as [|w l IH]; intros ws F; inversion F; subst; [exists []; split; [constructor|reflexivity]|].
    destruct (IH _ H3) as (os & Fo & <-). match goal with H : cut_replaced _ _ _ _ _ _ _ |- _ => apply cut_replaced_chars in H as (o & R & <-) end.
    exists (o :: os). split; [constructor; auto|reflexivity]. }
  destruct X as (os & Fo & <-). exists (join (made c_space) os). split; [|apply join_chars]. exists pk, qk, tp, tq, os. auto.
Qed.

(** The characters of the result come from the value and from the replacement. *)
Lemma unquote_from : forall {A} (ch : A -> char) stop (P : A -> Prop) t pend, Forall P pend -> Forall P t ->
  Forall P (fst (unquote ch stop pend t)) /\ match snd (unquote ch stop pend t) with Stopped _ r => Forall P r | Ended p => Forall P p end.
Proof.
  intros A ch stop P. assert (Fn : forall n l, Forall P l -> Forall P (firstn n l)).
  { intros n l F. revert n. induction F; intros [|n]; cbn; constructor; auto. }
  induction t as [|c t IH]; intros pend Fp Ft; [split; [constructor|exact Fp]|]. inversion Ft as [|? ? Pc Ft']; subst. cbn [unquote].
  destruct (backslash (ch c)); [apply IH; [apply Forall_app; auto|exact Ft']|]. specialize (IH [] (Forall_nil _) Ft'). destruct (stop (ch c)).
  - destruct (Nat.even (length pend)); [split; [apply Fn; exact Fp|exact Ft']|].
    destruct (unquote ch stop [] t) as [o e]. cbn in *. destruct IH as [I1 I2]. split; [|exact I2]. apply Forall_app. split; [apply Fn; exact Fp|]. constructor; assumption.
  - destruct (unquote ch stop [] t) as [o e]. cbn in *. destruct IH as [I1 I2]. split; [|exact I2]. apply Forall_app. split; [exact Fp|]. constructor; assumption.
Qed.
Lemma pattern_from : forall {A} (ch : A -> char) (P : A -> Prop) k r pk qk pr qr, pattern ch k r pk qk pr qr -> Forall P r -> Forall P pr /\ Forall P qr.
Proof.
  intros A ch P k r pk qk pr qr H F. pose proof (unquote_from ch percent P r [] (Forall_nil _) F) as U.
  inversion H as [? ? ? ? Q|? ? ? ? ? ? ? ? Q Q'|? ? ? ? ? ? ? Q Q']; subst; [split; [constructor|exact F]|rewrite Q' in U; exact U|].
  rewrite Q' in U. cbn in U. split; [constructor|apply Forall_app; exact U].
Qed.
Lemma join_from : forall {A} (P : A -> Prop) s ws, P s -> Forall (Forall P) ws -> Forall P (join s ws).
Proof.
  intros A P s ws Ps F. induction F as [|w ws Fw F IH]; [constructor|]. destruct ws as [|v ws]; [exact Fw|].
  change (join s (w :: v :: ws)) with (w ++ s :: join s (v :: ws)). apply Forall_app. split; [exact Fw|]. constructor; assumption.
Qed.
Lemma split_from : forall {A} (ch : A -> char) (p : char -> bool) (P : A -> Prop) t w, Forall P w -> Forall P t -> Forall (Forall P) (split_at ch p w t).
Proof.
  intros A ch p P. assert (W : forall (w : list A) ws, Forall P w -> Forall (Forall P) ws -> Forall (Forall P) (word_and w ws)) by (intros [|a w] ws; cbn; auto).
  induction t as [|c t IH]; intros w Fw Ft; cbn [split_at]; [apply W; auto|]. inversion Ft; subst. destruct (p (ch c)); [apply W; auto|].
  apply IH; [apply Forall_app; auto|assumption].
Qed.
Lemma before_last_from : forall {A} (P : A -> Prop) (l : list (bool * A)) k, Forall (fun m => P (snd m)) l -> before_last l = Some k -> Forall P k.
Proof.
  intros A P l k F. revert k. induction F as [|m l Pm F IH]; intros k E; [discriminate|]. cbn in E. destruct (before_last l) as [k'|]; [injection E as <-; constructor; auto|].
  destruct (fst m); [injection E as <-; constructor|discriminate].
Qed.
Lemma cut_from : forall {A} (ch : A -> char) (P : A -> Prop) sp k r ps out, cut_substituted ch sp k r ps out -> P sp -> Forall P r -> Forall P (concat ps) -> Forall P out.
Proof.
  intros A ch P sp k r ps out (pk & qk & pr & qr & ws & Pt & F & ->) Ps Fr Fv. destruct (pattern_from ch P _ _ _ _ _ _ Pt Fr) as [Fpr Fqr].
  apply join_from; [exact Ps|]. assert (Fm : Forall (fun m : bool * A => P (snd m)) (in_pieces ps)).
  { rewrite <- in_pieces_chars in Fv. exact (proj1 (Forall_map snd P (in_pieces ps)) Fv). }
  assert (Fw : Forall (Forall (fun m : bool * A => P (snd m))) (subst_words (tch ch) (in_pieces ps))).
  { unfold subst_words. pose proof (split_from (tch ch) blank _ (in_pieces ps) [] (Forall_nil _) Fm) as Q. destruct (in_pieces ps); [constructor|].
    destruct (split_at (tch ch) blank [] (p :: l)); [constructor; constructor|exact Q]. }
  clear Fm Fv Pt. induction F as [|w o ws os R F IH]; [constructor|]. inversion Fw as [|? ? Fw1 Fw2]; subst. constructor; [|apply IH; exact Fw2].
  destruct R as [a stem z M A1 Z1|w N]; [|apply Forall_map; exact Fw1]. apply Forall_app in Fw1 as [_ Fw1]. apply Forall_app in Fw1 as [Fs Fz].
  apply Forall_app. split; [exact Fpr|]. apply Forall_app. split; [|exact Fqr]. unfold EvalSpec.kept.
  assert (Fl : Forall (fun m : bool * A => P (snd m)) (stem ++ firstn 1 z)) by (apply Forall_app; split; [exact Fs|destruct Fz; cbn; constructor; auto]).
  destruct (stem ++ firstn 1 z) as [|m l]; [constructor|]. inversion Fl as [|? ? F1 F2]; subst. destruct (before_last l) as [k'|] eqn:B; [|apply Forall_map; exact Fs].
  constructor; [exact F1|]. eapply before_last_from; eassumption.
Qed.
