(** Proofs about makefiles written out from statements: assignments over several lines. *)
From Coq Require Import String.
From Verif Require Import Base LocModel EvdModel AstModel EngineModel EvdSpec DbSpec ParseModel ParseSpec EvalSpec AstParseSpec EngineSpec MakeSpec
  ParseProofs ParseProofs2 EvalProofs4 MakeProofs MakeRun WriteSpec WriteProofs WriteProofs2.
Local Open Scope nat_scope.

(** * Lines that end in a backslash *)
Lemma continued_clean : forall (b : text) c p q, blank (fst c) = false -> fst c <> c_bslash -> fst p = c_space -> fst q = c_bslash ->
  continued fst ((b ++ [c]) ++ [p; q]) = true /\ clean fst GNU ((b ++ [c]) ++ [p; q]) = b ++ [c].
Proof.
  intros b c p q Bc Nc Fp Fq.
  assert (R : rev ((b ++ [c]) ++ [p; q]) = q :: p :: c :: rev b) by (rewrite !rev_app_distr; reflexivity).
  assert (T : tail_backslashes fst ((b ++ [c]) ++ [p; q]) = 1).
  { unfold tail_backslashes. rewrite R. cbn [take_while]. rewrite Fq, Fp. reflexivity. }
  split; [unfold continued; rewrite T; reflexivity|]. unfold clean. rewrite T. cbn [Nat.eqb].
  replace (List.length ((b ++ [c]) ++ [p; q]) <? 2) with false by (symmetry; apply Nat.ltb_ge; rewrite !app_length; cbn; lia).
  assert (X : rstrip fst ((b ++ [c]) ++ [p; q]) = b ++ [c]).
  { unfold rstrip. rewrite R. cbn [drop_while]. rewrite Fq, Fp. cbn [drop_while].
    replace (blank c_bslash || backslash c_bslash) with true by reflexivity. replace (blank c_space || backslash c_space) with true by reflexivity. cbn [drop_while].
    rewrite Bc. replace (backslash (fst c)) with false by (symmetry; apply N.eqb_neq; exact Nc). cbn [orb rev]. rewrite rev_involutive. reflexivity. }
  rewrite X. destruct b; reflexivity.
Qed.

(** A text that neither begins nor ends with a blank. *)
Lemma line_ends : forall e (te : text), long_line e -> chars te = show e ->
  lstrip fst te = te /\ te <> [] /\ Forall printable (chars te) /\ exists b c, te = b ++ [c] /\ blank (fst c) = false /\ fst c <> c_bslash.
Proof.
  intros e te (M & Ne & Nb & Nl) E. pose proof (show_printable e M) as P. rewrite <- E in P, Nl, Nb, Ne.
  split; [apply not_blank_strip; [exact P|exact Nb]|]. split; [intros ->; apply Ne; reflexivity|]. split; [exact P|].
  destruct te as [|a te'] using rev_ind; [contradiction Ne; reflexivity|]. exists te', a. split; [reflexivity|].
  rewrite chars_app in P, Nl. apply Forall_app in P as [_ P]. inversion P as [|? ? Pa _]; subst. rewrite rev_app_distr in Nl. cbn in Nl.
  split; [rewrite printable_blank by exact Pa; apply N.eqb_neq; exact Nl|unfold printable, c_bslash in *; lia].
Qed.

Definition rest_text (e : wexpr) (es : list wexpr) : str := show e ++ concat (List.map (fun e => continues ++ show e) es) ++ nl.
Definition line_is (e : wexpr) (te : text) : Prop := chars te = show e /\ unbroken te /\ forall x, In x te -> snd x <> Synthetic.

Lemma line_written : forall e te n u, chars te = show e -> unbroken (te ++ n :: u) -> line_is e te.
Proof.
  intros e te n u E U. split; [exact E|]. split; [exact (unbroken_app _ _ U)|]. intros x I. apply in_split in I as (p & q & ->). rewrite <- app_assoc in U. cbn [app] in U.
  destruct q as [|y q]; [exact (proj1 (U p x n u eq_refl))|exact (proj1 (U p x y (q ++ n :: u) eq_refl))].
Qed.
Lemma inline_no : forall (t : text), Forall printable (chars t) -> ~ has fst c_nl t.
Proof. intros t P. apply not_has. eapply Forall_impl; [|exact P]. intros a Q. unfold printable, c_nl in *. lia. Qed.

Lemma lstrip_blank : forall a (t : text), blank (fst a) = true -> lstrip fst (a :: t) = lstrip fst t.
Proof. intros a t B. unfold lstrip. cbn [drop_while]. rewrite B. reflexivity. Qed.

(** The lines after the first one. *)
Lemma tail_lines : forall es e a (t : text) u, fst a = c_tab -> chars t = rest_text e es ++ u -> Forall long_line (e :: es) -> unbroken t ->
  exists ls last t' ts, logical_line fst (a :: t) ls last t' /\ chars t' = u /\ Forall2 line_is (e :: es) ts /\ left_of t t' /\
    filter nonempty (List.map (fun l => clean fst GNU (lstrip fst l)) ls) ++ [lstrip fst last] = ts.
Proof.
  induction es as [|e' es IH]; intros e a t u Fa E F U; inversion F as [|? ? Le Fe]; subst.
  - unfold rest_text in E. cbn [List.map concat app] in E. rewrite <- !app_assoc in E. apply chars_split in E as (te & t1 & -> & Ee & E).
    cbn [nl app] in E. apply chars_cons in E as (n & t' & -> & Fn & E). destruct (line_ends e te Le Ee) as (S & Ne & P & b & c & Eb & Bc & Nc).
    exists [], (a :: te), t', [te]. split.
    { change (a :: te ++ n :: t') with ((a :: te) ++ n :: t'). apply LL_last; [|apply no_backslash|exact Fn].
      - intros (z & [<-|I] & Q); [rewrite Fa in Q; discriminate|]. apply (inline_no te P). exists z. auto.
      - cbn. constructor; [rewrite Fa; discriminate|]. eapply Forall_impl; [|exact P]. intros z Q. unfold printable, c_bslash in *. lia. }
    split; [exact E|]. split; [constructor; [exact (line_written _ _ _ _ Ee U)|constructor]|]. split; [exists (te ++ [n]); rewrite <- app_assoc; reflexivity|].
    cbn [List.map filter app]. rewrite lstrip_blank by (rewrite Fa; reflexivity). rewrite S. reflexivity.
  - unfold rest_text in E. cbn [List.map concat] in E.
    assert (E' : chars t = show e ++ c_space :: c_bslash :: c_nl :: c_tab :: rest_text e' es ++ u).
    { rewrite E. unfold rest_text. rewrite <- !app_assoc. reflexivity. }
    clear E. apply chars_split in E' as (te & t1 & -> & Ee & E). apply chars_cons in E as (p & t2 & -> & Fp & E). apply chars_cons in E as (q & t3 & -> & Fq & E).
    apply chars_cons in E as (n & t4 & -> & Fn & E). apply chars_cons in E as (a' & t5 & -> & Fa' & E).
    assert (U5 : unbroken t5) by (apply unbroken_after in U; do 4 apply unbroken_tail in U; exact U).
    destruct (IH e' a' t5 u Fa' E Fe U5) as (ls & last & t' & ts & L & Eu & F2 & Lf & Pc).
    destruct (line_ends e te Le Ee) as (S & Ne & P & b & c & Eb & Bc & Nc). destruct (continued_clean b c p q Bc Nc Fp Fq) as [Co Cl]. rewrite <- Eb in Co, Cl.
    exists (((a :: te) ++ [p; q]) :: ls), last, t', (te :: ts). split.
    { replace (a :: te ++ p :: q :: n :: a' :: t5) with (((a :: te) ++ [p; q]) ++ n :: a' :: t5) by (cbn [app]; rewrite <- app_assoc; reflexivity).
      apply LL_more; [| |exact Fn|exact L].
      - cbn [app]. intros (z & [<-|I] & Q); [rewrite Fa in Q; discriminate|]. apply in_app_or in I as [I|[<-|[<-|[]]]].
        + apply (inline_no te P). exists z. auto.
        + rewrite Fp in Q. discriminate.
        + rewrite Fq in Q. discriminate.
      - rewrite Eb in Co |- *. cbn [app]. change (a :: (b ++ [c]) ++ [p; q]) with (((a :: b) ++ [c]) ++ [p; q]).
        apply (continued_clean (a :: b) c p q Bc Nc Fp Fq). }
    split; [exact Eu|]. split; [constructor; [exact (line_written _ _ _ _ Ee U)|exact F2]|].
    split; [eapply left_trans; [|exact Lf]; exists (te ++ [p; q; n; a']); rewrite <- app_assoc; reflexivity|].
    cbn [List.map]. cbn [app]. rewrite lstrip_blank by (rewrite Fa; reflexivity).
    replace (lstrip fst (te ++ [p; q])) with (te ++ [p; q]).
    2:{ destruct te as [|y te]; [contradiction Ne; reflexivity|]. unfold lstrip in *. cbn [drop_while app] in *. destruct (blank (fst y)) eqn:By; [|reflexivity].
        exfalso. assert (Y : forall z : text, List.length (drop_while (fun a0 => blank (fst a0)) z) <= List.length z).
        { induction z as [|h z IHz]; [apply Nat.le_refl|]. cbn [drop_while]. destruct (blank (fst h)); [cbn; lia|apply Nat.le_refl]. }
        specialize (Y te). rewrite S in Y. cbn in Y. lia. }
    rewrite Cl. cbn [filter]. replace (nonempty te) with true by (destruct te; [contradiction Ne; reflexivity|reflexivity]). cbn [app]. rewrite Pc. reflexivity.
Qed.

Lemma join_concat : forall (sp : placed) ts t, join sp (t :: ts) = t ++ concat (List.map (cons sp) ts).
Proof.
  induction ts as [|t' ts IH]; intros t; [cbn; rewrite app_nil_r; reflexivity|]. change (join sp (t :: t' :: ts)) with (t ++ sp :: join sp (t' :: ts)). rewrite IH. reflexivity.
Qed.
Lemma lines_rel : forall k es ts v t, Forall long_line es -> Forall2 line_is es ts -> val_rel v (Deferred k t) ->
  val_rel (fold_left (fun v e => Plus v true (Later e)) es v) (Deferred k (t ++ concat (List.map (cons (made c_space)) ts))).
Proof.
  intros k es ts v t L F. revert v t. induction F as [|e te es ts (Ee & Ue & Le) F IH]; intros v t R; [cbn; rewrite app_nil_r; exact R|].
  inversion L as [|? ? (M & _) Ls]; subst. cbn [fold_left List.map concat]. rewrite app_assoc. apply IH; [exact Ls|]. apply VR_line; auto. apply ordinary_ok. exact M.
Qed.
Lemma long_rel : forall k e es ts, Forall long_line (e :: es) -> Forall2 line_is (e :: es) ts -> val_rel (lines_val e es) (Deferred k (join (made c_space) ts)).
Proof.
  intros k e es ts L F. inversion F as [|? te ? ts' (Ee & Ue & Lw) F']; subst. inversion L as [|? ? (M & _) Ls]; subst.
  rewrite join_concat. apply lines_rel; auto. constructor; auto. apply ordinary_ok. exact M.
Qed.
Lemma join_solid : forall e es ts, Forall long_line (e :: es) -> Forall2 line_is (e :: es) ts -> exists c t, join (made c_space) ts = c :: t /\ blank (fst c) = false /\ printable (fst c).
Proof.
  intros e es ts L F. inversion F as [|? te ? ts' (Ee & Ue & Lw) F']; subst. inversion L as [|? ? Le Ls]; subst.
  destruct (line_ends e te Le Ee) as (S & Ne & P & _). destruct te as [|c te]; [contradiction Ne; reflexivity|]. rewrite join_concat. exists c. eexists. split; [reflexivity|].
  inversion P as [|? ? Pc _]; subst. split; [|exact Pc]. unfold lstrip in S. cbn [drop_while] in S. destruct (blank (fst c)) eqn:B; [|reflexivity].
  exfalso. assert (Y : forall z : text, List.length (drop_while (fun a0 => blank (fst a0)) z) <= List.length z).
  { induction z as [|h z IHz]; [apply Nat.le_refl|]. cbn [drop_while]. destruct (blank (fst h)); [cbn; lia|apply Nat.le_refl]. }
  specialize (Y te). rewrite S in Y. cbn in Y. lia.
Qed.

(** The whole assignment as one line. *)
Lemma long_line_of : forall (t : text) u x o (down : bool) e es, ~ has fst c_hash t -> unbroken t -> name x -> Forall long_line (e :: es) -> (down = true \/ es <> []) ->
  chars t = show_stmt (SLong x o down e es) ++ u ->
  exists tx top ts t', line_text t (tx ++ top ++ join (made c_space) ts) t' /\ chars tx = x /\ unbroken tx /\ chars top = show_op o /\
    Forall2 line_is (e :: es) ts /\ chars t' = u /\ left_of t t'.
Proof.
  intros t u x o down e es H U Nx L D E. cbn [show_stmt] in E.
  (* the first line, and what follows it *)
  assert (First : forall (h : text) p q n a (r : text) z g gs, t = h ++ p :: q :: n :: a :: r -> fst p = c_space -> fst q = c_bslash -> fst n = c_nl -> fst a = c_tab ->
    Forall printable (chars h) -> (exists b c, h = b ++ [c] /\ blank (fst c) = false /\ fst c <> c_bslash) -> lstrip fst (h ++ [p; q]) = h ++ [p; q] -> Forall long_line (g :: gs) ->
    chars r = rest_text g gs ++ z -> exists ts t', line_text t (h ++ made c_space :: join (made c_space) ts) t' /\ Forall2 line_is (g :: gs) ts /\ chars t' = z /\ left_of t t').
  { intros h p q n a r z g gs -> Fp Fq Fn Fa Ph (b & c & Eb & Bc & Nc) Sh Lg Er.
    assert (Ur : unbroken r) by (apply unbroken_after in U; do 4 apply unbroken_tail in U; exact U).
    destruct (tail_lines gs g a r z Fa Er Lg Ur) as (ls & last & t' & ts & LL & Eu & F2 & Lf & Pc).
    destruct (continued_clean b c p q Bc Nc Fp Fq) as [Co Cl]. rewrite <- Eb in Co, Cl. exists ts, t'. split; [|split; [exact F2|split; [exact Eu|]]].
    2:{ eapply left_trans; [|exact Lf]. exists (h ++ [p; q; n; a]). rewrite <- app_assoc. reflexivity. }
    assert (LL' : logical_line fst ((h ++ [p; q]) ++ n :: a :: r) ((h ++ [p; q]) :: ls) last t').
    { apply LL_more; [|exact Co|exact Fn|exact LL]. intros (y & I & Q). apply in_app_or in I as [I|[<-|[<-|[]]]].
      - apply (inline_no h Ph). exists y. auto.
      - rewrite Fp in Q. discriminate.
      - rewrite Fq in Q. discriminate. }
    rewrite <- app_assoc in LL'. pose proof (LT_line _ _ _ _ H LL') as X. cbn [pieces List.map] in X. rewrite Sh, Cl in X. cbn [filter] in X.
    replace (nonempty h) with true in X by (rewrite Eb; destruct b; reflexivity). cbn [app] in X. rewrite Pc in X.
    inversion F2 as [|? te ? ts' _ _]; subst ts. exact X. }
  assert (Strip : forall (tx r : text), chars tx = x -> lstrip fst (tx ++ r) = tx ++ r).
  { intros tx r Ex. destruct (first_printable x Nx) as (c & l & Exl & W & _). rewrite Exl in Ex. apply chars_cons in Ex as (y & ty & -> & Fy & _).
    unfold lstrip. cbn [app drop_while]. rewrite Fy. apply word_facts in W as (-> & _). reflexivity. }
  assert (Px : Forall printable x) by (apply name_printable; exact Nx).
  destruct down.
  - (* the operator ends the first line *)
    assert (E' : chars t = x ++ removelast (show_op o) ++ c_space :: c_bslash :: c_nl :: c_tab :: rest_text e es ++ u).
    { rewrite E. unfold rest_text. rewrite <- !app_assoc. reflexivity. }
    apply chars_split in E' as (tx & t1 & -> & Ex & E'). apply chars_split in E' as (top & t2 & -> & Eo & E').
    apply chars_cons in E' as (p & t3 & -> & Fp & E'). apply chars_cons in E' as (q & t4 & -> & Fq & E').
    apply chars_cons in E' as (n & t5 & -> & Fn & E'). apply chars_cons in E' as (a & r & -> & Fa & E').
    destruct (First (tx ++ top) p q n a r u e es) as (ts & t' & LT & F2 & Eu & Lf); auto.
    + rewrite <- app_assoc. reflexivity.
    + rewrite chars_app, Ex, Eo. apply Forall_app. split; [exact Px|]. destruct o; repeat constructor; unfold printable; cbn; lia.
    + assert (Z : exists b c, top = b ++ [c] /\ fst c = 61%N).
      { destruct o; cbn in Eo; (destruct top as [|z1 [|z2 top]]; try discriminate Eo); injection Eo as A1 A2 A3;
          try (destruct top as [|z3 [|]]; try discriminate A3; injection A3 as A3; exists [z1; z2], z3; auto; fail).
        destruct top; [|discriminate A3]. exists [z1], z2. auto. }
      destruct Z as (b & c & -> & Fc). exists (tx ++ b), c. rewrite <- app_assoc, Fc. repeat split; discriminate.
    + rewrite <- app_assoc. apply Strip. exact Ex.
    + exists tx, (top ++ [made c_space]), ts, t'. split; [|split; [exact Ex|split; [exact (unbroken_app _ _ U)|split; [|auto]]]].
      * replace (tx ++ (top ++ [made c_space]) ++ join (made c_space) ts) with ((tx ++ top) ++ made c_space :: join (made c_space) ts) by (rewrite <- !app_assoc; reflexivity). exact LT.
      * rewrite chars_app, Eo. destruct o; reflexivity.
  - destruct D as [D|D]; [discriminate|]. destruct es as [|e' es]; [contradiction|].
    inversion L as [|? ? Le Ls]; subst.
    assert (E' : chars t = x ++ show_op o ++ show e ++ c_space :: c_bslash :: c_nl :: c_tab :: rest_text e' es ++ u).
    { rewrite E. cbn [List.map concat]. unfold rest_text. rewrite <- !app_assoc. reflexivity. }
    apply chars_split in E' as (tx & t1 & -> & Ex & E'). apply chars_split in E' as (top & t2 & -> & Eo & E'). apply chars_split in E' as (te & t6 & -> & Ee & E').
    apply chars_cons in E' as (p & t3 & -> & Fp & E'). apply chars_cons in E' as (q & t4 & -> & Fq & E').
    apply chars_cons in E' as (n & t5 & -> & Fn & E'). apply chars_cons in E' as (a & r & -> & Fa & E').
    destruct (line_ends e te Le Ee) as (S & Ne & P & b & c & Eb & Bc & Nc).
    destruct (First (tx ++ top ++ te) p q n a r u e' es) as (ts & t' & LT & F2 & Eu & Lf); auto.
    + rewrite <- !app_assoc. reflexivity.
    + rewrite !chars_app, Ex, Eo. rewrite !Forall_app. split; [exact Px|]. split; [apply op_printable|exact P].
    + exists (tx ++ top ++ b), c. rewrite Eb. rewrite <- !app_assoc. auto.
    + rewrite <- app_assoc. apply Strip. exact Ex.
    + exists tx, top, (te :: ts), t'. split; [|split; [exact Ex|split; [exact (unbroken_app _ _ U)|split; [exact Eo|]]]].
      * inversion F2 as [|? te' ? ts' _ _]; subst ts. replace (tx ++ top ++ join (made c_space) (te :: te' :: ts')) with ((tx ++ top ++ te) ++ made c_space :: join (made c_space) (te' :: ts')) by (rewrite <- !app_assoc; reflexivity). exact LT.
      * split; [|auto]. constructor; [exact (line_written _ _ _ _ Ee (unbroken_after _ _ (unbroken_after _ _ U)))|exact F2].
Qed.

Lemma gives_lines_assigned : forall s st x o e es v ts, rel s st -> Forall long_line (e :: es) -> gives_lines (w_env s) x o e es v -> Forall2 line_is (e :: es) ts ->
  exists v', assigned (m_defs st) x (op_of o) (join (made c_space) ts) v' /\ val_rel v v'.
Proof.
  intros s st x o e es v ts R L G F. destruct (join_solid _ _ _ L F) as (c & t & Ej & _).
  assert (X : expression (join (made c_space) ts)) by (eapply lines_expression; apply (long_rel FlRecursive _ _ _ L F)).
  pose proof (re_env _ _ R x) as Rx. inversion G; subst; cbn [op_of].
  - cbn in H. destruct H as [<-|[<-|[<-|[]]]]; (eexists; split; [apply AS_later; [cbn; tauto|cbn; tauto|exact X]|apply long_rel; auto]).
  - destruct (pieces_both _ _ (re_env _ _ R)) as [_ SB]. destruct (SB _ _ H _ (long_rel FlRecursive _ _ _ L F)) as (m & _ & So & C).
    eexists. split; [apply AS_now; [rewrite Ej; discriminate|exact (So _ _ eq_refl)]|]. constructor. exact C.
  - rewrite H in Rx. destruct (m_defs st x) eqn:Dx; [destruct Rx|]. eexists. split; [apply AS_new; auto|apply long_rel; auto].
  - rewrite H in Rx. destruct (m_defs st x) as [o'|] eqn:Dx; [|destruct Rx]. eexists. split; [apply AS_more; eauto|constructor; [exact Rx|apply long_rel; auto]].
Qed.

Lemma name_ends : forall x c, name x -> In c x -> ~ name_end c.
Proof.
  intros x c N I Q. pose proof (name_char _ _ N I) as W. apply word_facts in W as (_ & _ & K & _). apply K. unfold name_end in Q. cbn in Q |- *. tauto.
Qed.
Lemma name_stands : forall D (t : text) x, name x -> chars t = x -> stands_for D t t.
Proof. intros D t x N E. apply plain_stands. rewrite E. apply (name_not _ _ N). cbn. tauto. Qed.

Section Run.
Variable fs : str -> file.
Lemma long_text : forall s st (t : text) u x o down e es, rel s st -> ~ has fst c_hash t -> unbroken t -> well_formed (SLong x o down e es) ->
  chars t = show_stmt (SLong x o down e es) ++ u ->
  exists tx top ts t', line_text t (tx ++ top ++ join (made c_space) ts) t' /\ chars tx = x /\ chars top = show_op o /\ Forall2 line_is (e :: es) ts /\ chars t' = u /\ ~ has fst c_hash t' /\
    ~ is_comment_text t /\ directly st t /\ t <> [] /\ solid (tx ++ top ++ join (made c_space) ts) /\ unconditional (tx ++ top ++ join (made c_space) ts).
Proof.
  intros s st t u x o down e es R H U (Nx & L & D) E.
  destruct (long_line_of t u x o down e es H U Nx L D E) as (tx & top & ts & t' & LT & Ex & Ux & Eo & F & Eu & [p Lf]).
  exists tx, top, ts, t'. split; [exact LT|]. split; [exact Ex|]. split; [exact Eo|]. split; [exact F|]. split; [exact Eu|].
  split; [intros (z & I & Q); apply H; exists z; split; [rewrite Lf; apply in_or_app; now right|exact Q]|]. split; [apply no_comment; exact H|].
  destruct (first_printable x Nx) as (c & l & Exl & W & Ns & Nt).
  assert (Et : exists r, chars t = c :: r) by (rewrite E; cbn [show_stmt]; rewrite Exl; eexists; reflexivity). destruct Et as [r Et].
  split; [eapply direct; [exact R|exact Et|exact Nt]|]. split; [intros ->; discriminate Et|].
  split.
  - eapply (solid_chars _ c); [|apply word_facts; exact W]. rewrite chars_app, Ex, Exl. reflexivity.
  - apply unconditional_of. rewrite !chars_app, Ex, Eo. destruct (op_unreserved o) as [z ->]. cbn [app]. apply unreserved_app; [apply Nx|reflexivity].
Qed.
Lemma long_run : forall s st (t : text) u x o down e es v, rel s st -> w_deaf s = false -> ~ has fst c_hash t -> unbroken t ->
  chars t = show_stmt (SLong x o down e es) ++ u -> well_formed (SLong x o down e es) -> gives_lines (w_env s) x o e es v ->
  exists st' t', leads fs st t st' t' /\ rel (assign_to (finish s) x v) st' /\ m_conds st' = m_conds st /\ chars t' = u /\ ~ has fst c_hash t'.
Proof.
  intros s st t u x o down e es v R Ig H U E W G.
  destruct (long_text s st t u x o down e es R H U W E) as (tx & top & ts & t' & LT & Ex & Eo & F & Eu & Hu & Nc & Di & Ne & So & Un). destruct W as (Nx & L & D).
  destruct (gives_lines_assigned _ _ _ _ _ _ _ ts R L G F) as (v' & As & Rv). destruct (join_solid _ _ _ L F) as (c & tj & Ej & Bc & _).
  exists (with_o st x v'), t'. destruct (finish_rel _ _ R) as (_ & C1 & _). rewrite <- (re_deaf _ _ R) in Ig.
  split; [|split; [apply assign_rel; auto|split; [exact C1|auto]]].
  apply leads_line; [exact Ne|]. unfold with_o. rewrite <- (trim_name x Nx) in As |- * at 1. rewrite <- Ex in As |- *.
  eapply ST_assignment; [exact Nc|exact Di|exact LT|exact So|exact Ig|exact Un| |apply (name_stands _ tx x Nx Ex)|exact As].
  apply assigns_parts; [exact Eo|rewrite Ex; intros z; apply name_ends; exact Nx|]. rewrite Ej. unfold lstrip. cbn [drop_while]. rewrite Bc. reflexivity.
Qed.
Lemma long_skip : forall s st (t : text) u x o down e es, rel s st -> w_deaf s = true -> ~ has fst c_hash t -> unbroken t ->
  chars t = show_stmt (SLong x o down e es) ++ u -> well_formed (SLong x o down e es) ->
  exists t', leads fs st t st t' /\ chars t' = u /\ ~ has fst c_hash t'.
Proof.
  intros s st t u x o down e es R Ig H U E W.
  destruct (long_text s st t u x o down e es R H U W E) as (tx & top & ts & t' & LT & Ex & Eo & F & Eu & Hu & Nc & Di & Ne & So & Un).
  exists t'. split; [|auto]. apply leads_line; [exact Ne|]. eapply ST_ignored; [exact Nc|exact Di|exact LT|exact So|rewrite (re_deaf _ _ R); exact Ig|exact Un].
Qed.
End Run.
