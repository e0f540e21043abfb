(** Proofs about makefiles written out from statements: text to evaluate. *)
From Coq Require Import String.
From Verif Require Import Base LocModel EvdModel AstModel EngineModel EvdSpec DbSpec ParseModel ParseSpec EvalSpec AstParseSpec EngineSpec MakeSpec CrashSpec
  EvdProofs2 ParseProofs EvalProofs4 MakeProofs5 MakeRun WriteSpec WriteProofs WriteProofs2 WriteProofs3 WriteProofs4 WriteProofs5.
Local Open Scope nat_scope.

Ltac printables := cbn; repeat (apply Forall_cons; [unfold printable; lia|]); apply Forall_nil.

Lemma step_real : forall l c, l <> Synthetic -> step_location l c <> Synthetic.
Proof. intros l c H. unfold step_location. destruct (_ =? _)%N, l; try discriminate; contradiction H; reflexivity. Qed.
Lemma mark_unbroken : forall s l, l <> Synthetic -> unbroken (mark l s).
Proof.
  induction s as [|c s IH]; intros l H p x y q E; [destruct p; discriminate E|]. cbn [mark] in E. destruct p as [|a p].
  - injection E as <- E. destruct s as [|d s]; [discriminate E|]. cbn in E. injection E as <- _. split; [exact H|reflexivity].
  - injection E as _ E. eapply (IH _ (step_real _ _ H)); exact E.
Qed.
Lemma file_unbroken : forall id t, unbroken (file_text id t).
Proof. intros id t. apply mark_unbroken. discriminate. Qed.

Lemma evaluable_head : forall c, evaluable c -> exists a l, removelast (show_stmt c) = a :: l /\ word_char a.
Proof.
  intros c W. destruct c as [|x o e| | | |ts double deps recipe| | | | |]; try destruct W.
  - destruct e as [|[v| | |] [|? ?]]; try destruct W. destruct (first_printable x H) as (a & l & -> & Wa & _).
    cbn [show_stmt]. rewrite !app_assoc. unfold nl. rewrite removelast_last. eexists. eexists. split; [reflexivity|exact Wa].
  - destruct deps as [|[d| | |] [|? ?]]; try destruct W. destruct recipe; try destruct W. destruct (join_first ts H (proj1 H0)) as (a & l & E & Wa & _).
    cbn [show_stmt List.map concat]. rewrite app_nil_r, !app_assoc. unfold nl. rewrite removelast_last, E. eexists. eexists. split; [reflexivity|exact Wa].
Qed.

Lemma word_solid : forall a, word_char a -> blank a = false.
Proof. intros a Wa. rewrite printable_blank by (apply word_printable; exact Wa). apply N.eqb_neq. unfold word_char, c_space in *. lia. Qed.

Section Run.
Variable fs : str -> file.

Lemma inner_run : forall s st (m : text) c s', rel s st -> w_deaf s = false -> ~ has fst c_hash m -> unbroken m -> evaluable c ->
  acts fs true s c s' -> chars m = removelast (show_stmt c) -> exists st', runs fs st m st' /\ rel s' st'.
Proof.
  intros s st m c s' R Df H U W A E. pose proof (evaluable_printable c W) as P. destruct (evaluable_head c W) as (a & l & Ea & Wa).
  rewrite Ea in P. rewrite Ea in E.
  destruct (take_last m a l E P) as (F & So); [unfold word_char, c_space in *; lia|exact H|].
  assert (Te : m <> []) by (intros ->; discriminate E).
  assert (Di : directly st m) by (eapply direct; [exact R|exact E|unfold word_char, c_tab in *; lia]).
  assert (Fin : forall st', leads fs st m st' [] -> runs fs st m st') by (intros st' L; apply L; constructor).
  destruct c as [|x o e| | | |ts double deps recipe| | | | |]; try destruct W.
  - destruct e as [|[v| | |] [|? ?]]; try destruct W. destruct H1 as [H1 H2]. inversion A as [|? ? ? ? Bad| ? ? ? ? ? v' D G| | | | | | | | | |]; subst; [congruence|].
    destruct (assign_on fs s st m m [] x o [Txt v] v' R Df F So Te Di) as (st' & L & R' & _); auto.
    + rewrite E, <- Ea. cbn [show_stmt]. rewrite !app_assoc. apply removelast_last.
    + apply ordinary_value; [|change (show [Txt v]) with (v ++ []); rewrite app_nil_r; exact H2]. constructor; [|constructor]. eapply Forall_impl; [|exact H1]. intros b [B _]. exact B.
    + exists st'. auto.
  - destruct deps as [|[d| | |] [|? ?]]; try destruct W. destruct recipe; try destruct W. destruct H1 as [H1 H2].
    inversion A as [|? ? ? ? Bad| | | | |? ? ? ? ? ? d' D S C| | | | | |]; subst; [congruence|].
    destruct (rule_on fs s st m m [] ts double [Txt d] d' R Df F So Te Di) as (st' & L & R' & _); auto.
    + rewrite E, <- Ea. cbn [show_stmt List.map concat]. rewrite app_nil_r, !app_assoc. apply removelast_last.
    + exists st'. auto.
Qed.

Lemma no_operator_line : forall (l : text) a rest, chars l = lit "$(eval " ++ a :: rest -> word_char a -> no_assignment l.
Proof.
  intros l a rest E Wa. apply assigning_none.
  change (lit "$(eval " ++ a :: rest) with (36 :: 40 :: 101 :: 118 :: 97 :: 108 :: 32 :: a :: rest)%N in E.
  do 7 (let x := fresh "x" in let F := fresh "F" in apply chars_cons in E as (x & ? & -> & F & E)). apply chars_cons in E as (x6 & tt & -> & F6 & E).
  assert (B : blank a = false) by (apply word_solid; exact Wa).
  match goal with |- assigning ?l = None => assert (D : lstrip fst (drop_while (fun z => negb (ends_name (fst z))) l) = x6 :: tt) end.
  { cbn [drop_while]. rewrite F, F0, F1, F2, F3, F4, F5. cbn -[lstrip]. unfold lstrip. cbn [drop_while]. rewrite F5. cbn -[blank]. rewrite F6, B. reflexivity. }
  unfold assigning. rewrite D.
  assert (Q : forall k op t, (forall c r, op = c :: r -> (c =? a)%N = false) -> op <> [] -> pick ((op, k) :: t) (x6 :: tt) = pick t (x6 :: tt)).
  { intros k op t N Ne. cbn [pick]. destruct op as [|c op]; [contradiction Ne; reflexivity|]. cbn. rewrite F6, (N _ _ eq_refl). reflexivity. }
  unfold operators. rewrite !Q; [reflexivity|..]; try discriminate; intros c r X; cbn in X; injection X as <- _; apply N.eqb_neq; unfold word_char in Wa; lia.
Qed.

Lemma eval_run : forall s st (t : text) u c s', rel s st -> w_deaf s = false -> ~ has fst c_hash t -> unbroken t -> evaluable c ->
  chars t = show_stmt (SEval c) ++ u -> acts fs true (begun s) c s' ->
  exists st' t', leads fs st t st' t' /\ rel (finish (WState (w_env s') (w_open s) (w_rules s') false)) st' /\ m_conds st' = m_conds st /\
    chars t' = u /\ ~ has fst c_hash t'.
Proof.
  intros s st t u c s' R Df H U W E A. cbn [show_stmt] in E.
  destruct (evaluable_line c W) as (line & _ & El & P & N1 & N2 & N3 & N4). destruct (evaluable_head c W) as (a & l0 & Ea & Wa).
  rewrite El in E, Ea. set (ev := lit "(eval ") in *.
  assert (E' : chars t = (dollar :: ev ++ line ++ [close_paren]) ++ nl ++ u).
  { rewrite E. change (lit "$(eval ") with (dollar :: ev). change (lit ")") with [close_paren]. cbn [app]. rewrite <- !app_assoc. reflexivity. }
  destruct (take_line t dollar (ev ++ line ++ [close_paren]) u E') as (tl & t' & E1 & E2 & [L Pl Lo Co Hh] & So); auto; [|discriminate|].
  { change (dollar :: ev ++ line ++ [close_paren]) with ((dollar :: ev) ++ line ++ [close_paren]). rewrite !Forall_app. split; [subst ev; printables|]. split; [exact P|printables]. }
  assert (E1' : chars tl = lit "$(eval " ++ a :: (l0 ++ [close_paren])).
  { rewrite E1, Ea. reflexivity. }
  destruct (plain_part _ _ _ Pl) as (tp & tq & Et).
  assert (Ul : unbroken tl). { eapply unbroken_app. eapply unbroken_left; [|exact U]. exists tp. exact Et. }
  assert (Hl : ~ has fst c_hash tl). { intros (z & I & Fz). apply H. exists z. split; [|exact Fz]. rewrite Et, !in_app_iff. auto. }
  assert (Bn : forall ks, (forall k, In k ks -> In k (conditional_words ++ modifier_words ++ directive_words)) -> begins_none ks tl).
  { intros ks Sub k z I (w & Q & K). apply Sub in I. apply (f_equal chars) in Q. rewrite E1', chars_app in Q. apply (f_equal (List.map ascii_lower)) in Q. rewrite !map_app, K in Q.
    cbn in I. repeat (destruct I as [<-|I]; [cbn in Q; discriminate|]). destruct I. }
  assert (No : no_assignment tl) by (eapply no_operator_line; [exact E1'|exact Wa]).
  (* the parts of the line *)
  assert (E3 : chars tl = dollar :: open_paren :: lit "eval" ++ c_space :: line ++ [close_paren]) by (rewrite E1; reflexivity).
  apply chars_cons in E3 as (x & t1 & -> & Fx & E3). apply chars_cons in E3 as (b & t2 & -> & Fb & E3).
  apply chars_split in E3 as (w & t3 & -> & Ew & E3). apply chars_cons in E3 as (sp & t4 & -> & Fs & E3).
  apply chars_split in E3 as (m & t5 & -> & Em & E3). apply chars_cons in E3 as (cl & t6 & -> & Fc & E3). apply chars_nil in E3 as ->.
  assert (Sm : lstrip fst (sp :: m) = m).
  { unfold lstrip. cbn [drop_while]. rewrite Fs. change (blank c_space) with true. cbn match. rewrite <- Em in Ea. apply chars_cons in Ea as (a' & m' & -> & Fa & _). cbn [drop_while]. rewrite Fa.
    assert (Bl : blank a = false) by (apply word_solid; exact Wa). rewrite Bl. reflexivity. }
  assert (Um : unbroken m).
  { eapply unbroken_app with (b := [cl]). eapply unbroken_left; [|exact Ul]. exists (x :: b :: w ++ [sp]). cbn. rewrite <- app_assoc. reflexivity. }
  assert (Nd : ~ has fst dollar m) by (intros (z & I & Fz); apply N4; rewrite <- Em, <- Fz; apply in_map; exact I).
  assert (EL : eval_line (m_defs st) (x :: b :: w ++ sp :: m ++ [cl]) m).
  { exists x, b, (w ++ sp :: m ++ [cl]), (w ++ sp :: m), [], [], (sp :: m). rewrite Sm. split; [rewrite app_nil_r; reflexivity|]. split; [exact Fx|]. split; [exact Fb|].
    split. { replace (w ++ sp :: m ++ [cl]) with ((w ++ sp :: m) ++ cl :: []) by (rewrite <- app_assoc; reflexivity).
      apply group_plain; [| |exact Fc]; rewrite chars_app, Ew; cbn [chars List.map]; rewrite in_app_iff; intros [I|[I|I]];
        try (cbn in I; lia); try (rewrite Fs in I; discriminate I); fold (chars m) in I; rewrite Em in I; auto. }
    split; [constructor|]. split; [exact Logic.I|]. split.
    { intros z I. assert (J : In (fst z) (chars (x :: b :: w ++ sp :: m ++ [cl]))) by (apply in_map; exact I). rewrite E1 in J. cbn [In].
      apply in_app_or with (l := [dollar]) in J. destruct J as [[<-|[]]|J]; [unfold c_bslash; lia|]. rewrite !in_app_iff in J. destruct J as [J|[J|[<-|[]]]].
      - subst ev. cbn in J. unfold c_bslash. lia.
      - intros [Q|[Q|[]]]; rewrite <- Q in J; [contradiction|]. rewrite Forall_forall in P. apply P in J. unfold printable, c_bslash in J. lia.
      - unfold c_bslash. lia. }
    split; [exists w; split; [reflexivity|exact Ew]|]. split; [apply plain_stands; rewrite Em; exact N4|apply EN_text; auto]. }
  assert (Rn : rel (begun s) (MakeSpec.nested st)) by (destruct R as [Q1 Q2 Q3 Q4 Q5]; constructor; cbn; auto).
  assert (Hm : ~ has fst c_hash m). { intros (z & I & Fz). apply Hl. exists z. split; [|exact Fz]. right. right. apply in_or_app. right. right. apply in_or_app. now left. }
  destruct (inner_run (begun s) (MakeSpec.nested st) m c s' Rn eq_refl Hm Um W A) as (st1 & Ru & R1); [rewrite El; exact Em|].
  assert (Rr : rel (WState (w_env s') (w_open s) (w_rules s') false) (resume st st1)).
  { destruct R as [Q1 Q2 Q3 Q4 Q5], R1 as [P1 P2 P3 P4 P5]. constructor; cbn; auto. congruence. }
  destruct (finish_rel _ _ Rr) as (Rf & Cf & _).
  exists (closed (resume st st1)), t'. split; [|split; [exact Rf|split; [rewrite Cf; reflexivity|auto]]].
  assert (Di : directly st t) by (eapply direct; [exact R|exact E'|discriminate]).
  assert (Ig : m_ignoring st = false) by (rewrite (re_deaf _ _ R); exact Df).
  assert (Uc : unconditional (x :: b :: w ++ sp :: m ++ [cl])) by (apply none_unconditional, Bn; intros k I; apply in_or_app; now left).
  assert (Bd : begins_none (modifier_words ++ directive_words) (x :: b :: w ++ sp :: m ++ [cl])) by (apply Bn; intros k I; apply in_or_app; now right).
  split; [|split].
  - intros fin Hf. eapply RU_eval; eauto.
  - intros Hc. eapply CR_beyond; eauto.
  - eapply plain_left. exact Pl.
Qed.
End Run.
