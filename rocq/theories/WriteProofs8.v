(** Proofs about makefiles written out from statements: makefiles that are always read. *)
From Coq Require Import String.
From Verif Require Import Base LocModel EvdModel AstModel EngineModel EvdSpec DbSpec ParseModel ParseSpec EvalSpec AstParseSpec EngineSpec MakeSpec
  EvalProofs3 WriteSpec WriteSubst WriteProofs WriteProofs2 WriteProofs6 WriteProofs7.
Local Open Scope nat_scope.

Section Calm.
Variable fs : str -> file.
Variable rank : str -> nat.
Variable clean : str -> Prop.

Definition char_ok (cl : Prop) (c : char) : Prop := cl -> ~ In c [0; 58; 59; 92]%N.
Definition part_ok (n : nat) (cl : Prop) (p : part) : Prop :=
  match p with Txt s => Forall (char_ok cl) s | Ref y => rank y < n /\ (cl -> clean y) | Dol => True | Sub y _ r => (rank y < n /\ (cl -> clean y)) /\ ending r end.
Fixpoint val_ok (n : nat) (cl : Prop) (v : val) : Prop :=
  match v with Later e => Forall (part_ok n cl) e | Now ps => Forall (char_ok cl) (concat ps) | Plus a _ b => val_ok n cl a /\ val_ok n cl b end.
Definition env_ok (E : wenv) : Prop := forall x v, E x = Some v -> val_ok (rank x) (clean x) v.

Lemma chars_weaken : forall (P Q : Prop) s, (Q -> P) -> Forall (char_ok P) s -> Forall (char_ok Q) s.
Proof. intros P Q s H. apply Forall_impl. intros c A q. apply A, H, q. Qed.
Lemma space_ok : forall cl, char_ok cl c_space.
Proof. intros cl. unfold char_ok, c_space. cbn. lia. Qed.
Lemma dollar_ok : forall cl, char_ok cl dollar.
Proof. intros cl. unfold char_ok. cbn. lia. Qed.
Lemma nl_ok : forall cl, char_ok cl c_nl.
Proof. intros cl. unfold char_ok, c_nl. cbn. lia. Qed.

Lemma ending_ok : forall cl r, ending r -> Forall (char_ok cl) r.
Proof. intros cl r. apply Forall_impl. intros c [W| ->]; unfold char_ok; cbn; [unfold word_char in W|]; lia. Qed.

Lemma says_total : forall E, env_ok E -> forall n cl e, Forall (part_ok n cl) e -> exists s, says E e s /\ Forall (char_ok cl) s.
Proof.
  intros E Ok n. induction n as [n IH] using (well_founded_induction Wf_nat.lt_wf). intros cl e F.
  assert (V : forall y, rank y < n -> forall v, val_ok (rank y) (clean y) v -> exists s, val_says E v s /\ Forall (char_ok (clean y)) s).
  { intros y Hr. induction v as [e'|ps|a IHa sp b IHb]; intros Hv; cbn in Hv.
    - destruct (IH _ Hr _ _ Hv) as (s & S & C). exists s. split; [constructor; exact S|exact C].
    - exists (concat ps). split; [constructor|exact Hv].
    - destruct Hv as [Ha Hb]. destruct (IHa Ha) as (s & S & C), (IHb Hb) as (s' & S' & C'). eexists. split; [apply VS_plus; eauto|].
      rewrite !Forall_app. split; [exact C|]. split; [|exact C']. destruct sp; [constructor; [apply space_ok|constructor]|constructor]. }
  induction F as [|p e Hp F IHe]; [exists []; split; constructor|]. destruct IHe as (r & Sr & Cr). destruct p as [s|y| |y k t]; cbn in Hp.
  - exists (s ++ r). split; [apply SY_txt; exact Sr|apply Forall_app; auto].
  - destruct Hp as [Hr Hc]. destruct (E y) as [v|] eqn:Ey.
    + destruct (V y Hr v (Ok _ _ Ey)) as (s & S & C). exists (s ++ r). split; [eapply SY_some; eauto|]. apply Forall_app. split; [|exact Cr].
      eapply chars_weaken; eauto.
    + exists r. split; [apply SY_none; auto|exact Cr].
  - exists (dollar :: r). split; [apply SY_dol; exact Sr|]. constructor; [apply dollar_ok|exact Cr].
  - destruct Hp as [[Hr Hc] Ht]. destruct (E y) as [v|] eqn:Ey.
    + destruct (V y Hr v (Ok _ _ Ey)) as (s & S & C). destruct (val_some_in _ _ _ S) as (ps & I & <-).
      destruct (cut_substituted_total (fun c : char => c) c_space k t ps) as (m & M).
      exists (m ++ r). split; [eapply SY_sub; eauto|]. apply Forall_app. split; [|exact Cr].
      eapply chars_weaken; [exact Hc|]. eapply cut_from; [exact M|apply space_ok|apply ending_ok; exact Ht|exact C].
    + exists r. split; [apply SY_sub_none; auto|exact Cr].
Qed.

Lemma dep_ok_char : forall c, dep_char c -> ~ In c [0; 92]%N.
Proof. intros c [W| ->]; [unfold word_char in W; cbn; lia|unfold c_space; cbn; lia]. Qed.
Lemma says_has : forall E e m s, says E e m -> In (Txt s) e -> s <> [] -> m <> [].
Proof.
  intros E e m s S I N. revert m S. induction e as [|p e IH]; intros m S; [destruct I|]. destruct I as [-> |I].
  - inversion S; subst. destruct s; [contradiction|discriminate].
  - inversion S; subst; try discriminate; try (eapply IH; eassumption);
      match goal with H : says E e ?r |- _ => pose proof (IH I _ H) as Nr; destruct r; [contradiction|] end; intros Q; apply app_eq_nil in Q as [_ Q]; discriminate Q.
Qed.
Lemma parts_ok : forall (P : char -> Prop) n (cl : Prop) e, made_of P e -> below rank n e -> (cl -> pure clean e) -> Forall (part_ok n cl) e.
Proof.
  intros P n cl e M B Q. unfold made_of, below in *. rewrite Forall_forall in *. intros p I. specialize (M p I). specialize (B p I). destruct p as [s|y| |y k r]; cbn; auto.
  - rewrite Forall_forall in *. intros c Ic C. specialize (Q C). unfold pure in Q. rewrite Forall_forall in Q. exact (Q _ I c Ic).
  - split; [exact B|]. intros C. specialize (Q C). unfold pure in Q. rewrite Forall_forall in Q. exact (Q _ I).
  - split; [|apply M]. split; [exact B|]. intros C. specialize (Q C). unfold pure in Q. rewrite Forall_forall in Q. exact (Q _ I).
Qed.
Lemma some_rank : forall e, exists n, below rank n e.
Proof.
  assert (Up : forall n m e, below rank n e -> below rank (n + m) e).
  { intros n m e. apply Forall_impl. intros [ |z| |z k r] Hz; auto; lia. }
  induction e as [|p e [n IH]]; [exists 0; constructor|]. destruct p as [s|y| |y k r].
  - exists n. constructor; auto.
  - exists (n + Datatypes.S (rank y)). constructor; [lia|]. apply Up, IH.
  - exists n. constructor; auto.
  - exists (n + Datatypes.S (rank y)). constructor; [lia|]. apply Up, IH.
Qed.
Lemma says_some : forall E (P : char -> Prop) (cl : Prop) e, env_ok E -> made_of P e -> (cl -> pure clean e) ->
  exists s, says E e s /\ Forall (char_ok cl) s.
Proof. intros E P cl e Ok M Q. destruct (some_rank e) as [n B]. eapply says_total; [exact Ok|]. eapply parts_ok; eauto. Qed.

Lemma set_ok : forall E x v, env_ok E -> val_ok (rank x) (clean x) v -> env_ok (set E x v).
Proof. intros E x v Ok Hv y w Ey. unfold set in Ey. destruct (list_eq_dec N.eq_dec x y) as [<-|]; [injection Ey as <-; exact Hv|apply Ok; exact Ey]. Qed.
Lemma finish_env : forall s, w_env (finish s) = w_env s.
Proof. intros s. unfold finish. destruct (w_open s) as [[]|]; reflexivity. Qed.

Lemma body_ok : forall n cl body v, val_ok n cl v -> Forall (fun e => Forall (part_ok n cl) e) body ->
  val_ok n cl (fold_left (fun v e => Plus v false (Later (e ++ [Txt nl]))) body v).
Proof.
  intros n cl body. induction body as [|e body IH]; intros v Hv F; [exact Hv|]. inversion F; subst. cbn [fold_left]. apply IH; [|assumption]. split; [exact Hv|].
  cbn. apply Forall_app. split; [assumption|]. constructor; [|constructor]. constructor; [apply nl_ok|constructor].
Qed.

Lemma lines_ok : forall n cl es v, val_ok n cl v -> Forall (fun e => Forall (part_ok n cl) e) es -> val_ok n cl (fold_left (fun v e => Plus v true (Later e)) es v).
Proof.
  intros n cl es. induction es as [|e es IH]; intros v Hv F; [exact Hv|]. inversion F; subst. cbn [fold_left]. apply IH; [|assumption]. split; assumption.
Qed.
Lemma lines_some : forall E (cl : Prop) es v p0, env_ok E -> val_in E v p0 -> Forall (char_ok cl) (concat p0) -> Forall long_line es -> (cl -> Forall (pure clean) es) ->
  exists ps, val_in E (fold_left (fun v e => Plus v true (Later e)) es v) ps /\ Forall (char_ok cl) (concat ps).
Proof.
  intros E cl es. induction es as [|e es IH]; intros v p0 Ok S C L Q; [exists p0; auto|]. inversion L as [|? ? Le Ls]; subst.
  destruct (says_some E _ cl e Ok (proj1 Le)) as (s1 & S1 & C1); [intros c; specialize (Q c); inversion Q; assumption|].
  destruct (says_some_in _ _ _ S1) as (p1 & I1 & <-).
  cbn [fold_left]. apply (IH _ (p0 ++ [[c_space]] ++ p1)); auto.
  - exact (WI_plus E v true (Later e) p0 p1 S (WI_later E e p1 I1)).
  - rewrite !concat_app. cbn [concat app]. apply Forall_app. split; [exact C|]. constructor; [|exact C1]. apply space_ok.
  - intros c. specialize (Q c). inversion Q; assumption.
Qed.
Definition total (c : stmt) : Prop := well_formed c -> forall live s, env_ok (w_env s) -> exists s', acts fs live s c s' /\ env_ok (w_env s').
Definition all_total (cs : list stmt) : Prop := every well_formed cs -> forall live s, env_ok (w_env s) -> exists s', acts_all fs live s cs s' /\ env_ok (w_env s').
Definition files_total (soft : bool) (ns : list str) : Prop := forall s, env_ok (w_env s) -> exists s', includes fs soft s ns s' /\ env_ok (w_env s').

(** Ignored. *)
Lemma deaf_total : forall live s c, w_deaf s = true ->
  match c with SIf _ _ _ _ _ => False | SDefine _ body => Forall silent body | SRule _ _ _ recipe | SRuleFor _ _ _ _ recipe => Forall quiet recipe | _ => True end ->
  exists s', acts fs live s c s' /\ w_env s' = w_env s.
Proof.
  intros live s c D Q. destruct c.
  - exists s. split; [constructor|reflexivity].
  - exists s. split; [apply A_ignored; [exact D|constructor]|reflexivity].
  - exists s. split; [apply A_ignored; [exact D|constructor]|reflexivity].
  - exists s. split; [apply A_ignored; [exact D|constructor]|reflexivity].
  - exists s. split; [apply A_ignored; [exact D|constructor; exact Q]|reflexivity].
  - destruct (w_open s) as [[ts r]|] eqn:O.
    + eexists. split; [apply A_ignored; [exact D|apply I_recipe; exact O]|reflexivity].
    + exists s. split; [apply A_ignored; [exact D|apply I_rule; auto]|reflexivity].
  - destruct (w_open s) as [[ts r]|] eqn:O.
    + eexists. split; [apply A_ignored; [exact D|apply I_recipe_for; exact O]|reflexivity].
    + exists s. split; [apply A_ignored; [exact D|apply I_rule_for; auto]|reflexivity].
  - exists s. split; [apply A_ignored; [exact D|constructor]|reflexivity].
  - exists s. split; [apply A_ignored; [exact D|constructor]|reflexivity].
  - exists s. split; [apply A_ignored; [exact D|constructor]|reflexivity].
  - destruct Q.
Qed.
Lemma either : forall c, match c with SIf _ _ _ _ _ => False | SDefine _ body => Forall silent body | SRule _ _ _ recipe | SRuleFor _ _ _ _ recipe => Forall quiet recipe | _ => True end ->
  (well_formed c -> forall live s, w_deaf s = false -> env_ok (w_env s) -> exists s', acts fs live s c s' /\ env_ok (w_env s')) -> total c.
Proof.
  intros c Q H W live s Ok. destruct (w_deaf s) eqn:D; [|apply H; auto]. destruct (deaf_total live s c D Q) as (s' & A & E). exists s'. rewrite E. auto.
Qed.

Lemma evaluable_formed : forall c, evaluable c -> well_formed c.
Proof.
  intros c W. destruct c as [|x o e| | | |ts double deps recipe| | | | |]; try destruct W.
  - destruct e as [|[v| | |] [|? ?]]; try destruct W. destruct H0 as [H0 H1]. split; [exact H|]. apply ordinary_value.
    + constructor; [|constructor]. eapply Forall_impl; [|exact H0]. intros b [B _]. exact B.
    + change (show [Txt v]) with (v ++ []). rewrite app_nil_r. exact H1.
  - destruct deps as [|[d| | |] [|? ?]]; try destruct W. destruct recipe; try destruct W. destruct H0 as [H0 H1]. repeat split; auto; try apply H1.
Qed.
Lemma calm_total : (forall c, calm fs rank clean c -> total c) /\ (forall cs, calm_all fs rank clean cs -> all_total cs) /\
  (forall soft ns, calm_files fs rank clean soft ns -> files_total soft ns).
Proof.
  apply (calm_both fs rank clean (fun c _ => total c) (fun cs _ => all_total cs) (fun soft ns _ => files_total soft ns)).
  - intros W live s Ok. exists s. split; [constructor|exact Ok].
  - intros x e Ne Q. apply either; [exact Logic.I|]. intros [N [M _]] live s D Ok.
    destruct (says_some _ _ (clean x) e Ok M Q) as (v & S & C).
    destruct (says_some_in _ _ _ S) as (ps & I & <-). eexists. split; [apply A_assign; [exact D|apply G_now; [exact Ne|exact I]]|]. cbn [assign_to w_env]. rewrite finish_env. apply set_ok; auto.
  - intros x o e No B Q. apply either; [exact Logic.I|]. intros [N [M _]] live s D Ok.
    assert (P : val_ok (rank x) (clean x) (Later e)) by (eapply parts_ok; [exact M|exact B|exact Q]).
    assert (G : exists v, gives (w_env s) x o e v /\ val_ok (rank x) (clean x) v).
    { destruct o; try (exists (Later e); solve [split; [constructor|exact P]]); [contradiction|]. destruct (w_env s x) as [old|] eqn:Ex.
      - exists (Plus old true (Later e)). split; [apply G_more; exact Ex|]. split; [apply Ok; exact Ex|exact P].
      - exists (Later e). split; [apply G_new; exact Ex|exact P]. }
    destruct G as (v & G & Hv). eexists. split; [apply A_assign; [exact D|exact G]|]. cbn [assign_to w_env]. rewrite finish_env. apply set_ok; auto.
  - intros x down e es Q. apply either; [exact Logic.I|]. intros (N & L & _) live s D Ok. inversion L as [|? ? Le Ls]; subst.
    destruct (says_some _ _ (clean x) e Ok (proj1 Le)) as (v & S & C); [intros c; specialize (Q c); inversion Q; assumption|].
    destruct (says_some_in _ _ _ S) as (ps & I & <-).
    destruct (lines_some _ (clean x) es (Later e) ps Ok (WI_later _ _ _ I) C Ls) as (v' & S' & C'); [intros c; specialize (Q c); inversion Q; assumption|].
    eexists. split; [apply A_long; [exact D|apply GL_now; exact S']|]. cbn [assign_to w_env]. rewrite finish_env. apply set_ok; auto.
  - intros x o down e es No B Q. apply either; [exact Logic.I|]. intros (N & L & _) live s D Ok. inversion L as [|? ? Le Ls]; inversion B as [|? ? Be Bs]; subst.
    assert (P : val_ok (rank x) (clean x) (lines_val e es)).
    { apply lines_ok.
      - eapply parts_ok; [apply Le|exact Be|]. intros c. specialize (Q c). inversion Q; assumption.
      - rewrite Forall_forall in Ls, Bs. apply Forall_forall. intros e' I. eapply parts_ok; [apply Ls; exact I|apply Bs; exact I|].
        intros c. specialize (Q c). inversion Q as [|? ? _ Q']; subst. rewrite Forall_forall in Q'. apply Q'. exact I. }
    assert (G : exists v, gives_lines (w_env s) x o e es v /\ val_ok (rank x) (clean x) v).
    { destruct o; try (exists (lines_val e es); solve [split; [apply GL_later; cbn; tauto|exact P]]). destruct (w_env s x) as [old|] eqn:Ex.
      - exists (Plus old true (lines_val e es)). split; [apply GL_more; exact Ex|]. split; [apply Ok; exact Ex|exact P].
      - exists (lines_val e es). split; [apply GL_new; exact Ex|exact P]. }
    destruct G as (v & G & Hv). eexists. split; [apply A_long; [exact D|exact G]|]. cbn [assign_to w_env]. rewrite finish_env. apply set_ok; auto.
  - intros x body Qu B Q. apply either; [exact Qu|]. intros [N Ne] live s D Ok. eexists. split; [apply A_define; exact D|].
    cbn [assign_to w_env]. rewrite finish_env. apply set_ok; [exact Ok|]. apply body_ok; [constructor|].
    apply WriteProofs5.nested_lines in Ne. rewrite Forall_forall in Ne, B. apply Forall_forall. intros e I. eapply parts_ok; [apply Ne; exact I|apply B; exact I|].
    intros C. specialize (Q C). rewrite Forall_forall in Q. apply Q. exact I.
  - intros ts double deps recipe P Qu. apply either; [exact Qu|]. intros (NE & F & V & Re) live s D Ok.
    destruct (says_some _ _ True deps Ok (proj1 V) (fun _ => P)) as (d & S & C).
    eexists. split; [eapply A_rule; [exact D|exact S|]|cbn [open_rule w_env]; rewrite finish_env; exact Ok].
    intros c I Z. rewrite Forall_forall in C. exact (C c I Logic.I Z).
  - intros x e Ne P. apply either; [exact Logic.I|]. intros [Cx [M _]] live s D Ok.
    destruct (says_some _ _ False x Ok (proj1 Cx) (fun H => match H with end)) as (n & Sn & _).
    destruct (says_some _ _ True e Ok M (fun _ => P)) as (v & S & C). destruct (says_some_in _ _ _ S) as (ps & I & <-).
    eexists. split; [eapply A_assign_to; [exact D|exact Sn|apply G_now; [exact Ne|exact I]]|]. cbn [assign_to w_env]. rewrite finish_env. apply set_ok; [exact Ok|].
    eapply chars_weaken; [|exact C]. auto.
  - intros x o e No B P. apply either; [exact Logic.I|]. intros [Cx [M _]] live s D Ok.
    destruct (says_some _ _ False x Ok (proj1 Cx) (fun H => match H with end)) as (n & Sn & _).
    assert (Pk : forall k cl, val_ok k cl (Later e)).
    { intros k cl. eapply parts_ok; [exact M| |intros _; exact P]. eapply Forall_impl; [|exact B]. intros [|y| |y k' r'] Hy; auto; lia. }
    assert (G : exists v, gives (w_env s) (trim n) o e v /\ val_ok (rank (trim n)) (clean (trim n)) v).
    { destruct o; try (exists (Later e); solve [split; [constructor|apply Pk]]); [contradiction|]. destruct (w_env s (trim n)) as [old|] eqn:Ex.
      - exists (Plus old true (Later e)). split; [apply G_more; exact Ex|]. split; [apply Ok; exact Ex|apply Pk].
      - exists (Later e). split; [apply G_new; exact Ex|apply Pk]. }
    destruct G as (v & G & Hv). eexists. split; [eapply A_assign_to; [exact D|exact Sn|exact G]|]. cbn [assign_to w_env]. rewrite finish_env. apply set_ok; auto.
  - intros ts double deps cmd recipe P T Qu. apply either; [exact Qu|]. intros (NE & F & V & Vc & Re) live s D Ok. inversion P as [|? ? Pd Pt]; subst.
    destruct (says_some _ _ True deps Ok (proj1 V) (fun _ => Pd)) as (d & S & C).
    assert (Sa : forall m, Forall (char_ok True) m -> safe_deps m).
    { intros m Cm c I Z. rewrite Forall_forall in Cm. exact (Cm c I Logic.I Z). }
    assert (G : exists ms, Forall2 (says (w_env s)) ts ms /\ some_targets ms /\ Forall safe_deps ms).
    { clear NE P. revert Pt T. induction F as [|t ts Ct F IH]; intros Pt T; [exists []; repeat split; constructor|]. inversion Pt; subst.
      destruct (says_some _ _ True t Ok (proj1 Ct) (fun _ => H1)) as (m & Sm & Cm).
      destruct ts as [|t' ts]; [exists [m]; split; [constructor; [exact Sm|constructor]|]; split; [exact Logic.I|constructor; [apply Sa; exact Cm|constructor]]|].
      change (removelast (t :: t' :: ts)) with (t :: removelast (t' :: ts)) in T. inversion T as [|? ? (q & Iq & Nq) T']; subst.
      destruct (IH H2 T') as (ms & A1 & A2 & A3). exists (m :: ms). split; [constructor; assumption|]. split; [|constructor; [apply Sa; exact Cm|exact A3]].
      destruct ms as [|m' ms]; [exact Logic.I|]. split; [|exact A2]. eapply says_has; eassumption. }
    destruct G as (ms & A1 & A2 & A3).
    eexists. split; [eapply A_rule_for; [exact D|exact A1|exact A2|exact A3|exact S|apply Sa; exact C]|cbn [open_rule w_env]; rewrite finish_env; exact Ok].
  - intros ws. apply either; [exact Logic.I|]. intros W live s D Ok. eexists. split; [apply A_words; exact D|]. rewrite finish_env. exact Ok.
  - intros soft names _ IH. apply either; [exact Logic.I|]. intros W live s D Ok.
    destruct (IH (finish s)) as (s' & I & Ok'); [rewrite finish_env; exact Ok|]. exists s'. split; [|exact Ok'].
    eapply A_include; [exact D|apply says_txt| |exact I]. intros c Ic. inversion W as [|? ? Wp _]; subst. rewrite Forall_forall in Wp. apply dep_ok_char, Wp, Ic.
  - intros c _ IH. apply either; [exact Logic.I|]. intros W live s D Ok. destruct (IH (evaluable_formed c W) true (begun s) Ok) as (s' & A & Ok').
    eexists. split; [apply A_eval; [exact D|exact A]|]. rewrite finish_env. exact Ok'.
  - intros n a b yes _ IH (Cab & Wy & _) live s Ok.
    destruct (WriteProofs5.conditions_ordinary _ _ _ Cab) as [Ca Cb].
    destruct (says_some _ _ False a Ok Ca (fun H => match H with end)) as (m & Sa & _).
    destruct (says_some _ _ False b Ok Cb (fun H => match H with end)) as (m' & Sb & _).
    destruct (IH Wy (live && holds n m m') (heard s (live && holds n m m')) Ok) as (s' & A & Ok'). exists s'. split; [eapply A_if; eauto|exact Ok'].
  - intros n a b yes no _ IH _ IH' (Cab & Wy & Wn) live s Ok.
    destruct (WriteProofs5.conditions_ordinary _ _ _ Cab) as [Ca Cb].
    destruct (says_some _ _ False a Ok Ca (fun H => match H with end)) as (m & Sa & _).
    destruct (says_some _ _ False b Ok Cb (fun H => match H with end)) as (m' & Sb & _).
    destruct (IH Wy (live && holds n m m') (heard s (live && holds n m m')) Ok) as (s1 & A & Ok1).
    destruct (IH' Wn (live && negb (holds n m m')) (heard s1 (live && negb (holds n m m'))) Ok1) as (s2 & A' & Ok2).
    exists s2. split; [eapply A_else; eauto|exact Ok2].
  - intros W live s Ok. exists s. split; [constructor|exact Ok].
  - intros c cs _ IH _ IH' [W1 W2] live s Ok. destruct (IH W1 live s Ok) as (s1 & A & Ok1). destruct (IH' W2 live s1 Ok1) as (s2 & B & Ok2).
    exists s2. split; [econstructor; eauto|exact Ok2].
  - intros soft s Ok. exists s. split; [constructor|exact Ok].
  - intros soft n ns t ss Fn Wr Wf _ IH _ IH' s Ok. destruct (IH Wf true (begun s) Ok) as (s1 & A & Ok1). destruct (IH' (begun s1) Ok1) as (s2 & B & Ok2).
    exists s2. split; [eapply IN_file; eauto|exact Ok2].
  - intros n k ns Fn _ IH s Ok. destruct (IH s Ok) as (s' & A & Ok'). exists s'. split; [eapply IN_skip; eauto|exact Ok'].
Qed.
End Calm.

Lemma calm_reads : forall fs rank clean ss text, ascii_files fs -> every well_formed ss -> calm_all fs rank clean ss -> written ss text ->
  exists w, reads_to fs text (Ok (w, MOk)).
Proof.
  intros fs rank clean ss text Af Wf Ca Wr.
  destruct (proj1 (proj2 (calm_total fs rank clean)) ss Ca Wf true w_start) as (s & A & _); [intros x v Q; discriminate Q|].
  destruct (written_reads fs ss text s Af Wf Wr A) as (w & R & _). exists w. exact R.
Qed.
