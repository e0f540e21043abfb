(** Proofs about makefiles written out from statements: every statement is a run. *)
From Coq Require Import String.
From Verif Require Import Base LocModel EvdModel AstModel EngineModel EvdSpec DbSpec ParseModel ParseSpec EvalSpec AstParseSpec EngineSpec MakeSpec CrashSpec
  ParseProofs EvalProofs4 MakeRun WriteSpec WriteProofs.
Local Open Scope nat_scope.

(** * Characters of expressions *)
Lemma show_forall : forall (P Q : char -> Prop) e, made_of P e -> (forall c, P c -> Q c) -> (forall c, word_char c -> Q c) ->
  Q dollar -> Q open_paren -> Q close_paren -> Forall Q (show e).
Proof.
  intros P Q e M H1 H2 H3 H4 H5. unfold show. induction M as [|p e Hp _ IH]; [constructor|]. cbn [List.map concat]. apply Forall_app. split; [|exact IH].
  destruct p as [s|x| |x k r]; cbn [show_part]; [eapply Forall_impl; [|exact Hp]; exact H1| |repeat constructor; assumption|].
  - destruct Hp as (_ & F & _). apply Forall_app. split; [repeat constructor; assumption|]. apply Forall_app. split; [eapply Forall_impl; [|exact F]; exact H2|].
    repeat constructor; assumption.
  - destruct Hp as ((_ & F & _) & _ & _ & G). apply Forall_app. split; [repeat constructor; assumption|]. apply Forall_app. split; [|repeat constructor; assumption].
    apply Forall_app. split; [eapply Forall_impl; [|exact F]; exact H2|eapply Forall_impl; [|exact G]; exact H1].
Qed.
Definition printable (c : char) : Prop := (32 <= c <= 126)%N /\ c <> 35%N /\ c <> 92%N.
Lemma word_printable : forall c, word_char c -> printable c.
Proof. intros c H. unfold word_char in H. unfold printable. lia. Qed.
Lemma ordinary_printable : forall c, ordinary c -> printable c.
Proof. intros c [A B]. cbn in B. unfold printable. lia. Qed.
Lemma show_printable : forall e, made_of ordinary e -> Forall printable (show e).
Proof. intros e M. eapply show_forall; [exact M|exact ordinary_printable|exact word_printable| | |]; unfold printable; lia. Qed.
(** Lines of commands. *)
Lemma continued_more : forall s, whole s -> continued (fun c => c) (s ++ [c_bslash]) = true.
Proof.
  intros s W. unfold whole, continued, tail_backslashes in *. rewrite rev_app_distr. cbn [rev app take_while]. change (backslash c_bslash) with true. cbn [List.length].
  rewrite Nat.odd_succ, <- Nat.negb_odd, W. reflexivity.
Qed.
Definition inked (c : char) : Prop := (c < 128)%N /\ c <> 35%N /\ c <> 10%N.
Lemma line_inked : forall c, line_char c -> inked c.
Proof. intros c [A B]. cbn in B. unfold inked. lia. Qed.
Lemma printable_inked : forall c, printable c -> inked c.
Proof. intros c A. unfold printable, inked in *. lia. Qed.
Lemma all_inked : forall s, Forall printable s -> Forall inked s.
Proof. intros s. apply Forall_impl. exact printable_inked. Qed.
Lemma show_inked : forall e, made_of line_char e -> Forall inked (show e).
Proof. intros e M. eapply show_forall; [exact M|exact line_inked|intros c W; apply printable_inked, word_printable; exact W| | |]; unfold inked; lia. Qed.
Lemma line_ok : forall e, made_of line_char e -> expr_ok e.
Proof. intros e. apply made_impl. intros c [_ H] ->. apply H. cbn. tauto. Qed.
Lemma ordinary_line : forall c, ordinary c -> line_char c.
Proof. intros c [A B]. split; [lia|]. intros I. apply B. cbn in *. lia. Qed.
Lemma ordinary_whole : forall s, Forall ordinary s -> whole s.
Proof.
  intros s F. unfold whole, continued, tail_backslashes. destruct (rev s) as [|c r] eqn:E; [reflexivity|]. cbn [take_while].
  assert (I : In c s) by (apply in_rev; rewrite E; now left). rewrite Forall_forall in F. apply F in I. unfold backslash. destruct (c =? 92)%N eqn:Q; [|reflexivity].
  apply N.eqb_eq in Q. subst. destruct I as [_ I]. exfalso. apply I. cbn. tauto.
Qed.
Lemma printable_whole : forall s, Forall printable s -> whole s.
Proof.
  intros s F. unfold whole, continued, tail_backslashes. destruct (rev s) as [|c r] eqn:E; [reflexivity|]. cbn [take_while].
  assert (I : In c s) by (apply in_rev; rewrite E; now left). rewrite Forall_forall in F. apply F in I. unfold backslash. destruct (c =? 92)%N eqn:Q; [|reflexivity].
  apply N.eqb_eq in Q. subst. destruct I as (_ & _ & I). contradiction.
Qed.
Lemma ordinary_command : forall e, made_of ordinary e -> command_line e.
Proof. intros e M. split; [revert M; apply made_impl; exact ordinary_line|]. apply printable_whole, show_printable. exact M. Qed.
Lemma printable_inline : forall c, printable c -> inline c.
Proof. intros c H. unfold printable, inline, c_nl, c_bslash in *. lia. Qed.
Lemma printable_all_inline : forall s, Forall printable s -> Forall inline s.
Proof. intros s. apply Forall_impl. exact printable_inline. Qed.
Lemma name_printable : forall x, name x -> Forall printable x.
Proof. intros x (_ & F & _). eapply Forall_impl; [|exact F]. exact word_printable. Qed.

Lemma printable_space : forall c, printable c -> is_whitespace c = (c =? c_space)%N.
Proof.
  intros c H. unfold printable in H. destruct (c =? c_space)%N eqn:Q; [apply N.eqb_eq in Q; subst; reflexivity|]. apply N.eqb_neq in Q.
  unfold is_whitespace. rewrite <- not_true_iff_false, existsb_exists. intros (x & I & E). apply N.eqb_eq in E. subst x. unfold c_space in Q. cbn in I. lia.
Qed.
Lemma printable_blank : forall c, printable c -> blank c = (c =? c_space)%N.
Proof.
  intros c H. unfold printable in H. destruct (c =? c_space)%N eqn:Q; [apply N.eqb_eq in Q; subst; reflexivity|]. apply N.eqb_neq in Q.
  unfold blank, c_space in *. apply orb_false_iff. split; apply N.eqb_neq; lia.
Qed.
Lemma strip_trim : forall t : text, Forall printable (chars t) -> chars (lstrip fst t) = trim_start (chars t).
Proof.
  induction t as [|a t IH]; intros F; [reflexivity|]. inversion F; subst. unfold lstrip. cbn [drop_while trim_start chars List.map].
  rewrite printable_blank, printable_space by assumption. destruct (fst a =? c_space)%N; [apply IH; assumption|reflexivity].
Qed.
Lemma not_blank_strip : forall t : text, Forall printable (chars t) -> not_blank_first (chars t) -> lstrip fst t = t.
Proof.
  intros [|a t] F N; [reflexivity|]. inversion F; subst. unfold lstrip. cbn [drop_while]. cbn in N. rewrite printable_blank by assumption.
  destruct (fst a =? c_space)%N eqn:Q; [apply N.eqb_eq in Q; contradiction|reflexivity].
Qed.
Lemma solid_strip : forall t : text, solid_first (chars t) -> lstrip fst t = t.
Proof.
  intros [|a t] N; [reflexivity|]. unfold lstrip. cbn [drop_while]. cbn in N. destruct N as [N1 N2].
  assert (B : blank (fst a) = false) by (apply orb_false_iff; split; apply N.eqb_neq; assumption). rewrite B. reflexivity.
Qed.
Lemma not_blank_solid : forall s, Forall printable s -> not_blank_first s -> solid_first s.
Proof. intros [|c s] F N; [exact Logic.I|]. inversion F; subst. cbn in *. split; [exact N|]. unfold printable, c_tab in *. lia. Qed.
Lemma ordinary_value : forall e, made_of ordinary e -> not_blank_first (show e) -> value_expr e.
Proof.
  intros e M N. pose proof (show_printable e M) as P. split; [revert M; apply made_impl; exact ordinary_line|]. split; [apply printable_whole; exact P|].
  apply not_blank_solid; assumption.
Qed.

(** * Reserved words *)
Definition in_reserved (c : char) : bool := existsb (fun k => existsb (N.eqb c) (lit k)) reserved.
Lemma not_reserved : forall c k, in_reserved c = false -> In k reserved -> ~ In c (lit k).
Proof.
  intros c k H I J. apply not_true_iff_false in H. apply H. apply existsb_exists. exists k. split; [exact I|]. apply existsb_exists. exists c. split; [exact J|apply N.eqb_refl].
Qed.
Lemma unreserved_app : forall x c r, unreserved x -> in_reserved (ascii_lower c) = false -> unreserved (x ++ c :: r).
Proof.
  intros x c r U C k r' I E. rewrite map_app in E. cbn in E.
  destruct (le_lt_dec (List.length (lit k)) (List.length x)) as [L|L].
  - apply (U k (skipn (List.length (lit k)) (List.map ascii_lower x)) I).
    assert (F : firstn (List.length (lit k)) (List.map ascii_lower x ++ ascii_lower c :: List.map ascii_lower r) = lit k).
    { rewrite E, firstn_app, Nat.sub_diag, firstn_O, app_nil_r. apply firstn_all. }
    rewrite firstn_app, map_length in F. replace (List.length (lit k) - List.length x) with 0 in F by lia. rewrite firstn_O, app_nil_r in F.
    rewrite <- F at 1. symmetry. apply firstn_skipn.
  - apply (not_reserved _ k C I).
    assert (N : nth_error (lit k ++ r') (List.length x) = Some (ascii_lower c)).
    { rewrite <- E, nth_error_app2; rewrite map_length; [rewrite Nat.sub_diag; reflexivity|lia]. }
    rewrite nth_error_app1 in N by exact L. eapply nth_error_In. exact N.
Qed.
Lemma begins_none_of : forall ks (l : text), unreserved (chars l) -> (forall k, In k ks -> In k reserved) -> begins_none ks l.
Proof.
  intros ks l U S k rest I (w & -> & W). apply (U k (List.map ascii_lower (chars rest)) (S k I)). rewrite chars_app, map_app, W. reflexivity.
Qed.
Lemma none_unconditional : forall l, begins_none conditional_words l -> unconditional l.
Proof.
  intros l B. split; [intros k r I; apply B; cbn in *; tauto|]. intros k r I K. exfalso. eapply B; [|exact K]. cbn in *. tauto.
Qed.
Lemma unconditional_of : forall l : text, unreserved (chars l) -> unconditional l.
Proof. intros l U. apply none_unconditional, begins_none_of; [exact U|]. intros k I. unfold reserved. rewrite in_app_iff. tauto. Qed.
Lemma no_equals : forall l : text, ~ In equals (chars l) -> no_assignment l.
Proof.
  intros l H name k v (bl & op & post & -> & _ & _ & I & _). apply H. rewrite !chars_app, !in_app_iff. right. right. left.
  cbn in I. repeat (destruct I as [I|I]; [injection I as <- _; cbn; tauto|]). destruct I.
Qed.

(** * States *)
Inductive line_rel : wexpr -> text -> Prop :=
| LR_line : forall e t, expr_ok e -> chars t = show e -> unbroken t -> line_rel e t
| LR_more : forall e t e' t', expr_ok e -> chars t = show e ++ [c_bslash] -> unbroken t -> line_rel e' t' ->
    line_rel (e ++ Txt [c_bslash; c_nl] :: e') (t ++ made c_nl :: t').
Lemma show_app : forall e e', show (e ++ e') = show e ++ show e'.
Proof. intros e e'. unfold show. rewrite map_app, concat_app. reflexivity. Qed.
Lemma line_text_of : forall e t, line_rel e t -> expr_ok e /\ chars t = show e.
Proof.
  intros e t R. induction R as [e t O E U|e t e' t' O E U R [O' E']]; [auto|]. split.
  - apply Forall_app. split; [exact O|]. constructor; [|exact O']. repeat constructor; discriminate.
  - rewrite show_app, chars_app, E, <- app_assoc. cbn [chars List.map app]. f_equal. change (show (Txt [c_bslash; c_nl] :: e')) with ([c_bslash; c_nl] ++ show e'). rewrite <- E'. reflexivity.
Qed.
Lemma says_apart : forall E e e' s, says E (e ++ e') s -> exists s1 s2, says E e s1 /\ says E e' s2 /\ s = s1 ++ s2.
Proof.
  intros E e e'. induction e as [|p e IH]; intros s S; [exists [], s; split; [constructor|auto]|]. cbn [app] in S.
  inversion S as [|? ? ? S'|? ? S'|? ? ? Ex S'|? ? ? ? ? Ex V S'|? ? ? ? ? Ex S'|? ? ? ? ? ? ? ? Ex V C S']; subst; destruct (IH _ S') as (s1 & s2 & A & B & ->).
  - exists (s0 ++ s1), s2. split; [constructor; exact A|]. rewrite app_assoc. auto.
  - exists (dollar :: s1), s2. split; [constructor; exact A|auto].
  - exists s1, s2. split; [apply SY_none; assumption|auto].
  - exists (s0 ++ s1), s2. split; [eapply SY_some; eassumption|]. rewrite app_assoc. auto.
  - exists s1, s2. split; [apply SY_sub_none; assumption|auto].
  - exists (m ++ s1), s2. split; [eapply SY_sub; eassumption|]. rewrite app_assoc. auto.
Qed.
Lemma line_stands : forall E D, env_rel E D -> forall e t, line_rel e t -> forall s, says E e s -> exists m, stands_for D t m /\ chars m = s.
Proof.
  intros E D R. destruct (says_further E D R) as (A & _).
  assert (H : forall e t, line_rel e t -> forall s, says E e s -> exists m, stands_on D t m /\ chars m = s).
  { intros e t L. induction L as [e t O Et U|e t e' t' O Et U L IH]; intros s S; [exact (A e s S O t Et U)|].
    apply says_apart in S as (s1 & s2 & S1 & S2 & ->). inversion S2 as [|? ? s3 S3| | | | |]; subst. destruct (IH _ S3) as (m' & M' & <-).
    destruct (A (e ++ [Txt [c_bslash]]) (s1 ++ [c_bslash])) with (t := t) as (m & M & Cm).
    - clear - S1. induction S1; cbn [app]; rewrite <- ?app_assoc; try (econstructor; eassumption). apply (SY_txt E [c_bslash] [] []). constructor.
    - apply Forall_app. split; [exact O|]. repeat constructor; discriminate.
    - rewrite Et, show_app. reflexivity.
    - exact U.
    - exists (m ++ made c_nl :: m'). split.
      + intros t0 m0 S0. rewrite <- !app_assoc. apply M. cbn [app]. apply SF_plain; [discriminate|]. apply M'. exact S0.
      + rewrite chars_app, Cm, <- app_assoc. reflexivity. }
  intros e t L s S. destruct (H e t L s S) as (m & M & C). exists m. split; [apply stands_on_all; exact M|exact C].
Qed.
Definition same_vars (P Q : str -> Prop) : Prop := forall x, P x <-> Q x.
Definition open_rel (a : list str * wrule) (r : trule) : Prop :=
  List.map chars (tr_targets r) = fst a /\ List.map chars (tr_deps r) = wr_deps (snd a) /\
  Forall2 same_vars (wr_uses (snd a)) (tr_reads r) /\
  Forall2 line_rel (wr_recipe (snd a)) (tr_recipe r) /\ tr_double r = wr_double (snd a).
Definition view_rel (a : wrule) (v : tview) : Prop :=
  List.map chars (tv_deps v) = wr_deps a /\ Forall2 same_vars (wr_uses a) (tv_reads v) /\ Forall2 line_rel (wr_recipe a) (tv_recipe v) /\ tv_double v = wr_double a.
Record rel (s : wstate) (st : mstate) : Prop := Rel {
  re_env : env_rel (w_env s) (m_defs st);
  re_open : opt_rel open_rel (w_open s) (m_rule st);
  re_rules : forall t, opt_rel view_rel (w_rules s t) (m_rules st t);
  re_define : m_define st = None;
  re_deaf : m_ignoring st = w_deaf s
}.

Lemma set_rel : forall {A B} (R : A -> B -> Prop) (f : str -> option A) (g : str -> option B) x a b, (forall y, opt_rel R (f y) (g y)) -> R a b ->
  forall y, opt_rel R (set f x a y) (set g x b y).
Proof. intros A B R f g x a b H H' y. unfold set. destruct (list_eq_dec N.eq_dec x y); [exact H'|apply H]. Qed.

Lemma finish_rel : forall s st, rel s st -> rel (finish s) (closed st) /\
  m_conds (closed st) = m_conds st /\ m_defs (closed st) = m_defs st /\ w_env (finish s) = w_env s /\ w_deaf (finish s) = w_deaf s /\
  w_open (finish s) = None /\ m_rule (closed st) = None.
Proof.
  intros s st [E O R D I]. unfold finish, closed. destruct (w_open s) as [[ts r]|] eqn:Os, (m_rule st) as [tr|] eqn:Or; try contradiction O.
  - split; [|repeat split]. constructor; cbn; auto. destruct O as (O1 & O2 & OU & O3 & O4). cbn [fst snd] in *. subst ts. unfold record_rule. clear Or Os.
    revert R. generalize (m_rules st) (w_rules s). induction (tr_targets tr) as [|a l IH]; intros f g R; [exact R|]. cbn.
    apply IH. apply (set_rel view_rel); [exact R|]. unfold combined, mentioned.
    specialize (R (chars a)). destruct (wr_recipe r) as [|e es] eqn:Q1, (tr_recipe tr) as [|t us] eqn:Q2; try solve [inversion O3].
    + destruct (g (chars a)) as [o|], (f (chars a)) as [v|]; try contradiction R.
      * destruct R as (R1 & RU & R2 & R3). unfold view_rel; cbn. split; [rewrite map_app; congruence|]. split; [apply Forall2_app; assumption|]. auto.
      * unfold view_rel; cbn. rewrite Q1. auto.
    + unfold view_rel; cbn. rewrite Q1. auto.
  - split; [constructor; auto; [rewrite Os, Or; exact Logic.I]|]. repeat split; auto.
Qed.

(** * What is left of a text *)
Lemma left_refl : forall t, left_of t t.
Proof. intros t. exists []. reflexivity. Qed.
Lemma left_trans : forall a b c, left_of a b -> left_of b c -> left_of a c.
Proof. intros a b c [p ->] [q ->]. exists (p ++ q). apply app_assoc. Qed.
Lemma left_after : forall p (x : placed) t, left_of (p ++ x :: t) t.
Proof. intros p x t. exists (p ++ [x]). rewrite <- app_assoc. reflexivity. Qed.
Lemma left_app : forall p t : text, left_of (p ++ t) t.
Proof. intros p t. exists p. reflexivity. Qed.
Lemma left_nil : forall t : text, left_of t [].
Proof. intros t. exists t. symmetry. apply app_nil_r. Qed.
Lemma strip_left : forall t : text, left_of t (lstrip fst t).
Proof.
  induction t as [|a t IH]; [apply left_refl|]. unfold lstrip in *. cbn [drop_while]. destruct (blank (fst a)); [|apply left_refl].
  eapply left_trans; [apply (left_after [] a t)|exact IH].
Qed.
Lemma logical_left : forall t ls last rest, logical_line fst t ls last rest -> left_of t rest.
Proof.
  induction 1 as [l|l n rest|l|l n t ls last rest _ _ _ _ IH]; [apply left_nil|apply left_after|apply left_nil|].
  eapply left_trans; [apply left_after|exact IH].
Qed.
Lemma line_left : forall t l rest, line_text t l rest -> left_of t rest.
Proof. intros t l rest [? ? ? ? _ L|p h u _ _]; [exact (logical_left _ _ _ _ L)|apply left_app]. Qed.
Lemma plain_left : forall t l rest, plain_line t l rest -> left_of t rest.
Proof. intros t l rest [? ? ? _ L|p h u _ _ _]; [exact (logical_left _ _ _ _ L)|apply left_app]. Qed.
Lemma recipe_left : forall t b rest, recipe_text t b rest -> left_of t rest.
Proof.
  induction 1 as [p h u| | | | |l n c u more rest _ _ _ _ _ _ IH _]; try apply left_app; try apply left_nil; try apply left_after.
  eapply left_trans; [|exact IH]. eapply left_trans; [apply left_after|apply (left_after [] c u)].
Qed.
Lemma body_left : forall t l rest, body_line t l rest -> left_of t rest.
Proof. intros t l rest B. inversion B; subst; [apply left_app|apply left_after|apply left_nil]. Qed.
Lemma step_left : forall st t st' rest, step st t st' rest -> left_of t rest.
Proof.
  intros st t st' rest S. destruct S; try (eapply line_left; eassumption); try (eapply plain_left; eassumption); try (eapply body_left; eassumption).
  - destruct H as (h & u & v & ls & last & E & _ & _ & _ & L). eapply left_trans; [apply strip_left|]. rewrite E.
    eapply left_trans; [apply (left_app (h :: u) v)|exact (logical_left _ _ _ _ L)].
  - subst t. eapply left_trans; [apply (left_after [] c u)|eapply recipe_left; eassumption].
Qed.
Lemma plain_part : forall t l rest, plain_line t l rest -> exists p q, t = p ++ l ++ q.
Proof.
  intros t l rest [? last ? _ L|p h u _ _ _].
  - assert (S : exists p, last = p ++ lstrip fst last) by exact (strip_left last). destruct S as [p S]. remember [] as ls eqn:El. destruct L; try discriminate El.
    + exists p, []. rewrite app_nil_r. exact S.
    + eexists p, (n :: _). rewrite app_assoc, <- S. reflexivity.
  - destruct (strip_left p) as [q S]. exists q, (h :: u). rewrite app_assoc, <- S. reflexivity.
Qed.
Lemma plain_unbroken : forall t l rest, plain_line t l rest -> unbroken t -> unbroken l.
Proof. intros t l rest P U. apply plain_part in P as (p & q & ->). eapply unbroken_app, unbroken_after. exact U. Qed.

(** * Names with variables *)
Definition head_char (c : char) : Prop := word_char c \/ c = dollar.
Lemma computed_show : forall x, made_of word_char x -> Forall (fun c => word_char c \/ In c [36; 40; 41]%N) (show x).
Proof. intros x M. eapply show_forall; [exact M| | | | |]; cbn; auto 10. Qed.
Lemma computed_ok : forall x, made_of word_char x -> expr_ok x.
Proof. intros x M. eapply made_impl; [|exact M]. intros c W ->. unfold word_char in W. lia. Qed.
Lemma computed_printable : forall x, made_of word_char x -> Forall printable (show x).
Proof. intros x M. eapply Forall_impl; [|exact (computed_show x M)]. intros c [W|I]; [apply word_printable; exact W|]. unfold printable. cbn in I. lia. Qed.
Lemma word_head : forall x, made_of word_char x -> show x <> [] -> exists c l, show x = c :: l /\ head_char c.
Proof.
  intros x M. induction M as [|p x Hp M IH]; intros N; [contradiction N; reflexivity|]. unfold show in *. cbn [List.map concat] in *. destruct p as [s|y| |y k r]; cbn [show_part] in *.
  - destruct s as [|c s]; [apply IH; exact N|]. inversion Hp; subst. eexists. eexists. split; [reflexivity|left; assumption].
  - eexists. eexists. split; [reflexivity|right; reflexivity].
  - eexists. eexists. split; [reflexivity|right; reflexivity].
  - eexists. eexists. split; [reflexivity|right; reflexivity].
Qed.
Lemma head_solid : forall c, head_char c -> blank c = false /\ c <> c_space /\ c <> c_tab /\ c <> colon.
Proof.
  intros c [W| ->]; [|repeat split; discriminate]. split; [apply word_facts in W; apply W|]. unfold word_char, c_space, c_tab in *. lia.
Qed.
Lemma name_computed : forall x, name x -> computed [Txt x].
Proof.
  intros x (N & W & U). unfold computed, show. cbn [List.map concat show_part]. rewrite app_nil_r. split; [|auto]. constructor; [exact W|constructor].
Qed.
Lemma show_one : forall x, show [Txt x] = x.
Proof. intros x. cbn. apply app_nil_r. Qed.
Lemma says_one : forall E x, says E [Txt x] x.
Proof. intros E x. rewrite <- (app_nil_r x) at 2. apply SY_txt. constructor. Qed.

Section Run.
Variable fs : str -> file.

Definition leads (st : mstate) (t : text) (st' : mstate) (t' : text) : Prop :=
  (forall fin, runs fs st' t' fin -> runs fs st t fin) /\ (crashes fs st' t' -> crashes fs st t) /\ left_of t t'.
Lemma leads_refl : forall st t, leads st t st t.
Proof. intros st t. split; auto. split; auto. apply left_refl. Qed.
Lemma leads_trans : forall s1 t1 s2 t2 s3 t3, leads s1 t1 s2 t2 -> leads s2 t2 s3 t3 -> leads s1 t1 s3 t3.
Proof. intros s1 t1 s2 t2 s3 t3 (A & A' & L) (B & B' & L'). split; auto. split; auto. exact (left_trans _ _ _ L L'). Qed.
Lemma leads_unbroken : forall st t st' t', leads st t st' t' -> unbroken t -> unbroken t'.
Proof. intros st t st' t' (_ & _ & L). exact (unbroken_left _ _ L). Qed.
Lemma leads_line : forall st t st' t', t <> [] -> step st t st' t' -> leads st t st' t'.
Proof. intros st t st' t' E S. split; [intros fin H; eapply RU_line; eauto|split; [intros H; eapply CR_later; eauto|eapply step_left; exact S]]. Qed.
Lemma leads_step : forall st t st' t' c u, chars t = c :: u -> step st t st' t' -> leads st t st' t'.
Proof. intros st t st' t' c u E S. apply leads_line; [intros ->; discriminate E|exact S]. Qed.

Lemma direct : forall s st (t : text) c u, rel s st -> chars t = c :: u -> c <> c_tab -> directly st t.
Proof.
  intros s st t c u R E N. split; [|apply R]. intros _ (x & v & -> & F). injection E as E _. congruence.
Qed.

(** The first line of a text. *)
Record first_line (t : text) (l : text) (t' : text) : Prop := FirstLine {
  fl_text : line_text t l t'; fl_plain : plain_line t l t'; fl_logical : logical_line fst l [] l [];
  fl_comment : ~ is_comment_text t; fl_hash : ~ has fst c_hash t' }.

Lemma take_any : forall (t : text) c l u, chars t = (c :: l) ++ nl ++ u -> Forall inked (c :: l) -> whole (c :: l) -> blank c = false -> ~ has fst c_hash t ->
  exists tl t', chars tl = c :: l /\ chars t' = u /\ first_line t tl t' /\ solid tl.
Proof.
  intros t c l u E F W B H. cbn [nl app] in E.
  assert (Fn : Forall (fun c => c <> c_nl) (c :: l)) by (eapply Forall_impl; [|exact F]; intros a Q; unfold inked, c_nl in *; lia).
  destruct (whole_line t (c :: l) u) as (tl & n & t' & -> & E1 & E2 & E3 & H' & L & P & T); auto.
  rewrite (lstrip_solid _ _ _ E1 B) in P, T.
  exists tl, t'. split; [exact E1|]. split; [exact E3|]. split; [|exact (solid_chars _ _ _ E1 B)]. constructor; auto.
  - apply LL_end; [apply not_has; rewrite E1; exact Fn|rewrite continued_chars, E1; exact W].
  - apply no_comment. exact H.
Qed.
Lemma take_line : forall (t : text) c l u, chars t = (c :: l) ++ nl ++ u -> Forall printable (c :: l) -> c <> c_space -> ~ has fst c_hash t ->
  exists tl t', chars tl = c :: l /\ chars t' = u /\ first_line t tl t' /\ solid tl.
Proof.
  intros t c l u E F N H. apply take_any; [exact E|apply all_inked; exact F|apply printable_whole; exact F| |exact H].
  inversion F as [|? ? Fc Fl]; subst. rewrite printable_blank by exact Fc. apply N.eqb_neq. exact N.
Qed.

Lemma take_last : forall (t : text) c l, chars t = c :: l -> Forall printable (c :: l) -> c <> c_space -> ~ has fst c_hash t -> first_line t t [] /\ solid t.
Proof.
  intros t c l E F N H. inversion F as [|? ? Fc Fl]; subst.
  assert (B : blank c = false) by (rewrite printable_blank by exact Fc; apply N.eqb_neq; exact N).
  assert (Lo : logical_line fst t [] t []).
  { apply LL_end; [apply not_has|apply no_backslash]; rewrite E; eapply Forall_impl; try exact F; intros a Q; unfold printable, c_nl, c_bslash in *; lia. }
  pose proof (lstrip_solid _ _ _ E B) as S. split; [|exact (solid_chars _ _ _ E B)]. constructor.
  - pose proof (LT_line t [] t [] H Lo) as X. unfold pieces in X. cbn in X. rewrite S in X. destruct t; [discriminate E|exact X].
  - pose proof (PL_line t t [] H Lo) as X. rewrite S in X. exact X.
  - exact Lo.
  - apply no_comment. exact H.
  - intros (a & [] & _).
Qed.

Lemma first_printable : forall x, name x -> exists c l, x = c :: l /\ word_char c /\ c <> c_space /\ c <> c_tab.
Proof.
  intros x N. destruct x as [|c l]; [destruct N as (N & _); contradiction|]. exists c, l. split; [reflexivity|].
  assert (W : word_char c) by (apply (name_char _ _ N); now left). split; [exact W|]. unfold word_char, c_space, c_tab in *. lia.
Qed.

(** * Blank lines, assignments *)
Lemma blank_run : forall s st (t : text) u, rel s st -> ~ has fst c_hash t -> chars t = nl ++ u ->
  exists t', leads st t st t' /\ chars t' = u /\ ~ has fst c_hash t'.
Proof.
  intros s st t u R H E. destruct (line_of t [] u) as (tl & n & t' & -> & E1 & E2 & E3 & H' & L & P & T); auto.
  apply chars_nil in E1 as ->. exists t'. split; [|auto]. eapply leads_step; [exact E|].
  apply ST_blank; [apply no_comment; exact H|eapply direct; [exact R|exact E|discriminate]|exact T].
Qed.

Definition op_of (o : operator) : assignment :=
  match o with OSet => AsRecursive | ONow => AsSimple | OMaybe => AsConditional | OShell => AsBang | OMore => AsAppend end.

Lemma assigns_parts : forall (n ops v : text) o, chars ops = show_op o -> (forall c, In c (chars n) -> ~ name_end c) -> lstrip fst v = v ->
  assigns (n ++ ops ++ v) n (op_of o) v.
Proof.
  intros n ops v o E2 N S.
  assert (O : exists b op p, ops = [b] ++ op ++ [p] /\ blank (fst b) = true /\ blank (fst p) = true /\ In (chars op, op_of o) operators).
  { destruct o; cbn in E2; destruct ops as [|b [|p ops]]; try discriminate; injection E2 as A1 A2 A3; try (destruct ops as [|q ops]; [discriminate|injection A3 as A3 A4]).
    - destruct ops; [|discriminate]. exists b, [p], q. cbn. rewrite A1, A2, A3. auto 10.
    - destruct ops as [|z [|]]; try discriminate. injection A4 as A4. exists b, [p; q], z. cbn. rewrite A1, A2, A3, A4. auto 10.
    - destruct ops as [|z [|]]; try discriminate. injection A4 as A4. exists b, [p; q], z. cbn. rewrite A1, A2, A3, A4. auto 10.
    - destruct ops as [|z [|]]; try discriminate. injection A4 as A4. exists b, [p; q], z. cbn. rewrite A1, A2, A3, A4. auto 10.
    - destruct ops as [|z [|]]; try discriminate. injection A4 as A4. exists b, [p; q], z. cbn. rewrite A1, A2, A3, A4. auto 10. }
  destruct O as (b & op & p & -> & Bb & Bp & I). exists [b], op, ([p] ++ v). repeat split.
  - rewrite <- !app_assoc. reflexivity.
  - intros a Ia. apply N. apply in_map. exact Ia.
  - intros a [<-|[]]. exact Bb.
  - exact I.
  - unfold lstrip. cbn. rewrite Bp. exact (eq_sym S).
Qed.
Lemma assigns_of : forall (l : text) x o e, chars l = x ++ show_op o ++ show e -> (forall c, In c x -> ~ name_end c) -> value_expr e ->
  exists n v, chars n = x /\ chars v = show e /\ assigns l n (op_of o) v /\ exists p, l = n ++ p ++ v.
Proof.
  intros l x o e E N (M & _ & B). apply chars_split in E as (n & l1 & -> & E1 & E). apply chars_split in E as (ops & v & -> & E2 & E).
  exists n, v. split; [exact E1|]. split; [exact E|]. split; [|exists ops; reflexivity].
  apply assigns_parts; [exact E2|rewrite E1; exact N|]. apply solid_strip; rewrite E; exact B.
Qed.

Lemma trim_start_name : forall x, Forall word_char x -> trim_start x = x.
Proof. intros [|c x] F; [reflexivity|]. inversion F; subst. cbn [trim_start]. apply word_facts in H1 as (_ & -> & _). reflexivity. Qed.
Lemma trim_name : forall x, name x -> trim x = x.
Proof.
  intros x (_ & F & _). unfold trim. rewrite (trim_start_name x F), trim_start_name, rev_involutive; [reflexivity|].
  rewrite Forall_forall in *. intros c I. apply F, in_rev. exact I.
Qed.

Definition with_o (s : mstate) (x : str) (v : value) : mstate := with_defs (closed s) (set (m_defs s) x v).
Lemma assign_rel : forall s st x v v', rel s st -> val_rel v v' -> rel (assign_to (finish s) x v) (with_o st x v').
Proof.
  intros s st x v v' R V. destruct (finish_rel _ _ R) as ([E O Ru D I] & C1 & C3 & C4 & C5 & C6). constructor; cbn; auto.
  intros y. apply (set_rel val_rel); [|exact V]. rewrite C4. apply R.
Qed.

Lemma gives_assigned : forall s st x o e v (t : text), rel s st -> value_expr e -> gives (w_env s) x o e v -> chars t = show e -> unbroken t ->
  exists v', assigned (m_defs st) x (op_of o) t v' /\ val_rel v v'.
Proof.
  intros s st x o e v t R (M & _ & B) G E U. assert (O : expr_ok e) by (apply line_ok; exact M).
  assert (X : expression t) by (eapply show_expression; eauto).
  pose proof (re_env _ _ R x) as Rx. inversion G; subst; cbn [op_of].
  - eexists. split; [apply AS_later; [cbn; tauto|cbn; tauto|exact X]|constructor; auto].
  - eexists. split; [apply AS_later; [cbn; tauto|cbn; tauto|exact X]|constructor; auto].
  - eexists. split; [apply AS_later; [cbn; tauto|cbn; tauto|exact X]|constructor; auto].
  - destruct (pieces_both _ _ (re_env _ _ R)) as [SB _]. destruct (SB _ _ H0 O t E U) as (m & S & C).
    exists (Fixed t m (looks_up (m_defs st) t)). split; [apply AS_now; [intros ->; apply H; rewrite <- E; reflexivity|exact S]|constructor; exact C].
  - rewrite H in Rx. destruct (m_defs st x) eqn:Dx; [destruct Rx|]. exists (Deferred FlRecursive t). split; [apply AS_new; auto|constructor; auto].
  - rewrite H in Rx. destruct (m_defs st x) as [o'|] eqn:Dx; [|destruct Rx]. exists (Appended o' true (Deferred FlRecursive t)).
    split; [apply AS_more; auto|constructor; [exact Rx|constructor; auto]].
Qed.

Lemma op_printable : forall o, Forall printable (show_op o).
Proof. intros o. destruct o; repeat constructor; unfold printable; cbn; lia. Qed.
Lemma op_unreserved : forall o, exists r, show_op o = c_space :: r.
Proof. intros []; eexists; reflexivity. Qed.
Lemma assign_inked : forall x o e, made_of word_char x -> value_expr e -> Forall inked (show x ++ show_op o ++ show e).
Proof.
  intros x o e M V. rewrite !Forall_app. split; [apply all_inked, computed_printable; exact M|]. split; [apply all_inked, op_printable|apply show_inked; apply V].
Qed.
Lemma assign_whole : forall x o e, value_expr e -> whole (show x ++ show_op o ++ show e).
Proof.
  intros x o e V. assert (exists p, show_op o = p ++ [c_space]) as [p ->] by (exists (removelast (show_op o)); destruct o; reflexivity).
  rewrite <- app_assoc, app_assoc. apply whole_after; [discriminate|apply V].
Qed.

Lemma assign_to_on : forall s st (t tl t' : text) x o e n v, rel s st -> w_deaf s = false -> first_line t tl t' -> solid tl -> t <> [] -> directly st t -> unbroken t ->
  chars tl = show x ++ show_op o ++ show e -> computed x -> value_expr e -> says (w_env s) x n -> gives (w_env s) (trim n) o e v ->
  exists st', leads st t st' t' /\ rel (assign_to (finish s) (trim n) v) st' /\ m_conds st' = m_conds st.
Proof.
  intros s st t tl t' x o e n v R Ig [L P Lo C Hh] So Te Di U E1 (M & Ne & Ur) V Sx G.
  assert (Nn : forall c, In c (show x) -> ~ name_end c).
  { pose proof (computed_show x M) as F. rewrite Forall_forall in F. intros c I Q. destruct (F c I) as [W|J].
    - apply word_facts in W as (_ & _ & K & _). apply K. unfold name_end in Q. cbn in Q |- *. tauto.
    - unfold name_end, c_space, c_tab in Q. cbn in J, Q. lia. }
  destruct (assigns_of _ _ _ _ E1 Nn V) as (tn & tv & En & Ev & A & p & El).
  pose proof (plain_unbroken _ _ _ P U) as Ul. rewrite El in Ul.
  destruct (says_both _ _ (re_env _ _ R)) as [SB _]. destruct (SB _ _ Sx (computed_ok x M) tn En (unbroken_app _ _ Ul)) as (nm & Sn & Cn).
  destruct (gives_assigned _ _ _ _ _ _ tv R V G Ev (unbroken_after _ _ (unbroken_after _ _ Ul))) as (v' & As & Rv).
  exists (with_o st (trim n) v'). destruct (finish_rel _ _ R) as (_ & C1 & _). rewrite <- (re_deaf _ _ R) in Ig.
  split; [|split; [apply assign_rel; auto|exact C1]].
  apply leads_line; [exact Te|]. unfold with_o. rewrite <- Cn in As |- *.
  eapply ST_assignment; [exact C|exact Di|exact L|exact So|exact Ig| |exact A|exact Sn|exact As].
  apply unconditional_of. rewrite E1. destruct (op_unreserved o) as [r ->]. cbn [app]. apply unreserved_app; [exact Ur|reflexivity].
Qed.
Lemma assign_on : forall s st (t tl t' : text) x o e v, rel s st -> w_deaf s = false -> first_line t tl t' -> solid tl -> t <> [] -> directly st t -> unbroken t ->
  chars tl = x ++ show_op o ++ show e -> name x -> value_expr e -> gives (w_env s) x o e v ->
  exists st', leads st t st' t' /\ rel (assign_to (finish s) x v) st' /\ m_conds st' = m_conds st.
Proof.
  intros s st t tl t' x o e v R Ig FL So Te Di U E1 N V G. rewrite <- (trim_name x N) in G |- *.
  apply (assign_to_on s st t tl t' [Txt x] o e x v); auto; [rewrite show_one; exact E1|apply name_computed; exact N|apply says_one].
Qed.
Lemma assign_to_run : forall s st (t : text) u x o e n v, rel s st -> w_deaf s = false -> ~ has fst c_hash t -> unbroken t ->
  chars t = show_stmt (SAssignTo x o e) ++ u -> computed x -> value_expr e -> says (w_env s) x n -> gives (w_env s) (trim n) o e v ->
  exists st' t', leads st t st' t' /\ rel (assign_to (finish s) (trim n) v) st' /\ m_conds st' = m_conds st /\ chars t' = u /\ ~ has fst c_hash t'.
Proof.
  intros s st t u x o e n v R Ig H U E N V Sx G. cbn [show_stmt] in E.
  destruct (word_head x (proj1 N) (proj1 (proj2 N))) as (c & l & Ex & Hc). destruct (head_solid c Hc) as (Bc & Ns & Nt & _).
  assert (E' : chars t = (c :: l ++ show_op o ++ show e) ++ nl ++ u).
  { rewrite E, Ex. cbn [app]. rewrite <- !app_assoc. reflexivity. }
  destruct (take_any t c (l ++ show_op o ++ show e) u) as (tl & t' & E1 & E2 & FL & So); auto.
  { change (c :: l ++ show_op o ++ show e) with ((c :: l) ++ show_op o ++ show e). rewrite <- Ex. apply assign_inked; [apply N|exact V]. }
  { change (c :: l ++ show_op o ++ show e) with ((c :: l) ++ show_op o ++ show e). rewrite <- Ex. apply assign_whole. exact V. }
  change (c :: l ++ show_op o ++ show e) with ((c :: l) ++ show_op o ++ show e) in E1. rewrite <- Ex in E1.
  destruct (assign_to_on s st t tl t' x o e n v R Ig FL So) as (st' & Le & R' & C'); auto; [intros ->; discriminate E'|eapply direct; [exact R|exact E'|exact Nt]|].
  exists st', t'. pose proof (fl_hash _ _ _ FL). auto.
Qed.
Lemma assign_run : forall s st (t : text) u x o e v, rel s st -> w_deaf s = false -> ~ has fst c_hash t -> unbroken t ->
  chars t = show_stmt (SAssign x o e) ++ u -> name x -> value_expr e -> gives (w_env s) x o e v ->
  exists st' t', leads st t st' t' /\ rel (assign_to (finish s) x v) st' /\ m_conds st' = m_conds st /\ chars t' = u /\ ~ has fst c_hash t'.
Proof.
  intros s st t u x o e v R Ig H U E N V G. rewrite <- (trim_name x N) in G |- *.
  apply (assign_to_run s st t u [Txt x] o e x v); auto; [cbn [show_stmt] in *; rewrite show_one; exact E|apply name_computed; exact N|apply says_one].
Qed.
End Run.
