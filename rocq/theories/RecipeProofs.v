(** Proofs about commands that end in a backslash before a line without a tab. *)
From Coq Require Import String.
From Verif Require Import Base LocModel EvdModel AstModel EngineModel EvdSpec DbSpec ParseModel ParseSpec EvalSpec AstParseSpec EngineSpec MakeSpec CrashSpec
  EvdProofs2 ParseProofs EvalProofs4 MakeProofs5 MakeRun WriteSpec WriteProofs WriteProofs2 WriteLong WriteProofs3 WriteProofs4 WriteProofs5 WriteProofs9 WriteProofs6 WriteProofs7.
Local Open Scope nat_scope.

Section Run.
Variable fs : str -> file.

Lemma cut_run : forall s st (t : text) u ts r e, rel s st -> w_open s = Some (ts, r) -> ~ has fst c_hash t -> command_line e -> unbroken t ->
  chars t = c_tab :: show e ++ [c_bslash; c_nl] ++ u -> match u with c :: _ => c <> c_tab | [] => True end ->
  exists st' t', leads fs st t st' t' /\ rel (open_rule s ts (WRule (wr_deps r) (wr_uses r) (wr_recipe r ++ [e ++ [Txt [c_bslash; c_nl]]]) (wr_double r))) st' /\
    m_conds st' = m_conds st /\ chars t' = u /\ ~ has fst c_hash t'.
Proof.
  intros s st t u ts r e R O H [M Wh] U E B. apply chars_cons in E as (c & t1 & -> & Fc & E). apply chars_split in E as (b & t2 & -> & Eb & E).
  cbn [app] in E. apply chars_cons in E as (bs & t3 & -> & Fb & E). apply chars_cons in E as (n & t4 & -> & Fn & E).
  destruct (m_rule st) as [tr|] eqn:Mr; [|pose proof (re_open _ _ R) as Q; rewrite O, Mr in Q; destruct Q].
  assert (Hn : forall P : char -> Prop, (forall c, inked c -> P c) -> Forall P (chars b)).
  { intros P HP. rewrite Eb. eapply Forall_impl; [exact HP|apply show_inked; exact M]. }
  replace (b ++ bs :: n :: t4) with ((b ++ [bs]) ++ n :: t4) in * by (rewrite <- app_assoc; reflexivity).
  assert (X : line_rel (e ++ [Txt [c_bslash; c_nl]]) ((b ++ [bs]) ++ [made c_nl])).
  { apply (LR_more e (b ++ [bs]) [] []); [apply line_ok; exact M|rewrite chars_app, Eb; cbn; rewrite Fb; reflexivity|exact (unbroken_app _ _ (unbroken_tail _ _ U))|].
    apply LR_line; [apply Forall_nil|reflexivity|intros p ? ? ? Z; destruct p; discriminate]. }
  set (st1 := with_rule st (Some (with_line tr ((b ++ [bs]) ++ [made c_nl])))).
  assert (St : step st (c :: (b ++ [bs]) ++ n :: t4) st1 t4).
  { eapply ST_recipe; [apply no_comment; exact H|exact Mr|reflexivity|exact Fc| |destruct (line_text_of _ _ X) as [Ox Ex]; eapply show_expression; eassumption].
    apply RT_left; [|  |exact Fn|rewrite continued_chars, chars_app, Eb; cbn; rewrite Fb; apply continued_more; exact Wh|].
    - intros (a & I & Q). apply H. exists a. split; [right; exact I|exact Q].
    - intros (z & I & Q). apply in_app_iff in I as [I|[<-|[]]]; [|rewrite Fb in Q; discriminate].
      specialize (Hn (fun c => c <> c_nl)). rewrite Forall_forall in Hn. apply (Hn) with (x := fst z); [intros a Z; unfold inked, c_nl in *; lia|apply in_map; exact I|exact Q].
    - destruct t4 as [|a t4]; [intros (? & ? & Z & _); discriminate|]. intros (a' & r' & Z & Fa). injection Z as <- <-. cbn in E. subst u. apply B. exact Fa. }
  exists st1, t4. split; [eapply leads_step; [reflexivity|exact St]|]. split; [|split; [reflexivity|split; [exact E|]]].
  - destruct R as [R1 R2 R3 R4 R5]. constructor; cbn; auto. rewrite O, Mr in R2. destruct R2 as (O1 & O2 & OU & O3 & O4).
    unfold open_rel; cbn. split; [exact O1|]. split; [exact O2|]. split; [exact OU|]. split; [|exact O4].
    apply Forall2_app; [exact O3|]. constructor; [exact X|constructor].
  - intros (a & I & Q). apply H. exists a. split; [right; apply in_or_app; right; right; exact I|exact Q].
Qed.
End Run.

(** The line after the backslash is read as if the command had ended. *)
Lemma cut_reads : forall fs ss s ts r e rest s', ascii_files fs -> every well_formed ss -> acts_all fs true w_start ss s -> w_open s = Some (ts, r) -> command_line e ->
  every well_formed rest -> match show_all rest with c :: _ => c <> c_tab | [] => True end ->
  acts_all fs true (open_rule s ts (WRule (wr_deps r) (wr_uses r) (wr_recipe r ++ [e ++ [Txt [c_bslash; c_nl]]]) (wr_double r))) rest s' ->
  exists w, reads_to fs (show_all ss ++ (c_tab :: show e ++ [c_bslash; c_nl]) ++ show_all rest) (Ok (w, MOk)) /\ shows_state fs s' w.
Proof.
  intros fs ss s ts r e rest s' Af W1 A1 O M W2 B A2. set (text := show_all ss ++ _).
  assert (Ti : Forall tidy text).
  { apply Forall_app. split; [apply all_formed_tidy; exact W1|]. apply Forall_app. split; [|apply all_formed_tidy; exact W2].
    constructor; [split; [reflexivity|discriminate]|]. apply Forall_app. split; [apply command_tidy; apply M|]. repeat (apply Forall_cons; [split; [reflexivity|discriminate]|]). apply Forall_nil. }
  pose proof (proj1 (proj2 (acts_run fs)) _ _ _ _ A1 W1) as R1. pose proof (proj1 (proj2 (acts_run fs)) _ _ _ _ A2 W2) as R2.
  pose proof (start_rel m_begin eq_refl eq_refl eq_refl eq_refl eq_refl) as R0.
  assert (H0 : ~ has fst c_hash (file_text 0%N text)).
  { apply not_has. rewrite file_chars. eapply Forall_impl; [|exact Ti]. intros c [_ Q]. exact Q. }
  destruct (R1 m_begin (file_text 0%N text) _ R0 eq_refl H0 (file_unbroken 0%N text) (file_chars 0%N text)) as (st1 & t1 & L1 & Q1 & C1 & E1 & H1).
  pose proof (leads_unbroken _ _ _ _ _ L1 (file_unbroken 0%N text)) as U1.
  destruct (cut_run fs s st1 t1 (show_all rest) ts r e Q1 O H1 M U1) as (st2 & t2 & L2 & Q2 & C2 & E2 & H2); [rewrite E1; cbn [app]; rewrite <- app_assoc; reflexivity|exact B|].
  destruct (R2 st2 t2 [] Q2) as (st3 & t3 & L3 & Q3 & C3 & E3 & H3); [rewrite C2, C1; reflexivity|exact H2|eapply leads_unbroken; eassumption|rewrite app_nil_r; exact E2|].
  apply chars_nil in E3 as ->.
  destruct (makefile_runs fs text st3 Af) as (w & Re & Sh & _).
  - eapply Forall_impl; [|exact Ti]. intros c [Q _]. exact Q.
  - apply L1, L2, L3. constructor.
  - exists w. split; [exact Re|]. eapply shown_state; eassumption.
Qed.
Lemma name_no_tab : forall x r, name x -> match x ++ r with c :: _ => c <> c_tab | [] => True end.
Proof. intros [|c x] r (NE & F & _); [contradiction|]. cbn. inversion F as [|? ? W _]; subst. intros ->. apply word_facts in W as (_ & W & _). discriminate. Qed.
Lemma cut_command : forall fs t deps lines l x v, ascii_files fs -> name t -> Forall name deps -> Forall plain_command lines -> plain_command l -> name x -> plain_value v ->
  exists w r, reads_to fs (t ++ lit ": " ++ join c_space deps ++ nl ++ concat (List.map (fun l => c_tab :: l ++ nl) lines) ++ (c_tab :: l ++ [c_bslash; c_nl]) ++ x ++ lit " = " ++ v ++ nl) (Ok (w, MOk)) /\
    option_map view (rule_of (w_names w) (w_db w) t) = Some r /\ Forall2 (fun l a => expands_to fs w a l) (lines ++ [l ++ [c_bslash; c_nl]]) (rv_recipe r) /\ has_value fs w x v.
Proof.
  intros fs t deps lines l x v Af Nt Fd Fl Fc Nx Vv.
  assert (Ud : unreserved (join c_space deps)).
  { destruct deps as [|d ds]; [|apply join_unreserved_end; [discriminate|exact Fd]]. intros k r I E. cbn in I. repeat (destruct I as [<-|I]; [discriminate|]). destruct I. }
  assert (Jd : Forall (fun c => word_char c \/ c = c_space) (join c_space deps)) by (apply join_forall; auto).
  assert (De : deps_expr [Txt (join c_space deps)]).
  { split; [apply made_txt; exact Jd|]. rewrite show_txt. destruct deps as [|d ds]; [exact Ud|].
    destruct (join_first (d :: ds)) as (c & l0 & E & W & _); [discriminate|exact Fd|]. rewrite E. cbn [trim_start]. apply word_facts in W as (_ & -> & _). rewrite <- E. exact Ud. }
  assert (Ml : Forall recipe_expr (List.map txt lines)) by (rewrite Forall_map; eapply Forall_impl; [|exact Fl]; intros k O; apply RX_line, plain_line, O).
  eassert (A1 : acts_all fs true w_start [SRule [t] false [Txt (join c_space deps)] (List.map txt lines)] _).
  { econstructor; [eapply A_rule; [reflexivity|apply says_txt|]|constructor].
    intros c I Q. rewrite Forall_forall in Jd. destruct (Jd c I) as [W| ->]; [apply word_facts in W as (_ & _ & G & _); apply G; cbn in Q |- *; tauto|]. cbn in Q. unfold c_space in Q. lia. }
  set (r0 := rule_with (w_env w_start) [Txt (join c_space deps)] (join c_space deps) (List.map txt lines) false) in A1.
  eassert (A2 : acts_all fs true (open_rule (open_rule (finish w_start) [t] r0) [t] (WRule (wr_deps r0) (wr_uses r0) (wr_recipe r0 ++ [txt l ++ [Txt [c_bslash; c_nl]]]) (wr_double r0)))
    [SAssign x OSet [Txt v]] _).
  { econstructor; [apply A_assign; [reflexivity|apply G_set]|constructor]. }
  assert (W1 : every well_formed [SRule [t] false [Txt (join c_space deps)] (List.map txt lines)]).
  { split; [|exact Logic.I]. split; [apply one_not_nil|]. split; [constructor; [exact Nt|constructor]|]. split; [exact De|exact Ml]. }
  assert (W2 : every well_formed [SAssign x OSet [Txt v]]) by (split; [split; [exact Nx|apply value_txt; exact Vv]|exact Logic.I]).
  assert (B : match show_all [SAssign x OSet [Txt v]] with c :: _ => c <> c_tab | [] => True end).
  { unfold show_all. cbn [List.map concat show_stmt]. rewrite <- app_assoc. apply name_no_tab. exact Nx. }
  destruct (cut_reads _ _ _ _ _ _ _ _ Af W1 A1 eq_refl (plain_line _ Fc) W2 B A2) as (w & R & U & V & Ru).
  cbn in Ru. unfold combined in Ru. cbn in Ru. specialize (Ru t). rewrite set_same in Ru.
  destruct (option_map view (rule_of (w_names w) (w_db w) t)) as [r|] eqn:Er; [|destruct (List.map txt lines); destruct Ru].
  exists w, r. split; [|split; [exact Er|split]].
  - unfold show_all in R. cbn [List.map concat show_stmt join] in R. change (show (txt l)) with (show [Txt l]) in R. rewrite !show_txt, !app_nil_r, <- !app_assoc, map_map in R.
      rewrite commands_shown by exact Fl. cbn [app] in R |- *. rewrite <- !app_assoc in R. rewrite <- !app_assoc. exact R.
  - assert (X : exists E, Forall2 (fun e a => forall m, says E e m -> expands_to fs w a m) (List.map txt lines ++ [txt l ++ [Txt [c_bslash; c_nl]]]) (rv_recipe r)).
      { eexists. destruct (List.map txt lines); cbn in Ru; apply Ru. }
      destruct X as [E X]. clear - X. revert X. generalize (rv_recipe r). induction lines as [|k lines IH]; intros rs X; inversion X; subst; constructor; auto.
    + apply H1. constructor. rewrite <- (app_nil_r [c_bslash; c_nl]). constructor. constructor.
    + inversion H3; subst. constructor.
    + apply H1. apply says_txt.
  - eapply V; [apply set_same|]. constructor. apply says_txt.
Qed.
