(** Proofs about makefiles written out from statements: rules and words. *)
From Coq Require Import String.
From Verif Require Import Base LocModel EvdModel AstModel EngineModel EvdSpec DbSpec ParseModel ParseSpec EvalSpec AstParseSpec EngineSpec MakeSpec
  ParseProofs EvalProofs4 MakeProofs MakeRun WriteSpec WriteProofs WriteProofs2 WriteRule.
Local Open Scope nat_scope.

Lemma name_word : forall t : text, Forall word_char (chars t) -> word_text t.
Proof.
  induction t as [|a t IH]; intros F; [constructor|]. inversion F as [|? ? Fa Ft]; subst. apply WT_char; [|apply IH; exact Ft].
  apply word_facts in Fa as (_ & _ & G & _). cbn in G |- *. tauto.
Qed.
Lemma name_no : forall (t : text) x, name x -> chars t = x -> name_text t.
Proof.
  intros t x N E a Ia Q. assert (J : In (fst a) x) by (rewrite <- E; apply in_map; exact Ia).
  revert J. apply (name_not _ _ N). cbn in Q |- *. tauto.
Qed.
Lemma join_first : forall ts, ts <> [] -> Forall name ts -> exists c l, join c_space ts = c :: l /\ word_char c /\ c <> c_space /\ c <> c_tab.
Proof.
  intros [|x ts] NE F; [contradiction|]. inversion F as [|? ? N _]; subst. destruct (first_printable _ N) as (c & l & -> & W & A & B).
  exists c. destruct ts; eexists; (split; [reflexivity|auto]).
Qed.
Lemma join_forall : forall (P : char -> Prop) ts, P c_space -> (forall c, word_char c -> P c) -> Forall name ts -> Forall P (join c_space ts).
Proof.
  intros P ts Ps Pw F. induction F as [|x ts N F IH]; [constructor|].
  assert (X : Forall P x) by (eapply Forall_impl; [exact Pw|apply N]). cbn. destruct ts; [exact X|]. apply Forall_app. split; [exact X|]. constructor; assumption.
Qed.
Lemma join_unreserved : forall ts c r, ts <> [] -> Forall name ts -> in_reserved (ascii_lower c) = false -> unreserved (join c_space ts ++ c :: r).
Proof.
  intros ts c r NE F C. destruct ts as [|x ts]; [contradiction|]. inversion F as [|? ? N _]; subst. destruct ts as [|y ts]; cbn [join].
  - apply unreserved_app; [apply N|exact C].
  - rewrite <- app_assoc. cbn [app]. apply unreserved_app; [apply N|reflexivity].
Qed.
Lemma join_unreserved_end : forall ts, ts <> [] -> Forall name ts -> unreserved (join c_space ts).
Proof.
  intros ts NE F. destruct ts as [|x ts]; [contradiction|]. inversion F as [|? ? N _]; subst. destruct ts as [|y ts]; cbn [join]; [apply N|].
  apply unreserved_app; [apply N|reflexivity].
Qed.

Lemma names_computed : forall ts, Forall name ts -> Forall computed (List.map (fun x => [Txt x]) ts).
Proof. intros ts F. induction F; cbn [List.map]; constructor; [apply name_computed; assumption|assumption]. Qed.
Lemma names_shown : forall ts, List.map show (List.map (fun x => [Txt x]) ts) = ts.
Proof. intros ts. rewrite map_map. rewrite (map_ext _ (fun x => x)); [apply map_id|]. exact show_one. Qed.
Lemma names_say : forall E ts, Forall2 (says E) (List.map (fun x => [Txt x]) ts) ts.
Proof. intros E ts. induction ts; cbn [List.map]; constructor; [apply says_one|assumption]. Qed.

Lemma show_cons : forall e es, es <> [] -> join c_space (List.map show (e :: es)) = show e ++ c_space :: join c_space (List.map show es).
Proof. intros e [|f es] N; [contradiction|reflexivity]. Qed.
Lemma shown_first : forall ts, ts <> [] -> Forall computed ts -> exists c l, join c_space (List.map show ts) = c :: l /\ head_char c.
Proof.
  intros [|x ts] NE F; [contradiction|]. inversion F as [|? ? (M & N & _) _]; subst. destruct (word_head x M N) as (c & l & Q & H).
  destruct ts as [|y ts]; [cbn [List.map join]|rewrite show_cons by discriminate]; rewrite Q; eexists; eexists; (split; [reflexivity|exact H]).
Qed.
Lemma shown_forall : forall (P : char -> Prop) ts, P c_space -> (forall c, word_char c -> P c) -> P 36%N -> P 40%N -> P 41%N -> Forall computed ts ->
  Forall P (join c_space (List.map show ts)).
Proof.
  intros P ts Ps Pw P1 P2 P3 F. induction F as [|x ts (M & _) F IH]; [constructor|].
  assert (X : Forall P (show x)) by (eapply Forall_impl; [|exact (computed_show x M)]; intros c [W|[<-|[<-|[<-|[]]]]]; auto).
  destruct ts as [|y ts]; [exact X|]. rewrite show_cons by discriminate. apply Forall_app. split; [exact X|]. constructor; assumption.
Qed.
Lemma shown_unreserved : forall ts c r, ts <> [] -> Forall computed ts -> in_reserved (ascii_lower c) = false -> unreserved (join c_space (List.map show ts) ++ c :: r).
Proof.
  intros ts c r NE F C. destruct ts as [|x ts]; [contradiction|]. inversion F as [|? ? (_ & _ & N) _]; subst. destruct ts as [|y ts].
  - apply unreserved_app; [exact N|exact C].
  - rewrite show_cons by discriminate. rewrite <- app_assoc. cbn [app]. apply unreserved_app; [exact N|reflexivity].
Qed.

(** * Targets *)
Lemma computed_text : forall x, made_of word_char x -> forall t : text, chars t = show x -> word_text t.
Proof.
  assert (J : forall w u : text, Forall word_char (chars w) -> word_text u -> word_text (w ++ u)).
  { induction w as [|a w IH]; intros u F U; [exact U|]. inversion F as [|? ? Fa Fw]; subst. cbn [app]. apply WT_char; [|apply IH; assumption].
    apply word_facts in Fa as (_ & _ & G & _). cbn in G |- *. tauto. }
  induction 1 as [|p x Hp M IH]; intros t E; [destruct t; [constructor|discriminate]|].
  unfold show in E. cbn [List.map concat] in E. fold (show x) in E. destruct p as [s|y| |y k r]; cbn [show_part] in E.
  - apply chars_split in E as (w & u & -> & Ew & Eu). apply J; [rewrite Ew; exact Hp|apply IH; exact Eu].
  - rewrite <- !app_assoc in E. cbn in E. apply chars_cons in E as (d & t1 & -> & F1 & E). apply chars_cons in E as (b & t2 & -> & F2 & E).
    apply chars_split in E as (inner & t3 & -> & Ei & E). apply chars_cons in E as (c & t4 & -> & F3 & E).
    eapply WT_ref; [exact F1|exact F2|apply group_plain; [rewrite Ei; not_in Hp|rewrite Ei; not_in Hp|exact F3]|apply IH; exact E].
  - cbn in E. apply chars_cons in E as (d & t1 & -> & F1 & E). apply chars_cons in E as (b & t2 & -> & F2 & E).
    apply WT_char_ref; [exact F1| |apply IH; exact E]. rewrite F2. cbn. lia.
  - exfalso. destruct Hp as (_ & _ & _ & Q). inversion Q as [|? ? W _]; subst. unfold word_char in W. lia.
Qed.
Lemma safe_name : forall (m : text), safe_deps (chars m) -> name_text m.
Proof. intros m S a Ia Q. apply (S (fst a)); [apply in_map; exact Ia|]. cbn in Q |- *. unfold c_bslash in Q. tauto. Qed.
Lemma targets_of : forall E D, env_rel E D -> forall ts ns, Forall2 (says E) ts ns -> forall (t : text) after, ts <> [] -> Forall computed ts ->
  some_targets ns -> Forall safe_deps ns -> unbroken t -> chars t = join c_space (List.map show ts) ++ colon :: after ->
  exists ms ta, targets_before D t ms ta /\ List.map chars ms = ns /\ chars ta = after /\ left_of t ta.
Proof.
  intros En D R. destruct (says_both _ _ R) as [SB _]. induction 1 as [|x n ts ns Sx Ss IH]; intros t after NE F So Sa U E; [contradiction|].
  inversion F as [|? ? (M & N & _) F']; subst. inversion Sa as [|? ? Sn Sa']; subst.
  destruct Ss as [|y n' ts ns Sy Ss].
  - cbn [List.map join] in E. apply chars_split in E as (w & t1 & -> & E1 & E). apply chars_cons in E as (c & t2 & -> & E2 & E).
    destruct (SB _ _ Sx (computed_ok x M) w E1 (unbroken_app _ _ U)) as (m & Sm & Cm).
    exists [m], t2. split; [|split; [cbn; congruence|split; [exact E|]]].
    + apply TB_last; [eapply computed_text; eauto|exact Sm|apply safe_name; rewrite Cm; exact Sn|exact E2].
    + exists (w ++ [c]). rewrite <- app_assoc. reflexivity.
  - destruct So as [Nn So]. rewrite show_cons, <- app_assoc in E by discriminate. cbn [app] in E.
    apply chars_split in E as (w & t1 & -> & E1 & E). apply chars_cons in E as (b & t2 & -> & E2 & E).
    destruct (SB _ _ Sx (computed_ok x M) w E1 (unbroken_app _ _ U)) as (m & Sm & Cm).
    assert (U2 : unbroken t2) by exact (unbroken_tail _ _ (unbroken_after _ _ U)).
    destruct (IH t2 after ltac:(discriminate) F' So Sa' U2 E) as (ms & ta & T & Em & Ea & p & ->). exists (m :: ms), ta.
    split; [|split; [cbn; congruence|split; [exact Ea|exists (w ++ b :: p); rewrite <- app_assoc; reflexivity]]].
    apply TB_word; [eapply computed_text; eauto|intros ->; apply N; rewrite <- E1; reflexivity|exact Sm|apply safe_name; rewrite Cm; exact Sn|
      intros ->; apply Nn; rewrite <- Cm; reflexivity|rewrite E2; reflexivity|].
    destruct (shown_first (y :: ts) ltac:(discriminate) F') as (c & l & Ec & Hc).
    rewrite (lstrip_solid (p ++ ta) c (l ++ colon :: after)); [exact T|rewrite E, Ec; reflexivity|apply head_solid in Hc; apply Hc].
Qed.

Lemma split_word : forall (p : char -> bool) (t w : text), (forall a, In a t -> p (fst a) = false) -> split_at fst p w t = word_and (w ++ t) [].
Proof.
  intros p. induction t as [|a t IH]; intros w H; cbn; [rewrite app_nil_r; reflexivity|]. rewrite (H a (or_introl eq_refl)), IH, <- app_assoc; [reflexivity|].
  intros b I. apply H. now right.
Qed.
Lemma split_chars : forall (p q : char -> bool) (t w : text), (forall c, In c (chars t) -> p c = q c) ->
  List.map chars (split_at fst p w t) = split_at (fun c => c) q (chars w) (chars t).
Proof.
  intros p q. assert (W : forall (w : text) ws, List.map chars (word_and w ws) = word_and (chars w) (List.map chars ws)) by (intros [|a w] ws; reflexivity).
  induction t as [|a t IH]; intros w H; cbn [split_at chars List.map]; [exact (W w [])|]. rewrite (H (fst a) (or_introl eq_refl)). destruct (q (fst a)).
  - rewrite W. f_equal. apply (IH []). intros c I. apply H. now right.
  - rewrite IH by (intros c I; apply H; now right). rewrite chars_app. reflexivity.
Qed.

Lemma names_words : forall (m : text) d, chars m = d -> (forall c, In c d -> ~ In c [0; 92]%N) -> List.map chars (names_in m) = words d.
Proof.
  intros m d <- H. unfold names_in, words. rewrite (split_chars _ is_whitespace m []); [reflexivity|].
  intros c I. rewrite orb_false_r. replace (c =? 0)%N with false; [apply orb_false_r|]. symmetry. apply N.eqb_neq. specialize (H c I). cbn in H. lia.
Qed.
Lemma safe_words : forall (m : text) d, chars m = d -> safe_deps d -> List.map chars (names_in m) = words d.
Proof. intros m d E S. apply names_words; [exact E|]. intros c I J. apply (S c I). cbn in J |- *. tauto. Qed.
Lemma all_words : forall ms ns, List.map chars ms = ns -> Forall safe_deps ns -> List.map chars (concat (List.map names_in ms)) = concat (List.map words ns).
Proof.
  induction ms as [|m ms IH]; intros ns E F; subst ns; [reflexivity|]. cbn [List.map] in F. inversion F as [|? ? Fm Fs]; subst. cbn [List.map concat].
  rewrite map_app, (safe_words m _ eq_refl Fm), (IH _ eq_refl Fs). reflexivity.
Qed.
Lemma words_name : forall x, name x -> words x = [x].
Proof.
  intros x N. destruct N as (N & W & _). unfold words.
  assert (G : forall y w, Forall word_char y -> split_at (fun c : char => c) is_whitespace w y = word_and (w ++ y) []).
  { induction y as [|a y IH]; intros w F; cbn [split_at]; [rewrite app_nil_r; reflexivity|]. inversion F as [|? ? Fa Fy]; subst.
    apply word_facts in Fa as (_ & -> & _). rewrite IH by exact Fy. rewrite <- app_assoc. reflexivity. }
  rewrite G by exact W. destruct x; [contradiction|reflexivity].
Qed.
Lemma names_words_all : forall ts, Forall name ts -> concat (List.map words ts) = ts.
Proof. induction 1 as [|x ts N F IH]; [reflexivity|]. cbn [List.map concat]. rewrite (words_name x N), IH. reflexivity. Qed.
Lemma names_some : forall ts, Forall name ts -> some_targets ts.
Proof. induction 1 as [|x ts N F IH]; [exact Logic.I|]. destruct ts; [exact Logic.I|]. split; [apply N|exact IH]. Qed.
Lemma names_safe : forall ts, Forall name ts -> Forall safe_deps ts.
Proof. apply Forall_impl. intros x N c I J. revert I. apply (name_not _ _ N). cbn in J |- *. tauto. Qed.

(** * Rules *)
Lemma deps_show : forall e, made_of dep_char e -> Forall (fun c => word_char c \/ In c [32; 36; 40; 41]%N) (show e).
Proof. intros e M. eapply show_forall; [exact M| | | | |]; cbn; auto 10. intros c [W| ->]; auto. Qed.
Lemma deps_ok : forall e, made_of dep_char e -> expr_ok e.
Proof. intros e M. eapply made_impl; [|exact M]. intros c [W| ->] Q; [subst c; unfold word_char in W; lia|discriminate]. Qed.
Lemma deps_printable : forall e, made_of dep_char e -> Forall printable (show e).
Proof. intros e M. eapply Forall_impl; [|exact (deps_show e M)]. intros c [W|I]; [apply word_printable; exact W|]. unfold printable. cbn in I. lia. Qed.

Lemma shown_no_assignment : forall (l : text) ts (double : bool) r, ts <> [] -> Forall computed ts ->
  chars l = join c_space (List.map show ts) ++ lit (if double then ":: " else ": ") ++ r -> no_assignment l.
Proof.
  intros l ts double r NE F E. destruct ts as [|x ts]; [contradiction|]. inversion F as [|? ? (M & N & _) F']; subst.
  assert (W : Forall (fun c => ~ name_end c) (show x)) by (eapply Forall_impl; [exact word_stays|exact (computed_show x M)]).
  destruct ts as [|y ts].
  - cbn [List.map join] in E. destruct double; eapply (no_assigning l (show x) [] _ E W); [constructor| |constructor|]; right; exists colon; eexists; (split; [reflexivity|]);
    (split; [right; right; cbn; tauto|]); (split; [reflexivity|]); intros op k z' I; cbn in I; repeat (destruct I as [I|I]; [injection I as <- _; cbn; intros Q; discriminate|]); destruct I.
  - rewrite show_cons in E by discriminate. destruct (shown_first (y :: ts)) as (c & l' & Ec & W'); [discriminate|exact F'|]. rewrite Ec, <- app_assoc in E. cbn [app] in E.
    eapply (no_assigning l (show x) [c_space] _ E W); [repeat constructor|]. right. eexists. eexists. split; [reflexivity|]. split; [left; discriminate|]. split; [apply head_solid; exact W'|].
    apply solid_no_operator, word_stays. destruct W' as [W'| ->]; [auto|right; cbn; tauto].
Qed.

Section Run.
Variable fs : str -> file.

Lemma rule_line_of : forall s st (l : text) ts (double : bool) deps cmd ns d, rel s st -> ts <> [] -> Forall computed ts -> deps_expr deps -> Forall command_expr (commands cmd) ->
  Forall2 (says (w_env s)) ts ns -> some_targets ns -> Forall safe_deps ns -> says (w_env s) deps d -> safe_deps d -> unbroken l ->
  chars l = join c_space (List.map show ts) ++ lit (if double then ":: " else ": ") ++ show deps ++ show_cmd cmd ->
  exists r, rule_line (m_defs st) l r /\ open_rel (concat (List.map words ns), rule_with (w_env s) deps d (commands cmd) double) r.
Proof.
  intros s st l0 ts double deps cmd ns d R NE F V Vc Ss So Sa S C U0 E0.
  rewrite !app_assoc in E0. apply chars_split in E0 as (l & tc & -> & E & Ec). rewrite <- !app_assoc in E.
  assert (U : unbroken l) by exact (unbroken_app _ _ U0). apply unbroken_after in U0.
  assert (Tc : exists k, match cmd with None => k = [] /\ tc = [] | Some e => exists c b, k = [b] /\ tc = c :: b /\ fst c = semicolon /\ chars b = show e /\ unbroken b end).
  { destruct cmd as [e|]; [|exists []; destruct tc; [auto|discriminate]]. apply chars_cons in Ec as (c & b & -> & Fc & Eb). exists [b], c, b. pose proof (unbroken_tail _ _ U0). auto 10. }
  destruct Tc as (rec & Tc).
  assert (E' : exists after, chars l = join c_space (List.map show ts) ++ colon :: after /\ after = (if double then [colon] else []) ++ c_space :: show deps).
  { eexists. split; [|reflexivity]. rewrite E. destruct double; reflexivity. }
  destruct E' as (after & E' & Ea). destruct (targets_of _ _ (re_env _ _ R) ts ns Ss l after NE F So Sa U E') as (ms & ta & T & Em & Eta & pa & El).
  rewrite El in U. apply unbroken_after in U.
  assert (exists deps_t, after_colons ta double deps_t /\ chars deps_t = c_space :: show deps /\ unbroken deps_t) as (td & Ac & Ed & Ud).
  { subst after. destruct double; cbn in Eta.
    - apply chars_cons in Eta as (c & td & -> & Fc & Ed). exists td. split; [exists c; auto|split; [exact Ed|exact (unbroken_tail _ _ U)]].
    - exists ta. split; [split; [reflexivity|]|split; [exact Eta|exact U]]. intros (a & u & -> & Fa). cbn in Eta. injection Eta as Q _. rewrite Fa in Q. discriminate. }
  destruct (chars_cons _ _ _ Ed) as (b & td' & -> & Fb & Ed').
  destruct (says_both _ _ (re_env _ _ R)) as [SB _]. destruct (SB _ _ S (deps_ok _ (proj1 V)) td' Ed' (unbroken_tail _ _ Ud)) as (m & Sm & Cm).
  assert (Pd : Forall printable (chars td')) by (rewrite Ed'; apply deps_printable; apply V).
  exists (TRule (concat (List.map names_in ms)) (names_in (b :: m)) (List.map (fun _ => looks_up (m_defs st) (b :: td')) (names_in (b :: m))) rec double). split.
  - exists l, ms, ta, ((b :: td') ++ tc), (b :: td'), (b :: m). cbn [tr_recipe tr_double tr_targets tr_deps tr_reads].
    assert (Wc : forall x : text, with_command (x ++ tc) x rec).
    { intros x. destruct cmd as [e|]; [destruct Tc as (c & k & -> & -> & Fc & _); exists c; auto|destruct Tc as [-> ->]; cbn; apply app_nil_r]. }
    assert (Pc : Forall printable (chars tc)).
    { rewrite Ec. destruct cmd as [e|]; [|constructor]. inversion Vc as [|? ? [Me _] _]; subst. constructor; [unfold printable; lia|apply show_printable; exact Me]. }
    assert (St : chars (lstrip fst ((b :: td') ++ tc)) = trim_start (show deps ++ show_cmd cmd)).
    { rewrite strip_trim; [|rewrite chars_app; apply Forall_app; split; [constructor; [rewrite Fb; unfold printable, c_space; lia|exact Pd]|exact Pc]].
      rewrite chars_app, Ec. cbn [chars List.map app]. rewrite Fb. change (trim_start (c_space :: List.map fst td' ++ show_cmd cmd)) with (trim_start (chars td' ++ show_cmd cmd)). rewrite Ed'. reflexivity. }
    split; [apply Wc|]. split; [|split; [|split; [|split; [exact T|split; [exact Ac|split; [|split; [apply Wc|split; [|split; [|split; [|split; [|split; [|split; reflexivity]]]]]]]]]]]].
    + destruct cmd as [e|]; [|destruct Tc as [-> _]; constructor]. destruct Tc as (c & k & -> & _ & _ & Ek & _). inversion Vc as [|? ? [Me _] _]; subst.
      constructor; [|constructor]. eapply show_expression; [apply ordinary_ok; exact Me|exact Ek].
    + intros a I Q. apply in_map with (f := fst) in I. change (In (fst a) (chars l)) in I. rewrite E in I. rewrite !in_app_iff in I.
      destruct I as [I|[I|I]].
      * assert (J : Forall (fun c => ~ In c [59; 92]%N) (join c_space (List.map show ts))).
        { apply shown_forall; [cbn; unfold c_space; lia| |cbn; lia|cbn; lia|cbn; lia|exact F]. intros c W J. apply word_facts in W as (_ & _ & G & _). apply G. cbn in J |- *. tauto. }
        rewrite Forall_forall in J. exact (J _ I Q).
      * destruct double; cbn in I, Q; unfold c_bslash in Q; lia.
      * pose proof (deps_show _ (proj1 V)) as J. rewrite Forall_forall in J. destruct (J _ I) as [W|K].
        -- apply word_facts in W as (_ & _ & G & _). apply G. cbn in Q |- *. unfold c_bslash in Q. tauto.
        -- cbn in K, Q; unfold c_bslash in Q; lia.
    + intros (a & u & El0 & Fa). assert (Hl : exists u, l = a :: u).
      { destruct l as [|a0 l1]; [|cbn in El0; injection El0 as -> _; eauto]. destruct (shown_first ts NE F) as (c & l' & Ec' & _). rewrite Ec' in E'. discriminate E'. }
      clear El0. destruct Hl as [u' ->]. destruct (shown_first ts NE F) as (c & l' & Ec2 & W). rewrite E', Ec2 in *. cbn in E'. injection E' as Q _. rewrite Fa in Q. apply head_solid in W. symmetry in Q. apply W in Q. destruct Q.
    + intros (a & u & Q & Fa). injection Q as <- <-. rewrite Fb in Fa. discriminate.
    + destruct cmd as [e|]; cbn [show_cmd] in St.
      * inversion Vc as [|? ? (Me & Be & Oe) _]; subst. eapply command_no_assignment; [exact (deps_show _ (proj1 V))|apply show_printable; exact Me| | |exact St].
        -- destruct (show e) as [|c q]; [auto|]. right. exists q. rewrite Be. reflexivity.
        -- intros op k z I Q. assert (K : exists k, In k ["="; ":="; "::="; "?="; "!="; "+="]%string /\ op = lit k).
           { destruct I as [I|[I|[I|[I|[I|[I|[]]]]]]]; injection I as <- _;
               [exists "="%string|exists ":="%string|exists "::="%string|exists "?="%string|exists "!="%string|exists "+="%string]; (split; [cbn; tauto|reflexivity]). }
           destruct K as (k0 & Ik & ->). exact (Oe _ _ Ik Q).
      * rewrite app_nil_r in St. apply no_equals. rewrite St. intros I. apply trim_incl in I.
        pose proof (deps_show _ (proj1 V)) as J. rewrite Forall_forall in J. destruct (J _ I) as [W|K]; [unfold word_char in W; lia|cbn in K; lia].
    + apply begins_none_of; [|intros k I; unfold reserved; rewrite !in_app_iff; tauto]. rewrite St. destruct V as [Vm Vu].
      destruct cmd as [e|]; cbn [show_cmd]; [|rewrite app_nil_r; exact Vu]. rewrite trim_before by (apply deps_printable; exact Vm). apply unreserved_app; [exact Vu|reflexivity].
    + apply SF_plain; [rewrite Fb; discriminate|exact Sm].
    + intros a I Q. destruct I as [<-|I].
      * rewrite Fb in Q. cbn in Q. unfold c_space, c_bslash in Q. lia.
      * apply (C (fst a)); [rewrite <- Cm; apply in_map; exact I|]. cbn in Q |- *. unfold c_bslash in Q. tauto.
    + reflexivity.
  - assert (W : List.map chars (names_in (b :: m)) = words d); [|split; [apply all_words; assumption|split; [exact W|split; [|split; [|reflexivity]]]]].
    3:{ cbn [tr_recipe snd wr_recipe rule_with]. destruct cmd as [e|]; [|destruct Tc as [-> _]; constructor]. destruct Tc as (c & k & -> & _ & _ & Ek & Uk).
        inversion Vc as [|? ? [Me _] _]; subst. constructor; [|constructor]. apply LR_line; [apply ordinary_ok; exact Me|exact Ek|exact Uk]. }
    2:{ cbn [tr_reads snd wr_uses rule_with]. rewrite <- W. clear - R V Ed' Fb. induction (names_in (b :: m)) as [|n l IH]; constructor; [|exact IH].
        intros x. rewrite (uses_iff _ _ deps td' x (re_env _ _ R) (deps_ok _ (proj1 V)) Ed'). rewrite !looks_iff.
        split; intros (y & Q & L); exists y; (split; [|exact L]); [apply refers_plain; [rewrite Fb; discriminate|exact Q]|apply refers_plain in Q; [exact Q|rewrite Fb; discriminate]]. }
    unfold names_in. cbn [split_at]. rewrite Fb. change (is_whitespace c_space || (c_space =? 0)%N || false) with true. cbn match.
    cbn [word_and]. rewrite (split_chars _ is_whitespace m []); [rewrite Cm; reflexivity|].
    intros c I. rewrite orb_false_r. replace (c =? 0)%N with false; [apply orb_false_r|]. symmetry. apply N.eqb_neq. rewrite Cm in I. specialize (C c I). cbn in C. lia.
Qed.

(** Recipe lines. *)
Definition tabbed (s : str) : str := concat (List.map (fun c => if (c =? c_nl)%N then [c_nl; c_tab] else [c]) s).
Lemma tabbed_app : forall a b, tabbed (a ++ b) = tabbed a ++ tabbed b.
Proof. intros a b. unfold tabbed. rewrite map_app, concat_app. reflexivity. Qed.
Lemma tabbed_plain : forall a, Forall inked a -> tabbed a = a.
Proof.
  intros a P. induction P as [|c a Pc P IH]; [reflexivity|]. change (tabbed (c :: a)) with ((if (c =? c_nl)%N then [c_nl; c_tab] else [c]) ++ tabbed a). rewrite IH.
  replace (c =? c_nl)%N with false; [reflexivity|]. symmetry. apply N.eqb_neq. unfold inked, c_nl in *. lia.
Qed.
Lemma show_line_plain : forall e, made_of line_char e -> show_line e = c_tab :: show e ++ nl.
Proof. intros e M. unfold show_line. fold (tabbed (show e)). rewrite tabbed_plain by (apply show_inked; exact M). reflexivity. Qed.
Lemma recipe_text_of : forall e, recipe_expr e -> forall (b : text) n (rest : text), chars b = tabbed (show e) -> fst n = c_nl -> ~ has fst c_hash (b ++ n :: rest) -> unbroken b ->
  exists body, recipe_text (b ++ n :: rest) body rest /\ line_rel e body /\ chars body = show e.
Proof.
  intros e X. induction X as [e [M Wh]|e e' [M Wh] X IH NE]; intros b n rest Eb Fn H U.
  - rewrite tabbed_plain in Eb by (apply show_inked; exact M). exists b.
    assert (Hn : forall P : char -> Prop, (forall c, inked c -> P c) -> Forall P (chars b)).
    { intros P HP. rewrite Eb. eapply Forall_impl; [exact HP|apply show_inked; exact M]. }
    split; [|split; [apply LR_line; [apply line_ok; exact M|exact Eb|exact U]|exact Eb]].
    apply RT_line; [exact H| |exact Fn|rewrite continued_chars, Eb; exact Wh]. apply not_has. apply Hn. intros z Z. unfold inked, c_nl in *. lia.
  - rewrite show_app, tabbed_app in Eb. rewrite tabbed_plain in Eb by (apply show_inked; exact M).
    change (tabbed (show (Txt [c_bslash; c_nl] :: e'))) with (c_bslash :: c_nl :: c_tab :: tabbed (show e')) in Eb.
    apply chars_split in Eb as (a & b1 & -> & Ea & Eb). apply chars_cons in Eb as (bs & b2 & -> & Fb & Eb). apply chars_cons in Eb as (nn & b3 & -> & Fnn & Eb).
    apply chars_cons in Eb as (tb & b4 & -> & Ft & Eb).
    assert (Hn : forall P : char -> Prop, (forall c, inked c -> P c) -> Forall P (chars a)).
    { intros P HP. rewrite Ea. eapply Forall_impl; [exact HP|apply show_inked; exact M]. }
    destruct (IH b4 n rest Eb Fn) as (more & RT & L & Em).
    + intros (z & I & Q). apply H. exists z. split; [|exact Q]. rewrite <- app_assoc. apply in_or_app. right. cbn. auto.
    + apply unbroken_after in U. do 3 apply unbroken_tail in U. exact U.
    + exists ((a ++ [bs]) ++ made c_nl :: more). split; [|split].
      * replace ((a ++ bs :: nn :: tb :: b4) ++ n :: rest) with ((a ++ [bs]) ++ nn :: tb :: (b4 ++ n :: rest)) in * by (rewrite <- !app_assoc; reflexivity).
        apply RT_more; [exact H| |exact Fnn|rewrite continued_chars, chars_app, Ea; cbn; rewrite Fb; apply continued_more; exact Wh|exact Ft|exact RT|].
        -- intros (z & I & Q). apply in_app_iff in I as [I|[<-|[]]]; [|rewrite Fb in Q; discriminate].
           specialize (Hn (fun c => c <> c_nl)). rewrite Forall_forall in Hn. apply (Hn) with (x := fst z); [intros c Z; unfold inked, c_nl in *; lia|apply in_map; exact I|exact Q].
        -- intros ->. apply NE. rewrite <- Em. reflexivity.
      * apply LR_more; [apply line_ok; exact M|rewrite chars_app, Ea; cbn; rewrite Fb; reflexivity| |exact L].
        replace (a ++ bs :: nn :: tb :: b4) with ((a ++ [bs]) ++ nn :: tb :: b4) in U by (rewrite <- app_assoc; reflexivity). exact (unbroken_app _ _ U).
      * rewrite show_app, !chars_app, Ea, <- app_assoc. cbn [chars List.map app fst made]. rewrite Fb. change (List.map fst more) with (chars more). rewrite Em. reflexivity.
Qed.
Lemma recipe_run : forall lines s st (t : text) u ts r, rel s st -> w_open s = Some (ts, r) -> ~ has fst c_hash t -> Forall recipe_expr lines -> unbroken t ->
  chars t = concat (List.map show_line lines) ++ u ->
  exists st' t', leads fs st t st' t' /\ rel (open_rule s ts (WRule (wr_deps r) (wr_uses r) (wr_recipe r ++ lines) (wr_double r))) st' /\
    m_conds st' = m_conds st /\ chars t' = u /\ ~ has fst c_hash t'.
Proof.
  induction lines as [|e lines IH]; intros s st t u ts r R O H F U E.
  - exists st, t. split; [apply leads_refl|]. split; [|auto]. rewrite app_nil_r. destruct s as [en op ru de], r. cbn in *. subst op. exact R.
  - inversion F as [|? ? M F']; subst. cbn [List.map concat] in E. 
    unfold show_line at 1 in E. fold (tabbed (show e)) in E. rewrite <- app_assoc in E. cbn [app] in E. rewrite <- app_assoc in E. apply chars_cons in E as (c & t1 & -> & Fc & E). apply chars_split in E as (b & t2 & -> & Eb & E). 
    cbn [nl app] in E. apply chars_cons in E as (n & t3 & -> & Fn & E).
    destruct (m_rule st) as [tr|] eqn:Mr; [|pose proof (re_open _ _ R) as Q; rewrite O, Mr in Q; destruct Q].
    destruct (recipe_text_of e M b n t3 Eb Fn) as (body & RT & X & _); [intros (a & I & Q); apply H; exists a; split; [right; exact I|exact Q]|exact (unbroken_app _ _ (unbroken_tail _ _ U))|].
    set (st1 := with_rule st (Some (with_line tr body))).
    assert (St : step st (c :: b ++ n :: t3) st1 t3).
    { eapply ST_recipe; [apply no_comment; exact H|exact Mr|reflexivity|exact Fc|exact RT|]. destruct (line_text_of _ _ X) as [Ox Ex]. eapply show_expression; eassumption. }
    assert (H3 : ~ has fst c_hash t3).
    { intros (a & I & Q). apply H. exists a. split; [right; apply in_or_app; right; right; exact I|exact Q]. }
    destruct (IH (open_rule s ts (WRule (wr_deps r) (wr_uses r) (wr_recipe r ++ [e]) (wr_double r))) st1 t3 u ts
      (WRule (wr_deps r) (wr_uses r) (wr_recipe r ++ [e]) (wr_double r))) as (st' & t' & L & R' & C1 & E' & H'); auto; [|exact (unbroken_tail _ _ (unbroken_after _ _ (unbroken_tail _ _ U)))|].
    + destruct R as [R1 R2 R3 R4 R5]. constructor; cbn; auto. rewrite O, Mr in R2. destruct R2 as (O1 & O2 & OU & O3 & O4).
      unfold open_rel; cbn. split; [exact O1|]. split; [exact O2|]. split; [exact OU|]. split; [|exact O4].
      apply Forall2_app; [exact O3|]. constructor; [exact X|constructor].
    + exists st', t'. split; [eapply leads_trans; [eapply leads_step; [|exact St]; cbn; reflexivity|exact L]|].
      unfold open_rule in R'. cbn in R'. rewrite <- app_assoc in R'. cbn in C1. auto.
Qed.

Lemma colon_printable : forall double : bool, Forall printable (lit (if double then ":: " else ": ")).
Proof. intros []; cbn; repeat (apply Forall_cons; [unfold printable; lia|]); apply Forall_nil. Qed.
Lemma rule_for_on : forall s st (t tl t' : text) ts (double : bool) deps cmd ns d, rel s st -> w_deaf s = false -> first_line t tl t' -> solid tl -> t <> [] -> directly st t ->
  unbroken t -> chars tl = join c_space (List.map show ts) ++ lit (if double then ":: " else ": ") ++ show deps ++ show_cmd cmd -> ts <> [] -> Forall computed ts -> deps_expr deps -> Forall command_expr (commands cmd) ->
  Forall2 (says (w_env s)) ts ns -> some_targets ns -> Forall safe_deps ns -> says (w_env s) deps d -> safe_deps d ->
  exists st', leads fs st t st' t' /\ rel (open_rule (finish s) (concat (List.map words ns)) (rule_with (w_env s) deps d (commands cmd) double)) st' /\ m_conds st' = m_conds st.
Proof.
  intros s st t tl t' ts double deps cmd ns d R Ig [L P Lo Co Hh] Sl Te Di U E1 NE F V Vc Ss So Sa S C.
  destruct (rule_line_of _ _ tl ts double deps cmd ns d R NE F V Vc Ss So Sa S C (plain_unbroken _ _ _ P U) E1) as (r & Rl & Or).
  set (cl := lit (if double then ":: " else ": ")) in *.
  destruct (finish_rel _ _ R) as ([Q1 Q2 Q3 Q4 Q5] & C1 & C3 & C4 & C5 & C6 & C7). rewrite <- (re_deaf _ _ R) in Ig.
  assert (Un : unreserved (chars tl)).
  { rewrite E1. assert (exists z, cl = colon :: z) as [z ->] by (subst cl; destruct double; eexists; reflexivity). cbn [app]. apply shown_unreserved; auto. }
  exists (with_rule (closed st) (Some r)). split; [|split; [constructor; cbn; auto|exact C1]]. apply leads_line; [exact Te|].
  eapply ST_rule; [exact Co|exact Di|exact P|exact Sl|exact Ig| | | |exact Lo|exact Rl].
  - apply unconditional_of. exact Un.
  - apply begins_none_of; [exact Un|intros k I; unfold reserved; rewrite !in_app_iff in *; tauto].
  - eapply shown_no_assignment; [exact NE|exact F|exact E1].
Qed.
Lemma rule_on : forall s st (t tl t' : text) ts (double : bool) deps d, rel s st -> w_deaf s = false -> first_line t tl t' -> solid tl -> t <> [] -> directly st t -> unbroken t ->
  chars tl = join c_space ts ++ lit (if double then ":: " else ": ") ++ show deps -> ts <> [] -> Forall name ts -> deps_expr deps ->
  says (w_env s) deps d -> safe_deps d ->
  exists st', leads fs st t st' t' /\ rel (open_rule (finish s) ts (rule_with (w_env s) deps d [] double)) st' /\ m_conds st' = m_conds st.
Proof.
  intros s st t tl t' ts double deps d R Ig FL Sl Te Di U E1 NE F V S C. rewrite <- (names_words_all ts F).
  apply (rule_for_on s st t tl t' (List.map (fun x => [Txt x]) ts) double deps None ts d); auto.
  - rewrite names_shown. cbn [show_cmd]. rewrite app_nil_r. exact E1.
  - destruct ts; [contradiction|discriminate].
  - apply names_computed. exact F.
  - constructor.
  - apply names_say.
  - apply names_some. exact F.
  - apply names_safe. exact F.
Qed.
Lemma rule_for_run : forall s st (t : text) u ts double deps cmd recipe ns d, rel s st -> w_deaf s = false -> ~ has fst c_hash t -> unbroken t ->
  chars t = show_stmt (SRuleFor ts double deps cmd recipe) ++ u -> ts <> [] -> Forall computed ts -> deps_expr deps -> Forall command_expr (commands cmd) -> Forall recipe_expr recipe ->
  Forall2 (says (w_env s)) ts ns -> some_targets ns -> Forall safe_deps ns -> says (w_env s) deps d -> safe_deps d ->
  exists st' t', leads fs st t st' t' /\ rel (open_rule (finish s) (concat (List.map words ns)) (rule_with (w_env s) deps d (commands cmd ++ recipe) double)) st' /\
    m_conds st' = m_conds st /\ chars t' = u /\ ~ has fst c_hash t'.
Proof.
  intros s st t u ts double deps cmd recipe ns d R Ig H U E NE F V Vc Re Ss So Sa S C. cbn [show_stmt] in E.
  set (cl := lit (if double then ":: " else ": ")) in *.
  destruct (shown_first ts NE F) as (c & l & Ex & Hc). destruct (head_solid c Hc) as (_ & Ns & Nt & _).
  set (rec := concat (List.map show_line recipe)) in *.
  assert (E' : chars t = (c :: l ++ cl ++ show deps ++ show_cmd cmd) ++ nl ++ (rec ++ u)).
  { rewrite E, Ex. cbn [app]. rewrite <- !app_assoc. reflexivity. }
  destruct (take_line t c (l ++ cl ++ show deps ++ show_cmd cmd) (rec ++ u)) as (tl & t' & E1 & E2 & FL & Sl); auto.
  { change (c :: l ++ cl ++ show deps ++ show_cmd cmd) with ((c :: l) ++ cl ++ show deps ++ show_cmd cmd). rewrite <- Ex. rewrite !Forall_app.
    split; [apply shown_forall; [unfold printable, c_space; lia|exact word_printable| | | |exact F]; unfold printable; lia|]. split; [apply colon_printable|]. split; [apply deps_printable; apply V|].
    destruct cmd as [e|]; [|constructor]. inversion Vc as [|? ? [Me _] _]; subst. constructor; [unfold printable; lia|apply show_printable; exact Me]. }
  change (c :: l ++ cl ++ show deps ++ show_cmd cmd) with ((c :: l) ++ cl ++ show deps ++ show_cmd cmd) in E1. rewrite <- Ex in E1.
  destruct (rule_for_on s st t tl t' ts double deps cmd ns d R Ig FL Sl) as (st1 & L1 & R1 & C1); auto; [intros ->; discriminate E'|eapply direct; [exact R|exact E'|exact Nt]|].
  assert (U' : unbroken t') by exact (leads_unbroken _ _ _ _ _ L1 U).
  destruct (recipe_run recipe _ _ t' u _ _ R1 eq_refl (fl_hash _ _ _ FL) Re U' E2) as (st' & t'' & L2 & R2 & D1 & E3 & H3).
  exists st', t''. split; [eapply leads_trans; [exact L1|exact L2]|]. split; [exact R2|]. split; [congruence|]. auto.
Qed.
Lemma rule_run : forall s st (t : text) u ts double deps recipe d, rel s st -> w_deaf s = false -> ~ has fst c_hash t -> unbroken t ->
  chars t = show_stmt (SRule ts double deps recipe) ++ u -> ts <> [] -> Forall name ts -> deps_expr deps -> Forall recipe_expr recipe ->
  says (w_env s) deps d -> safe_deps d ->
  exists st' t', leads fs st t st' t' /\ rel (open_rule (finish s) ts (rule_with (w_env s) deps d recipe double)) st' /\
    m_conds st' = m_conds st /\ chars t' = u /\ ~ has fst c_hash t'.
Proof.
  intros s st t u ts double deps recipe d R Ig H U E NE F V Re S C. rewrite <- (names_words_all ts F).
  apply (rule_for_run s st t u (List.map (fun x => [Txt x]) ts) double deps None recipe ts d); auto.
  - cbn [show_stmt] in *. rewrite names_shown. exact E.
  - destruct ts; [contradiction|discriminate].
  - apply names_computed. exact F.
  - constructor.
  - apply names_say.
  - apply names_some. exact F.
  - apply names_safe. exact F.
Qed.

(** * Words *)
Fixpoint clash (a k : str) : bool :=
  match a, k with x :: a, y :: k => if (ascii_lower x =? y)%N then clash a k else true | _, _ => false end.
Lemma clash_apart : forall k w a r, clash a k = true -> List.map ascii_lower (a ++ r) = k ++ w -> False.
Proof.
  intros k w. induction k as [|y k IH]; intros [|x a] r C E; try discriminate. cbn in C, E. injection E as E1 E. rewrite E1, N.eqb_refl in C. eapply IH; eauto.
Qed.
Lemma literal_none : forall ks a r (l : text), chars l = a ++ r -> forallb (fun k => clash a (lit k)) ks = true -> begins_none ks l.
Proof.
  intros ks a r l E F k z I (w & -> & K). rewrite forallb_forall in F. rewrite chars_app in E. apply (f_equal (List.map ascii_lower)) in E.
  rewrite map_app, K in E. eapply clash_apart; [apply F; exact I|symmetry; exact E].
Qed.
Definition wordy (x : str) : Prop := x <> [] /\ Forall word_char x.
Lemma wordy_not : forall x c, wordy x -> In c [0; 9; 10; 11; 12; 13; 32; 33; 35; 36; 40; 41; 43; 44; 58; 59; 61; 63; 92; 123; 125]%N -> ~ In c x.
Proof. intros x c [_ N] I J. rewrite Forall_forall in N. apply N in J. apply word_facts in J as (_ & _ & G & _). contradiction. Qed.
Lemma wordy_join : forall (P : char -> Prop) ts, P c_space -> (forall c, word_char c -> P c) -> Forall wordy ts -> Forall P (join c_space ts).
Proof.
  intros P ts Ps Pw F. induction F as [|x ts N F IH]; [constructor|].
  assert (X : Forall P x) by (eapply Forall_impl; [exact Pw|apply N]). cbn. destruct ts; [exact X|]. apply Forall_app. split; [exact X|]. constructor; assumption.
Qed.
Lemma wordy_first : forall ts, ts <> [] -> Forall wordy ts -> exists c l, join c_space ts = c :: l /\ word_char c /\ c <> c_space /\ c <> c_tab.
Proof.
  intros [|x ts] NE F; [contradiction|]. inversion F as [|? ? [N W] _]; subst. destruct x as [|c x]; [contradiction|]. inversion W as [|? ? Wc _]; subst.
  exists c. destruct ts; eexists; (split; [reflexivity|split; [exact Wc|unfold word_char in Wc; unfold c_space, c_tab; split; lia]]).
Qed.
Lemma words_of : forall D ws (t : text), ws <> [] -> Forall wordy ws -> chars t = join c_space ws -> idle_words D t.
Proof.
  intros D ws. induction ws as [|x ws IH]; intros t NE F E; [contradiction|]. inversion F as [|? ? N F']; subst.
  assert (Nw : forall w : text, chars w = x -> w <> []) by (intros w Ew ->; destruct N as (N & _); apply N; rewrite <- Ew; reflexivity).
  assert (No : forall w : text, chars w = x -> name_text w).
  { intros w Ew a Ia Q. assert (J : In (fst a) x) by (rewrite <- Ew; apply in_map; exact Ia). revert J. apply (wordy_not _ _ N). cbn in Q |- *. tauto. }
  assert (St : forall w : text, chars w = x -> stands_for D w w) by (intros w Ew; apply plain_stands; rewrite Ew; apply (wordy_not _ _ N); cbn; tauto).
  destruct ws as [|y ws].
  - cbn [join] in E. rewrite <- (app_nil_r t). eapply IW_word; [apply name_word; rewrite E; apply N|apply Nw; exact E|apply St; exact E|
      apply No; exact E|apply Nw; exact E|exact Logic.I|constructor].
  - remember (y :: ws) as ys eqn:Ey. assert (Ej : join c_space (x :: ys) = x ++ c_space :: join c_space ys) by (subst ys; reflexivity).
    rewrite Ej in E. apply chars_split in E as (w & t1 & -> & E1 & E). apply chars_cons in E as (b & t2 & -> & E2 & E).
    assert (NE' : ys <> []) by (subst ys; discriminate).
    eapply IW_word; [apply name_word; rewrite E1; apply N|apply Nw; exact E1|apply St; exact E1|apply No; exact E1|apply Nw; exact E1|
      cbn; rewrite E2; reflexivity|].
    destruct (wordy_first ys NE' F') as (c & l & Ec & Wc & _).
    unfold lstrip. cbn [drop_while]. rewrite E2. change (blank c_space) with true. cbn match. change (idle_words D (lstrip fst t2)).
    rewrite (lstrip_solid t2 c l); [apply IH; auto|rewrite E; exact Ec|apply word_facts; exact Wc].
Qed.
Lemma names_wordy : forall ts, Forall name ts -> Forall wordy ts.
Proof. intros ts. apply Forall_impl. intros x (N & W & _). split; assumption. Qed.
Lemma line_wordy : forall ws, word_line ws -> ws <> [] /\ Forall wordy ws.
Proof.
  intros [|w ws] W; [destruct W|]. destruct W as [W F]. split; [discriminate|]. constructor; [|apply names_wordy; exact F].
  destruct W as [(N & C & _)|[-> | ->]]; [split; assumption| |]; (split; [discriminate|]); cbn; repeat (apply Forall_cons; [unfold word_char; lia|]); apply Forall_nil.
Qed.
Lemma no_arguments : forall t : text, t = [] \/ (exists a u, t = a :: u /\ word_char (fst a)) ->
  (forall a b, ~ two_arguments t a b) /\ (forall a, first_argument t a -> expression a).
Proof.
  intros t T. assert (Q : forall o u, t = o :: u -> fst o = open_paren \/ In (fst o) [34; 39]%N -> False).
  { intros o u E X. destruct T as [->|(a & v & -> & W)]; [discriminate|]. injection E as -> _. unfold word_char in W. cbn in X. lia. }
  split.
  - intros a b A. inversion A; subst; eapply Q; eauto.
  - intros a A. inversion A; subst; exfalso; eapply Q; eauto.
Qed.
Lemma malformed : forall k o ws (t : text), (k = "ifeq" /\ o = "ifneq" \/ k = "ifneq" /\ o = "ifeq")%string -> Forall name ws -> chars t = join c_space (lit k :: ws) ->
  unconditional t /\ begins_none (modifier_words ++ directive_words) t.
Proof.
  intros k o ws t K F E.
  assert (Er : exists r, chars t = lit k ++ r /\ (r = [] \/ exists c l, r = c_space :: c :: l /\ word_char c)).
  { destruct ws as [|w ws]; [cbn [join] in E; exists []; rewrite app_nil_r; auto|]. exists (c_space :: join c_space (w :: ws)). split; [exact E|]. right.
    destruct (wordy_first (w :: ws) ltac:(discriminate) (names_wordy _ F)) as (c & l & -> & W & _). eauto. }
  destruct Er as (r & E' & R).
  split; [|eapply literal_none; [exact E'|destruct K as [[-> _]|[-> _]]; reflexivity]].
  split; [eapply literal_none; [exact E'|destruct K as [[-> _]|[-> _]]; reflexivity]|].
  intros k' rest I Kw. assert (k' = k) as ->.
  { destruct I as [<-|[<-|[]]]; destruct K as [[-> ->]|[-> ->]]; try reflexivity; exfalso;
      [apply (literal_none ["ifeq"]%string (lit "ifneq") r t E' eq_refl "ifeq"%string rest); [left; reflexivity|exact Kw]|
       apply (literal_none ["ifneq"]%string (lit "ifeq") r t E' eq_refl "ifneq"%string rest); [left; reflexivity|exact Kw]]. }
  apply no_arguments. destruct Kw as (w & -> & W). rewrite chars_app in E'.
  assert (Ew : chars rest = r).
  { assert (L : List.length (chars w) = List.length (lit k)) by (rewrite <- W, map_length; reflexivity).
    revert L E'. generalize (chars w) (lit k). clear. intros a b. revert b. induction a as [|x a IH]; intros [|y b] L E; try discriminate; [exact E|].
    injection E as _ E. injection L as L. eapply IH; eauto. }
  destruct R as [->|(c & l & -> & Wc)].
  - left. destruct rest; [reflexivity|discriminate].
  - right. apply chars_cons in Ew as (b & u & -> & Fb & Eu). unfold lstrip. cbn [drop_while]. rewrite Fb. change (blank c_space) with true. cbn match.
    change (exists a v, lstrip fst u = a :: v /\ word_char (fst a)). rewrite (lstrip_solid u c l Eu) by (apply word_facts; exact Wc).
    apply chars_cons in Eu as (a & v & -> & Fa & _). exists a, v. rewrite Fa. auto.
Qed.
Lemma words_plain : forall ws (t : text), word_line ws -> chars t = join c_space ws -> unconditional t /\ begins_none (modifier_words ++ directive_words) t.
Proof.
  intros [|w ws] t W E; [destruct W|]. destruct W as [W F]. destruct W as [N|[-> | ->]]; [|apply (malformed "ifeq" "ifneq" ws); auto|apply (malformed "ifneq" "ifeq" ws); auto].
  assert (U : unreserved (chars t)) by (rewrite E; apply join_unreserved_end; [discriminate|constructor; assumption]).
  split; [apply unconditional_of; exact U|]. apply begins_none_of; [exact U|]. intros k I. unfold reserved. rewrite !in_app_iff in *. tauto.
Qed.
Lemma words_run : forall s st (t : text) u ws, rel s st -> w_deaf s = false -> ~ has fst c_hash t ->
  chars t = show_stmt (SWords ws) ++ u -> word_line ws ->
  exists st' t', leads fs st t st' t' /\ rel (finish s) st' /\ m_conds st' = m_conds st /\ chars t' = u /\ ~ has fst c_hash t'.
Proof.
  intros s st t u ws R Ig H E Wl. destruct (line_wordy ws Wl) as [NE F]. cbn [show_stmt] in E. rewrite <- app_assoc in E.
  destruct (wordy_first ws NE F) as (c & l & Ex & Wc & Ns & Nt). rewrite Ex in E.
  assert (Pr : Forall printable (c :: l)).
  { rewrite <- Ex. apply wordy_join; [unfold printable, c_space; lia|exact word_printable|exact F]. }
  destruct (take_line t c l u E Pr Ns H) as (tl & t' & E1 & E2 & [L P Lo Co Hh] & So). rewrite <- Ex in E1.
  destruct (finish_rel _ _ R) as (R' & C1 & _). rewrite <- (re_deaf _ _ R) in Ig.
  assert (Ch : forall x, In x (chars tl) -> word_char x \/ x = c_space).
  { rewrite E1. assert (J : Forall (fun x => word_char x \/ x = c_space) (join c_space ws)) by (apply wordy_join; auto). rewrite Forall_forall in J. exact J. }
  exists (closed st), t'. split; [|split; [exact R'|split; [exact C1|auto]]].
  eapply leads_step; [exact E|]. eapply ST_idle; [exact Co|eapply direct; [exact R|exact E|exact Nt]|exact P|exact So|exact Ig| | | |exact Lo|].
  - apply (words_plain ws); auto.
  - apply (words_plain ws); auto.
  - apply no_equals. intros I. destruct (Ch _ I) as [W|W]; [unfold word_char in W; lia|discriminate].
  - exists tl, []. split; [reflexivity|]. split.
    + intros a I Q. apply in_map with (f := fst) in I. destruct (Ch _ I) as [W|W].
      * apply word_facts in W as (_ & _ & G & _). apply G. cbn in Q |- *. unfold c_bslash in Q. tauto.
      * rewrite W in Q. cbn in Q. unfold c_space, c_bslash in Q. lia.
    + right. eapply words_of; eauto.
Qed.
End Run.
