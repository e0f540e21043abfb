(** Proofs about makefiles that end the program: rules, definitions, includes, and files. *)
From Coq Require Import String.
From Verif Require Import Base LocModel EvdModel AstModel EngineModel EvdSpec DbSpec ParseModel ParseSpec EvalSpec AstParseSpec EngineSpec MakeSpec CrashSpec
  EvdProofs2 ParseProofs EvalProofs4 MakeProofs5 MakeRun WriteSpec WriteProofs WriteProofs2 WriteProofs3 WriteProofs4 WriteProofs5 WriteProofs9 WriteProofs6 StopSpec StopProofs
  CrashProofs3.
Local Open Scope nat_scope.

Section Run.
Variable fs : str -> file.
Local Notation ends := (ends fs).

(** * Rules *)
Lemma rule_like_of : forall s st (t tl rest : text) ts (double : bool) r, rel s st -> w_deaf s = false -> line_at st t tl rest -> ts <> [] -> Forall name ts ->
  chars tl = join c_space ts ++ lit (if double then ":: " else ": ") ++ r -> rule_like st t tl.
Proof.
  intros s st t tl rest ts double r R D L NE F E.
  assert (E' : exists after, chars tl = join c_space ts ++ colon :: after /\ after = (if double then [colon] else []) ++ c_space :: r).
  { eexists. split; [|reflexivity]. rewrite E. destruct double; reflexivity. }
  destruct E' as (after & E' & Ea).
  exists tl, rest, []. split; [apply L|]. split; [apply L|]. split; [apply L|]. split; [apply L|]. split; [rewrite (re_deaf _ _ R); exact D|].
  assert (U : unreserved (chars tl)) by (rewrite E'; apply join_unreserved; auto).
  split; [apply unconditional_of; exact U|]. split; [|split; [eapply targets_no_assignment; eauto|apply L]].
  apply begins_none_of; [exact U|intros k I; unfold reserved; rewrite !in_app_iff in *; tauto].
Qed.
Lemma after_of_line : forall s st (tl : text) ts (double : bool) r, rel s st -> ts <> [] -> Forall name ts ->
  chars tl = join c_space ts ++ lit (if double then ":: " else ": ") ++ r -> ~ In semicolon r -> ~ In c_bslash r -> unbroken tl ->
  exists sp deps, (forall u cmd, with_command u tl cmd -> after_targets (m_defs st) u (sp :: deps) cmd) /\ fst sp = c_space /\ chars deps = r /\ unbroken deps.
Proof.
  intros s st tl ts double r R NE F E Ns Nb Ub.
  assert (E' : exists after, chars tl = join c_space ts ++ colon :: after /\ after = (if double then [colon] else []) ++ c_space :: r).
  { eexists. split; [|reflexivity]. rewrite E. destruct double; reflexivity. }
  destruct E' as (after & E' & Ea).
  assert (NE' : List.map (fun x => [Txt x]) ts <> []) by (destruct ts; [contradiction|discriminate]).
    destruct (targets_of _ _ (re_env _ _ R) _ ts (names_say _ ts) tl after NE' (names_computed ts F) (names_some ts F) (names_safe ts F) Ub) as (ms & ta & T & Em & Eta & Lt).
    { rewrite names_shown. exact E'. }
    assert (exists deps_t, after_colons ta double deps_t /\ chars deps_t = c_space :: r /\ unbroken deps_t) as (td & Ac & Ed & Ud).
    { apply (unbroken_left _ _ Lt) in Ub. subst after. destruct double; cbn in Eta.
      - apply chars_cons in Eta as (c & td & -> & Fc & Ed). exists td. split; [exists c; auto|]. split; [exact Ed|eapply unbroken_tail; exact Ub].
      - exists ta. split; [split; [reflexivity|]|auto]. intros (a & u & -> & Fa). cbn in Eta. injection Eta as Q _. rewrite Fa in Q. discriminate. }
    destruct (chars_cons _ _ _ Ed) as (b & td' & -> & Fb & Ed'). exists b, td'. split; [intros u0 cmd Wc|split; [exact Fb|split; [exact Ed'|eapply unbroken_tail; exact Ud]]].
    exists tl, ms, ta, double. split; [exact Wc|]. split; [|split; [|split; [exact T|split; [exact Ac|]]]].
    + intros a I Q. apply in_map with (f := fst) in I. change (In (fst a) (chars tl)) in I. rewrite E in I. rewrite !in_app_iff in I.
      destruct I as [I|[I|I]].
      * assert (J : Forall (fun c => ~ In c [59; 92]%N) (join c_space ts)).
        { apply join_forall; [cbn; unfold c_space; lia| |exact F]. intros c W J. apply word_facts in W as (_ & _ & G & _). apply G. cbn in J |- *. tauto. }
        rewrite Forall_forall in J. exact (J _ I Q).
      * destruct double; cbn in I, Q; unfold c_bslash in Q; lia.
      * destruct Q as [Q|[Q|[]]]; rewrite <- Q in I; contradiction.
    + intros (a & u & Eu & Fa). destruct (join_first ts NE F) as (c & l' & Ec & W & _). rewrite Ec in E'.
      destruct tl as [|a' tl']; [discriminate E'|]. cbn in E'. injection E' as Q _.
      assert (a' = a) as ->. { destruct cmd as [|k [|? ?]]; cbn in Wc; [subst u0; injection Eu as -> _; reflexivity|destruct Wc as (z & -> & _); injection Eu as -> _; reflexivity|destruct Wc]. }
      rewrite Fa in Q. subst c. unfold word_char in W. lia.
    + intros (a & u & Q & Fa). injection Q as <- <-. rewrite Fb in Fa. discriminate.
Qed.
Lemma rule_of_line : forall s st (t tl rest : text) ts (double : bool) r, rel s st -> w_deaf s = false -> line_at st t tl rest -> ts <> [] -> Forall name ts ->
  chars tl = join c_space ts ++ lit (if double then ":: " else ": ") ++ r -> ~ In semicolon r -> ~ In c_bslash r -> unbroken tl ->
  rule_like st t tl /\ exists sp deps, after_targets (m_defs st) tl (sp :: deps) [] /\ fst sp = c_space /\ chars deps = r /\ unbroken deps.
Proof.
  intros s st t tl rest ts double r R D L NE F E Ns Nb Ub. split; [eapply rule_like_of; eauto|].
  destruct (after_of_line s st tl ts double r R NE F E Ns Nb Ub) as (sp & deps & A & B). exists sp, deps. split; [apply A; reflexivity|exact B].
Qed.
Lemma strip_space : forall (sp : placed) (t : text), fst sp = c_space -> lstrip fst (sp :: t) = lstrip fst t.
Proof. intros sp t F. unfold lstrip. cbn [drop_while]. rewrite F. reflexivity. Qed.
Lemma colons_printable : forall double : bool, Forall printable (lit (if double then ":: " else ": ")).
Proof. intros []; printables. Qed.
Lemma names_printable : forall ts, Forall name ts -> Forall printable (join c_space ts).
Proof. intros ts F. apply join_forall; [unfold printable, c_space; lia|exact word_printable|exact F]. Qed.
Lemma names_first : forall ts r, ts <> [] -> Forall name ts -> exists c z, join c_space ts ++ r = c :: z /\ c <> c_space.
Proof. intros ts r NE F. destruct (join_first ts NE F) as (c & l & -> & _ & Ns & _). exists c, (l ++ r). auto. Qed.

Lemma target_variable_ends : forall s p ts (double : bool) x o e, w_deaf s = false -> ts <> [] -> Forall name ts -> name x -> short_value e ->
  ~ In semicolon (show e) -> storable_value (w_env s) o e ->
  ends s (at_place p) (join c_space ts ++ lit (if double then ":: " else ": ") ++ x ++ show_op o ++ show e).
Proof.
  intros s p ts double x o e D NE F N V Ns Hv st t u R _ H Ub E. pose proof (ordinary_value e (proj1 V) (proj2 V)) as Ve.
  assert (P : Forall printable (x ++ show_op o ++ show e)).
  { rewrite !Forall_app. split; [apply name_printable; exact N|]. split; [apply op_printable|apply show_printable; apply V]. }
  destruct (line_found s st t _ u R H E) as (tl & rest & E1 & L & Nz).
  - rewrite !Forall_app. split; [apply names_printable; exact F|]. split; [apply colons_printable|]. rewrite !Forall_app in P. exact P.
  - apply names_first; auto.
  - apply CR_here; [exact Nz|].
    destruct (rule_of_line s st t tl rest ts double _ R D L NE F E1) as (RL & sp & deps & AT & Fs & Ed & Ud).
    + rewrite !in_app_iff. intros [I|[I|I]]; [revert I; not_in N|destruct o; cbn in I; lia|contradiction].
    + intros I. rewrite Forall_forall in P. apply P in I. unfold printable, c_bslash in I. lia.
    + exact (plain_unbroken _ _ _ (la_plain _ _ _ _ L) Ub).
    + destruct (first_printable _ N) as (cx & lx & Ex & Wx & _).
      assert (S : lstrip fst (sp :: deps) = deps).
      { rewrite strip_space by exact Fs. apply (lstrip_solid deps cx (lx ++ show_op o ++ show e)); [rewrite Ed, Ex; reflexivity|apply word_facts; exact Wx]. }
      destruct (assigns_of deps x o e Ed) as (n & tv & En & Ev & A & q & Eq); [intros y I0; apply word_not_end, (name_char _ _ N I0)|exact Ve|]. rewrite <- S, <- (app_nil_r (sp :: deps)) in A.
      eapply FA_target_variable; [exact RL|exact AT|exact A|apply plain_stands; rewrite En; not_in N|eapply storable_of; eauto].
      rewrite Eq in Ud. eapply unbroken_after, unbroken_after. exact Ud.
Qed.

Lemma command_ends : forall s p ts (double : bool) d x e, w_deaf s = false -> ts <> [] -> Forall name ts -> Forall word_char d -> Forall word_char x -> short_value e ->
  ends s (at_place p) (join c_space ts ++ lit (if double then ":: " else ": ") ++ d ++ semicolon :: x ++ equals :: show e).
Proof.
  intros s p ts double d x e D NE F Fd Fx V st t u R _ H Ub E. pose proof (ordinary_value e (proj1 V) (proj2 V)) as Ve.
  assert (Pd : Forall printable d) by (eapply Forall_impl; [exact word_printable|exact Fd]).
  assert (Px : Forall printable x) by (eapply Forall_impl; [exact word_printable|exact Fx]).
  assert (Pe : Forall printable (show e)) by (apply show_printable; apply V).
  destruct (line_found s st t _ u R H E) as (tl & rest & E1 & L & Nz).
  - rewrite !Forall_app. split; [apply names_printable; exact F|]. split; [apply colons_printable|]. split; [exact Pd|]. constructor; [unfold printable; lia|].
    apply Forall_app. split; [exact Px|]. constructor; [unfold printable; lia|exact Pe].
  - apply names_first; auto.
  - apply CR_here; [exact Nz|].
    assert (RL : rule_like st t tl) by (eapply rule_like_of; eauto).
    pose proof (plain_unbroken _ _ _ (la_plain _ _ _ _ L) Ub) as Ut.
    set (kk := semicolon :: x ++ equals :: show e) in E1. rewrite !app_assoc in E1. subst kk. apply chars_split in E1 as (hd & tk & -> & Eh & Ek). apply chars_cons in Ek as (sc & k & -> & Fs & Ek).
    destruct (after_of_line s st hd ts double d R NE F) as (sp & deps & AT & Fsp & Ed & Ud).
    + rewrite <- app_assoc in Eh. exact Eh.
    + intros I. rewrite Forall_forall in Fd. apply Fd in I. unfold word_char in I. lia.
    + intros I. rewrite Forall_forall in Fd. apply Fd in I. unfold word_char, c_bslash in I. lia.
    + exact (unbroken_app _ _ Ut).
    + specialize (AT (hd ++ sc :: k) [k]). apply chars_split in Ek as (n & kv & -> & En & Ev). apply chars_cons in Ev as (eq & v & -> & Fe & Ev).
      eapply FA_target_variable with (name := deps ++ made semicolon :: n) (op := AsRecursive) (v := v); [exact RL|apply AT; exists sc; auto| | |].
      * unfold rejoined. cbn [app]. rewrite strip_space by exact Fsp.
        assert (S : lstrip fst (deps ++ made semicolon :: n ++ eq :: v) = deps ++ made semicolon :: n ++ eq :: v).
        { destruct deps as [|c0 deps']; [reflexivity|]. subst d. inversion Fd as [|? ? W0 _]; subst.
          eapply lstrip_solid; [reflexivity|apply word_facts; exact W0]. }
        rewrite S. exists [], [eq], v. split; [rewrite <- app_assoc; reflexivity|]. split; [|split; [intros a []|split; [|]]].
        -- intros a I. apply in_app_iff in I. rewrite Forall_forall in Fd, Fx. destruct I as [I|[<-|I]].
           ++ apply word_not_end, Fd. rewrite <- Ed. apply in_map. exact I.
           ++ intros Q. unfold name_end in Q. cbn in Q. intuition discriminate.
           ++ apply word_not_end, Fx. rewrite <- En. apply in_map. exact I.
        -- cbn. rewrite Fe. auto.
        -- symmetry. apply not_blank_strip; rewrite Ev; [apply Pe|apply V].
      * apply plain_stands. unfold chars. rewrite map_app. cbn [List.map fst made]. fold (chars deps) (chars n). rewrite Ed, En. rewrite Forall_forall in Fd, Fx. intros I.
        apply in_app_iff in I as [I|[I|I]]; [apply Fd in I; unfold word_char in I; lia|discriminate I|apply Fx in I; unfold word_char in I; lia].
      * apply (storable_of s st OSet e); auto; [exact Logic.I|].
        apply unbroken_after in Ut. apply unbroken_tail, unbroken_after, unbroken_tail in Ut. exact Ut.
Qed.

Definition static_char (c : char) : Prop := dep_char c \/ In c [37; 58]%N.
Lemma static_show : forall e, made_of static_char e -> Forall (fun c => word_char c \/ In c [32; 36; 37; 40; 41; 58]%N) (show e).
Proof. intros e M. eapply show_forall; [exact M| | | | |]; cbn; auto 10. intros c [[W| ->]|[<-|[<-|[]]]]; auto 10. Qed.
Lemma static_ok : forall e, made_of static_char e -> expr_ok e.
Proof. intros e M. eapply made_impl; [|exact M]. intros c [[W| ->]|[<-|[<-|[]]]] Q; try discriminate. subst c. unfold word_char in W. lia. Qed.
Lemma static_ends : forall s p ts (double : bool) e d, w_deaf s = false -> ts <> [] -> Forall name ts ->
  made_of static_char e -> unreserved (trim_start (show e)) -> says (w_env s) e d -> In colon d -> (forall c, In c d -> ~ In c [59; 92]%N) ->
  ends s (at_place p) (join c_space ts ++ lit (if double then ":: " else ": ") ++ show e).
Proof.
  intros s p ts double e d D NE F M U S C Sd st t u R _ H Ub E. pose proof (static_show e M) as Sh.
  assert (P : Forall printable (show e)).
  { eapply Forall_impl; [|exact Sh]. intros c [W|I]; [apply word_printable; exact W|]. unfold printable. cbn in I. lia. }
  assert (No : forall c, In c [59; 61; 92]%N -> ~ In c (show e)).
  { intros c I J. rewrite Forall_forall in Sh. destruct (Sh _ J) as [W|K]; [unfold word_char in W|]; cbn in *; lia. }
  destruct (line_found s st t _ u R H E) as (tl & rest & E1 & L & Nz).
  - rewrite !Forall_app. split; [apply names_printable; exact F|]. split; [apply colons_printable|exact P].
  - apply names_first; auto.
  - apply CR_here; [exact Nz|].
    destruct (rule_of_line s st t tl rest ts double _ R D L NE F E1) as (RL & sp & deps & AT & Fs & Ed & Ud); [apply No; cbn; tauto|apply No; cbn; tauto|exact (plain_unbroken _ _ _ (la_plain _ _ _ _ L) Ub)|].
    destruct (says_both _ _ (re_env _ _ R)) as [SB _]. destruct (SB _ _ S (static_ok _ M) deps Ed Ud) as (m & Sm & Cm).
    assert (Pd : Forall printable (chars deps)) by (rewrite Ed; exact P).
    assert (Q : forall x, incl (trim_start x) x).
    { induction x as [|a x IH]; [intros y []|]. cbn [trim_start]. destruct (is_whitespace a); [intros y I; right; apply IH; exact I|apply incl_refl]. }
    eapply (FA_static st t tl (sp :: deps) [] (sp :: deps) (sp :: m)); [exact RL|exact AT|constructor|reflexivity| | | | |].
    + apply no_equals. rewrite strip_space by exact Fs. rewrite strip_trim by exact Pd. intros I. apply Q in I. rewrite Ed in I. revert I. apply No. cbn. tauto.
    + apply begins_none_of; [|intros k I; unfold reserved; rewrite !in_app_iff; tauto]. rewrite strip_space by exact Fs. rewrite strip_trim by exact Pd. rewrite Ed. exact U.
    + apply SF_plain; [rewrite Fs; discriminate|exact Sm].
    + intros a [<-|I] J; [rewrite Fs in J; cbn in J; unfold c_space, c_bslash in J; lia|]. apply (Sd (fst a)); [rewrite <- Cm; apply in_map; exact I|]. exact J.
    + apply has_chars. right. change (In colon (chars m)). rewrite Cm. exact C.
Qed.

Lemma trim_incl : forall x, incl (trim_start x) x.
Proof. induction x as [|a x IH]; [intros y []|]. cbn [trim_start]. destruct (is_whitespace a); [intros y I; right; apply IH; exact I|apply incl_refl]. Qed.
Lemma anything_no_bslash : forall r, anything r -> ~ In c_bslash r.
Proof. intros r A I. apply anything_printable in A. rewrite Forall_forall in A. apply A in I. unfold printable, c_bslash in I. lia. Qed.

Lemma unclosed_dependencies_end : forall s p ts (double : bool) e r, w_deaf s = false -> ts <> [] -> Forall name ts -> made_of dep_char e ->
  anything r -> ~ In equals r -> ~ In semicolon r -> stays_open r -> unreserved (trim_start (show e ++ lit "$(" ++ r)) ->
  ends s (at_place p) (join c_space ts ++ lit (if double then ":: " else ": ") ++ show e ++ lit "$(" ++ r).
Proof.
  intros s p ts double e r D NE F M A Nq Ns O U st t u R _ H Ub E. pose proof (deps_show e M) as Sh.
  assert (P : Forall printable (show e ++ lit "$(" ++ r)).
  { rewrite !Forall_app. split; [apply deps_printable; exact M|split; [printables|apply anything_printable; exact A]]. }
  assert (No : forall c, In c [59; 61; 92]%N -> ~ In c (show e ++ lit "$(")).
  { intros c I J. apply in_app_iff in J as [J|J]; [|cbn in I, J; lia]. rewrite Forall_forall in Sh. destruct (Sh _ J) as [W|K]; [unfold word_char in W|]; cbn in *; lia. }
  destruct (line_found s st t _ u R H E) as (tl & rest & E1 & L & Nz).
  - rewrite !Forall_app. split; [apply names_printable; exact F|]. split; [apply colons_printable|]. rewrite !Forall_app in P. exact P.
  - apply names_first; auto.
  - apply CR_here; [exact Nz|].
    destruct (rule_of_line s st t tl rest ts double _ R D L NE F E1) as (RL & sp & deps & AT & Fs & Ed & Ud).
    + rewrite app_assoc, in_app_iff. intros [I|I]; [revert I; apply No; cbn; tauto|contradiction].
    + rewrite app_assoc, in_app_iff. intros [I|I]; [revert I; apply No; cbn; tauto|revert I; apply anything_no_bslash; exact A].
    + exact (plain_unbroken _ _ _ (la_plain _ _ _ _ L) Ub).
    + assert (Pd : Forall printable (chars deps)) by (rewrite Ed; exact P).
      eapply (FA_dependencies st t tl (sp :: deps) [] (sp :: deps)); [exact RL|exact AT|reflexivity| | |].
      * apply no_equals. rewrite strip_space by exact Fs. rewrite strip_trim by exact Pd. intros I. apply trim_incl in I. rewrite Ed, app_assoc, in_app_iff in I.
        destruct I as [I|I]; [revert I; apply No; cbn; tauto|contradiction].
      * apply begins_none_of; [|intros k I; unfold reserved; rewrite !in_app_iff; tauto]. rewrite strip_space by exact Fs. rewrite strip_trim by exact Pd. rewrite Ed. exact U.
      * apply unclosed_malformed. apply (shown_unclosed (Txt [c_space] :: e) r); [|exact O|cbn; rewrite Fs; f_equal; exact Ed].
        constructor; [repeat constructor; discriminate|apply deps_ok; exact M].
Qed.

Lemma unclosed_command_ends : forall s p ts (double : bool) d e r, w_deaf s = false -> ts <> [] -> Forall name ts -> Forall word_char d -> made_of ordinary e ->
  anything r -> ~ In equals (show e ++ r) -> stays_open r -> unreserved (d ++ semicolon :: show e ++ lit "$(" ++ r) ->
  ends s (at_place p) (join c_space ts ++ lit (if double then ":: " else ": ") ++ d ++ semicolon :: show e ++ lit "$(" ++ r).
Proof.
  intros s p ts double d e r D NE F Fd M A Nq O U st t u R _ H Ub E.
  assert (Pd : Forall printable d) by (eapply Forall_impl; [exact word_printable|exact Fd]).
  assert (P : Forall printable (d ++ semicolon :: show e ++ lit "$(" ++ r)).
  { apply Forall_app. split; [exact Pd|]. constructor; [unfold printable; lia|]. rewrite !Forall_app. split; [apply show_printable; exact M|split; [printables|apply anything_printable; exact A]]. }
  destruct (line_found s st t _ u R H E) as (tl & rest & E1 & L & Nz).
  - rewrite 2!Forall_app. split; [apply names_printable; exact F|]. split; [apply colons_printable|exact P].
  - apply names_first; auto.
  - apply CR_here; [exact Nz|].
    assert (RL : rule_like st t tl) by (eapply rule_like_of; eauto).
    pose proof (plain_unbroken _ _ _ (la_plain _ _ _ _ L) Ub) as Ut.
    set (kk := semicolon :: show e ++ lit "$(" ++ r) in E1. rewrite !app_assoc in E1. subst kk. apply chars_split in E1 as (hd & tk & -> & Eh & Ek). apply chars_cons in Ek as (sc & k & -> & Fs & Ek).
    destruct (after_of_line s st hd ts double d R NE F) as (sp & deps & AT & Fsp & Ed & Ud).
    + rewrite <- app_assoc in Eh. exact Eh.
    + intros I. rewrite Forall_forall in Fd. apply Fd in I. unfold word_char in I. lia.
    + intros I. rewrite Forall_forall in Fd. apply Fd in I. unfold word_char, c_bslash in I. lia.
    + exact (unbroken_app _ _ Ut).
    + assert (Er : chars (deps ++ sc :: k) = d ++ semicolon :: show e ++ lit "$(" ++ r).
      { unfold chars. rewrite map_app. cbn [List.map]. fold (chars deps) (chars k). rewrite Ed, Fs, Ek. reflexivity. }
      assert (Ls : chars (lstrip fst ((sp :: deps) ++ sc :: k)) = d ++ semicolon :: show e ++ lit "$(" ++ r).
      { cbn [app]. rewrite strip_space by exact Fsp. rewrite <- Er. f_equal. destruct d as [|c0 d'].
        - destruct deps; [|discriminate Ed]. cbn [app] in *. eapply lstrip_solid; [cbn; rewrite Fs; reflexivity|reflexivity].
        - inversion Fd as [|? ? W0 _]; subst. eapply lstrip_solid; [exact Er|apply word_facts; exact W0]. }
      specialize (AT (hd ++ sc :: k) [k]).
      eapply (FA_command st t (hd ++ sc :: k) (sp :: deps) k ((sp :: deps) ++ sc :: k) (sp :: deps)); [exact RL|apply AT; exists sc; auto|exists sc; auto| | | |].
      * apply no_equals. rewrite Ls, in_app_iff. cbn [In]. rewrite !in_app_iff. rewrite in_app_iff in Nq. rewrite Forall_forall in Fd.
        intros [I|[I|[I|[I|I]]]]; [apply Fd in I; unfold word_char in I; lia|discriminate I|tauto|cbn in I; destruct I as [I|[I|[]]]; discriminate I|tauto].
      * apply begins_none_of; [|intros w I; unfold reserved; rewrite !in_app_iff; tauto]. rewrite Ls. exact U.
      * apply plain_stands. cbn. rewrite Fsp. intros [I|I]; [discriminate I|]. rewrite <- Ed in Fd. rewrite Forall_forall in Fd. apply Fd in I. unfold word_char in I. lia.
      * apply unclosed_malformed. exact (shown_unclosed e r k (ordinary_ok _ M) O Ek).
Qed.

(** * Definitions *)
Lemma endef_ends : forall s p x body r, w_deaf s = false -> name x -> nested 1 body -> Forall ordinary r -> ~ only_spaces r ->
  ends s (at_place p) (lit "define " ++ x ++ nl ++ concat (List.map (fun e => show e ++ nl) body) ++ lit "endef" ++ r).
Proof.
  intros s p x body r D N F O Ns st t u R _ H Ub E.
  assert (E0 : chars t = lit "define " ++ x ++ nl ++ concat (List.map (fun e => show e ++ nl) body) ++ (lit "endef" ++ r) ++ nl ++ u).
  { rewrite E, <- !app_assoc. reflexivity. }
  destruct (define_opens fs s st t _ x body R D H Ub E0 N F) as (st1 & t1 & L1 & R1 & Mr & _ & E1 & H1).
  apply (proj2 L1). apply CR_here; [intros ->; discriminate E1|].
  apply chars_split in E1 as (le & t2 & -> & Ee & E2). cbn [nl app] in E2. apply chars_cons in E2 as (n & t3 & -> & Fn & E2).
  assert (P : Forall printable (lit "endef" ++ r)).
  { apply Forall_app. split; [printables|]. eapply Forall_impl; [|exact O]. exact ordinary_printable. }
  assert (exists c, In c r /\ c <> c_space) as (c & Ic & Nc).
  { destruct (Forall_Exists_dec (fun c => c = c_space) (fun c => N.eq_dec c c_space) r) as [Y|Y]; [contradiction|]. apply Exists_exists in Y. exact Y. }
  assert (El : chars (le ++ [n]) = lit "endef" ++ r ++ nl) by (rewrite chars_app, Ee; cbn; rewrite Fn; reflexivity).
  eapply (FA_endef _ _ (x, 1) (le ++ [n]) t3 (r ++ nl) c); [apply no_comment; exact H1|exact Mr|reflexivity|apply BL_line; [exact H1| |exact Fn]| | | |].
  - apply not_has. rewrite Ee. eapply Forall_impl; [|exact P]. intros a Q. unfold printable, c_nl in *. lia.
  - apply (show_expression [Txt (lit "endef" ++ r ++ nl)]); [|rewrite El; unfold show; cbn; rewrite app_nil_r; reflexivity].
    constructor; [|constructor]. rewrite !Forall_app. split; [cbn; repeat (apply Forall_cons; [discriminate|]); apply Forall_nil|].
    split; [|repeat constructor; discriminate]. eapply Forall_impl; [|exact O]. intros a [_ Q] ->. apply Q. cbn. tauto.
  - rewrite (lstrip_solid (le ++ [n]) 101%N (lit "ndef" ++ r ++ nl)); [exact El|exact El|reflexivity].
  - apply in_or_app. left. exact Ic.
  - rewrite Forall_forall in O. apply O in Ic. apply ordinary_printable in Ic. rewrite printable_space by exact Ic. apply N.eqb_neq. exact Nc.
Qed.

Lemma stays_open_nl : forall r, stays_open r -> stays_open (r ++ nl).
Proof.
  intros r O p q E. destruct q as [|c q] using rev_ind.
  - rewrite app_nil_r in E. subst p. rewrite !count_occ_app. specialize (O r [] ltac:(rewrite app_nil_r; reflexivity)). cbn. lia.
  - rewrite app_assoc in E. apply app_inj_tail in E as [E _]. exact (O p q E).
Qed.
Lemma unclosed_body_ends : forall s p x body e r, w_deaf s = false -> name x -> nested 1 body -> made_of ordinary e -> anything r -> stays_open r ->
  ends s (at_place p) (lit "define " ++ x ++ nl ++ concat (List.map (fun e => show e ++ nl) body) ++ show e ++ lit "$(" ++ r).
Proof.
  intros s p x body e r D N F M A O st t u R _ H Ub E.
  assert (E0 : chars t = lit "define " ++ x ++ nl ++ concat (List.map (fun e => show e ++ nl) body) ++ (show e ++ lit "$(" ++ r) ++ nl ++ u).
  { rewrite E, <- !app_assoc. reflexivity. }
  destruct (define_opens fs s st t _ x body R D H Ub E0 N F) as (st1 & t1 & L1 & R1 & Mr & _ & E1 & H1).
  apply (proj2 L1). apply chars_split in E1 as (le & t2 & -> & Ee & E2). cbn [nl app] in E2. apply chars_cons in E2 as (n & t3 & -> & Fn & E2).
  apply CR_here; [destruct le; discriminate|].
  assert (P : Forall printable (show e ++ lit "$(" ++ r)).
  { rewrite !Forall_app. split; [apply show_printable; exact M|]. split; [printables|apply anything_printable; exact A]. }
  assert (El : chars (le ++ [n]) = show e ++ lit "$(" ++ r ++ nl) by (rewrite chars_app, Ee; cbn; rewrite Fn, <- !app_assoc; reflexivity).
  eapply (FA_body _ _ (x, 1) (le ++ [n]) t3); [apply no_comment; exact H1|exact Mr|reflexivity|apply BL_line; [exact H1| |exact Fn]| |].
  - apply not_has. rewrite Ee. eapply Forall_impl; [|exact P]. intros a Q. unfold printable, c_nl in *. lia.
  - destruct le; discriminate.
  - apply unclosed_malformed. exact (shown_unclosed e (r ++ nl) _ (ordinary_ok _ M) (stays_open_nl r O) El).
Qed.

(** * Whole files *)
Lemma if_leads : forall s st (t : text) u n a b m m' live, rel s st -> ~ has fst c_hash t -> unbroken t -> conditions n a b ->
  says (w_env s) a m -> says (w_env s) b m' -> not_taken (m_conds st) = negb live -> chars t = if_text n a b ++ u ->
  exists st' t', leads fs st t st' t' /\ rel (heard s (live && holds n m m')) st' /\ m_conds st' = (holds n m m', false) :: m_conds st /\
    not_taken (m_conds st') = negb (live && holds n m m') /\ chars t' = u /\ ~ has fst c_hash t'.
Proof.
  intros s st t u n a b m m' live R H U C Sa Sb Nt E.
  destruct (if_line fs s st t _ n a b m m' R H U C Sa Sb E) as (t1 & L1 & E1 & H1). set (st1 := with_conds st _ _) in L1.
  pose proof (branch live (holds n m m') false _ Nt) as B. exists st1, t1. split; [exact L1|]. split; [apply rel_conds; [exact R|exact B]|].
  split; [reflexivity|]. split; [exact B|auto].
Qed.
Lemma reaches_run : forall live s p txt s' q, reaches fs live s p txt s' q -> forall st (t : text) u, rel s st -> not_taken (m_conds st) = negb live ->
  at_place p (m_conds st) -> ~ has fst c_hash t -> unbroken t -> chars t = txt ++ u ->
  exists st' t', leads fs st t st' t' /\ rel s' st' /\ at_place q (m_conds st') /\ chars t' = u /\ ~ has fst c_hash t'.
Proof.
  intros live s p txt s' q Re. induction Re as [live s p|live s p ss s1 t0 s2 q W A Re IH|live s p n a b m m' t0 s2 q Ca Sa Sb Re IH|
    live s p n a b m m' yes s1 t0 s2 q Ca Sa Sb W A Re IH]; intros st t u R Nt Pl H U E.
  - exists st, t. split; [apply leads_refl|auto].
  - rewrite <- app_assoc in E. destruct (proj1 (proj2 (acts_run fs)) _ _ _ _ A W st t _ R Nt H U E) as (st1 & t1 & L1 & R1 & C1 & E1 & H1).
    destruct (IH st1 t1 u R1) as (st2 & t2 & L2 & Q); auto; [congruence|rewrite C1; exact Pl|eapply leads_unbroken; eauto|]. exists st2, t2. split; [eapply leads_trans; eauto|exact Q].
  - rewrite <- app_assoc in E. destruct (if_leads s st t _ n a b m m' live R H U Ca Sa Sb Nt E) as (st1 & t1 & L1 & R1 & C1 & Nt1 & E1 & H1).
    destruct (IH st1 t1 u R1 Nt1) as (st2 & t2 & L2 & Q); auto; [rewrite C1; cbn; eauto|eapply leads_unbroken; eauto|]. exists st2, t2. split; [eapply leads_trans; eauto|exact Q].
  - rewrite <- !app_assoc in E. destruct (if_leads s st t _ n a b m m' live R H U Ca Sa Sb Nt E) as (st1 & t1 & L1 & R1 & C1 & Nt1 & E1 & H1).
    destruct (proj1 (proj2 (acts_run fs)) _ _ _ _ A W st1 t1 _ R1 Nt1 H1 (leads_unbroken _ _ _ _ _ L1 U) E1) as (st2 & t2 & L2 & R2 & C2 & E2 & H2).
    rewrite C1 in C2. destruct (else_line fs s1 st2 t2 _ _ _ R2 H2 C2 E2) as (t3 & L3 & E3 & H3). set (st3 := with_conds st2 _ _) in L3.
    pose proof (branch live (negb (holds n m m')) true _ Nt) as B'.
    assert (R3 : rel (heard s1 (live && negb (holds n m m'))) st3) by (apply rel_conds; [exact R2|exact B']).
    destruct (IH st3 t3 u R3 B') as (st4 & t4 & L4 & Q); auto; [cbn; eauto|eapply leads_unbroken; [exact L3|]; eapply leads_unbroken; [exact L2|]; eapply leads_unbroken; [exact L1|exact U]|].
    exists st4, t4. split; [eapply leads_trans; [exact L1|]; eapply leads_trans; [exact L2|]; eapply leads_trans; eauto|exact Q].
Qed.
End Run.

(** * The text is ASCII without `#` *)
Lemma reaches_tidy : forall fs live s p txt s' q, reaches fs live s p txt s' q -> Forall tidy txt.
Proof.
  pose proof test_tidy as I.
  intros fs live s p txt s' q Re. induction Re; rewrite ?Forall_app; auto.
  - split; [apply all_formed_tidy; assumption|assumption].
  - split; [apply I; assumption|]. split; [apply all_formed_tidy; assumption|]. split; [tidy_lit|]. split; [apply nl_tidy|assumption].
Qed.
Lemma word_tidy : forall w, Forall word_char w -> Forall tidy w.
Proof. intros w. apply Forall_impl. intros c W. apply printable_tidy, word_printable. exact W. Qed.
Lemma anything_tidy : forall r, anything r -> Forall tidy r.
Proof. intros r A. apply all_tidy, anything_printable, A. Qed.
Lemma rest_tidy : forall r, line_rest r -> Forall tidy r.
Proof. intros r A. eapply Forall_impl; [|apply rest_inked; exact A]. intros c Q. unfold inked, tidy in *. lia. Qed.
Lemma spaces_tidy : forall r, only_spaces r -> Forall tidy r.
Proof. intros r A. apply all_tidy, spaces_printable, A. Qed.
Lemma kw_tidy : forall k ks, In k ks -> forallb (fun k => forallb (fun c => (c <? 128)%N && negb (c =? 35)%N) (lit k)) ks = true -> Forall tidy (lit k).
Proof.
  intros k ks I F. rewrite forallb_forall in F. specialize (F k I). rewrite forallb_forall in F. apply Forall_forall. intros c J. specialize (F c J).
  apply andb_prop in F as [F1 F2]. split; [apply N.ltb_lt; exact F1|]. apply negb_true_iff in F2. apply N.eqb_neq. exact F2.
Qed.
Lemma stops_tidy : forall fs s p l, stops fs s p l -> Forall tidy l.
Proof.
  assert (Sp : forall k w, In k ["ifdef"; "ifndef"; "else"; "endif"; "ifeq"; "ifneq"]%string -> spelled k w -> Forall tidy w).
  { intros k w I S. apply word_tidy. eapply spelled_letters; eauto. }
  assert (Co : forall d : bool, Forall tidy (lit (if d then ":: " else ": "))) by (intros []; tidy_lit).
  intros fs s p l St. inversion St; subst; rewrite ?Forall_app.
  - split; [eapply Sp; [|eassumption]; cbn in *; tauto|apply rest_tidy; assumption].
  - split; [eapply Sp; [|eassumption]; cbn in *; tauto|apply rest_tidy; assumption].
  - split; [eapply Sp; [|eassumption]; cbn; tauto|apply spaces_tidy; assumption].
  - split; [eapply Sp; [|eassumption]; cbn; tauto|apply spaces_tidy; assumption].
  - split; [apply all_tidy, name_printable; assumption|]. split; [tidy_lit|apply spaces_tidy; assumption].
  - split; [eapply kw_tidy; [eassumption|reflexivity]|]. split; [apply all_tidy, name_printable; assumption|]. split; [apply all_tidy, op_printable|].
    apply command_tidy. match goal with V : value_expr _ |- _ => apply V end.
  - split; [tidy_lit|]. constructor; [apply printable_tidy, word_printable; assumption|apply anything_tidy; assumption].
  - split; [tidy_lit|apply names_tidy; assumption].
  - split; [eapply kw_tidy; [eassumption|reflexivity]|]. apply all_tidy, deps_printable. assumption.
  - split; [apply names_tidy; assumption|]. split; [apply Co|]. split; [apply all_tidy, name_printable; assumption|]. split; [apply all_tidy, op_printable|].
    apply expr_tidy. match goal with V : short_value _ |- _ => apply V end.
  - split; [apply names_tidy; assumption|]. split; [apply Co|]. split; [apply word_tidy; assumption|]. constructor; [unfold tidy; lia|].
    apply Forall_app. split; [apply word_tidy; assumption|]. constructor; [unfold tidy; lia|]. apply expr_tidy. match goal with V : short_value _ |- _ => apply V end.
  - split; [apply names_tidy; assumption|]. split; [apply Co|]. eapply Forall_impl; [|eapply static_show; eassumption].
    intros c [W|I]; [apply printable_tidy, word_printable; exact W|]. unfold tidy. cbn in I. lia.
  - split; [tidy_lit|]. split; [apply all_tidy, name_printable; assumption|]. split; [apply nl_tidy|]. split; [|split; [tidy_lit|]].
    + apply concat_tidy. eapply Forall_impl; [|eapply nested_lines; eassumption]. intros e M. apply Forall_app. split; [apply command_tidy; exact M|apply nl_tidy].
    + eapply Forall_impl; [|eassumption]. intros c O. apply printable_tidy, ordinary_printable. exact O.
  - split; [apply all_tidy, name_printable; assumption|]. split; [apply all_tidy, op_printable|]. split; [apply expr_tidy; assumption|]. split; [tidy_lit|apply anything_tidy; assumption].
  - constructor; [unfold tidy, c_tab; lia|]. rewrite !Forall_app. split; [apply expr_tidy; assumption|]. split; [tidy_lit|apply anything_tidy; assumption].
  - split; [eapply kw_tidy; [eassumption|reflexivity]|]. split; [apply all_tidy, deps_printable; assumption|]. split; [tidy_lit|apply anything_tidy; assumption].
  - split; [tidy_lit|]. split; [apply all_tidy, name_printable; assumption|]. split; [apply nl_tidy|]. split; [|split; [apply expr_tidy; assumption|split; [tidy_lit|apply anything_tidy; assumption]]].
    apply concat_tidy. eapply Forall_impl; [|eapply nested_lines; eassumption]. intros e' M. apply Forall_app. split; [apply command_tidy; exact M|apply nl_tidy].
  - match goal with Iq : In ?q [34; 39]%N |- _ => assert (Tq : tidy q) by (cbn in Iq; destruct Iq as [<-|[<-|[]]]; unfold tidy; lia) end.
    split; [eapply Sp; [|eassumption]; cbn in *; tauto|]. constructor; [unfold tidy, c_space; lia|]. constructor; [exact Tq|]. rewrite !Forall_app.
    split; [split; [apply expr_tidy; assumption|split; [tidy_lit|apply anything_tidy; assumption]]|]. constructor; [exact Tq|apply rest_tidy; assumption].
  - split; [apply names_tidy; assumption|]. split; [apply Co|]. split; [apply all_tidy, deps_printable; assumption|]. split; [tidy_lit|apply anything_tidy; assumption].
  - split; [apply names_tidy; assumption|]. split; [apply Co|]. split; [apply word_tidy; assumption|]. constructor; [unfold tidy; lia|].
    rewrite !Forall_app. split; [apply expr_tidy; assumption|]. split; [tidy_lit|apply anything_tidy; assumption].
  - split; [destruct soft; tidy_lit|]. apply all_tidy, deps_printable. assumption.
Qed.
Lemma tidy_of : forall t, asciis t -> ~ In c_hash t -> Forall tidy t.
Proof.
  intros t A N. apply Forall_forall. intros c I. split; [unfold asciis, asciis in A; rewrite Forall_forall in A; exact (A c I)|]. intros ->. contradiction.
Qed.
Lemma file_stops_ascii : forall fs s t, file_stops fs s t -> asciis t.
Proof.
  intros fs s t F. induction F as [s pre s1 p l rest Re St Ar Nr|s c l t Ac Ep An Nt F IH].
  - apply reaches_tidy in Re. apply stops_tidy in St. unfold asciis. rewrite !Forall_app.
    assert (T : forall x, Forall tidy x -> Forall ascii x) by (intros x; apply Forall_impl; intros c [A _]; exact A).
    split; [apply T; exact Re|]. split; [apply T; exact St|]. split; [repeat constructor|exact Ar].
  - constructor; [reflexivity|]. apply Forall_app. split; [exact Ac|]. rewrite !Forall_app. split; [|split; [repeat constructor|exact IH]].
    eapply Forall_impl; [|apply anything_tidy; exact An]. intros x [A _]. exact A.
Qed.

(** * Everything *)
Section Run2.
Variable fs : str -> file.
Definition crash_file (s : wstate) (t : str) : Prop := forall st (tt : text), rel s st -> m_conds st = [] -> m_rule st = None -> unbroken tt -> chars tt = t -> crashes fs st tt.
Lemma stops_crash :
  (forall s p l, stops fs s p l -> ends fs s (at_place p) l) /\
  (forall soft s ns, include_stops fs soft s ns -> forall st, rel s st -> w_open s = None -> w_deaf s = false -> crashes_in fs soft st ns) /\
  (forall s t, file_stops fs s t -> crash_file s t).
Proof.
  apply (stops_all fs (fun s p l _ => ends fs s (at_place p) l)
    (fun soft s ns _ => forall st, rel s st -> w_open s = None -> w_deaf s = false -> crashes_in fs soft st ns) (fun s t _ => crash_file s t)).
  - intros. eapply ifdef_ends; eauto.
  - intros. eapply extra_ends; eauto.
  - intros. apply else_ends; auto.
  - intros. apply endif_ends; auto.
  - intros. apply no_value_ends; auto.
  - intros. apply modified_ends; auto.
  - intros. apply undefine_ends; auto.
  - intros. apply export_ends; auto.
  - intros. apply directive_ends; auto.
  - intros. apply target_variable_ends; auto.
  - intros. apply command_ends; auto.
  - intros. eapply static_ends; eauto.
  - intros. apply endef_ends; auto.
  - intros. apply unclosed_ends; auto.
  - intros. eapply unclosed_recipe_ends; eauto.
  - intros. apply unclosed_directive_ends; auto.
  - intros. apply unclosed_body_ends; auto.
  - intros. eapply unclosed_condition_ends; eauto.
  - intros. apply unclosed_dependencies_end; auto.
  - intros. apply unclosed_command_ends; auto.
  - intros s p soft e d D M S Cd _ IH st t u R _ H Ub E.
    assert (E' : chars t = show_stmt (SInclude soft e) ++ u) by (rewrite E; cbn [show_stmt]; rewrite <- !app_assoc; reflexivity).
    destruct (include_at fs s st t u soft e d R D H Ub E' M S Cd) as (l & t' & (A1 & A2 & A3 & A4 & A5 & A6 & A7 & A8 & A9) & _).
    destruct (finish_rel _ _ R) as (R' & _ & _ & _ & C5 & C6 & _). eapply (CR_include fs st t l t' soft (words d)); auto. apply IH; auto. congruence.
  - intros s n k ns Fn st R O D. eapply CI_missing. exact Fn.
  - intros soft s n k ns Fn st R O D. eapply CI_unreadable. exact Fn.
  - intros soft s n t ns Fn _ IH st R O D. eapply CI_inside; [exact Fn|]. apply (IH (fresh st n)); [|reflexivity|reflexivity|apply file_unbroken|apply file_chars].
    destruct R as [Q1 Q2 Q3 Q4 Q5]. constructor; cbn; auto.
  - intros soft s n ns t ss s1 Fn W F A _ IH st R O D.
    assert (Rf : rel (begun s) (fresh st n)) by (destruct R as [Q1 Q2 Q3 Q4 Q5]; constructor; cbn; auto).
    destruct (written_run fs ss t (begun s) s1 (fresh st n) (number st n) W F (proj1 (proj2 (acts_run fs)) _ _ _ _ A F) Rf eq_refl eq_refl) as (st1 & Ru & R1 & _).
    eapply CI_later; [exact Fn|exact Ru|]. apply IH; [|reflexivity|reflexivity].
    destruct R as [Q1 Q2 Q3 Q4 Q5], R1 as [P1 P2 P3 P4 P5]. constructor; cbn; auto; [|congruence]. rewrite O in Q2. exact Q2.
  - intros s n k ns Fn _ IH st R O D. eapply CI_skip; [exact Fn|]. apply IH; auto.
  - intros s pre s1 p l rest Re St IH Ar Nr st tt R C Mr U E.
    assert (H : ~ has fst c_hash tt).
    { apply not_has. rewrite E. apply reaches_tidy in Re. apply stops_tidy in St. pose proof (tidy_of _ Ar Nr) as Tr.
      assert (T : Forall tidy (pre ++ l ++ nl ++ rest)) by (rewrite !Forall_app; split; [exact Re|split; [exact St|split; [apply nl_tidy|exact Tr]]]).
      eapply Forall_impl; [|exact T]. intros c [_ Q]. exact Q. }
    destruct (reaches_run fs _ _ _ _ _ _ Re st tt (l ++ nl ++ rest) R) as (st1 & t1 & L1 & R1 & P1 & E1 & H1); [rewrite C; reflexivity|exact C|exact H|exact U|exact E|].
    apply L1. eapply IH; eauto. eapply leads_unbroken; eauto.
  - intros s c l t Ac Ep An Nt F IH st tt R C Mr U E.
    destruct (header_leads fs st tt c l t Ac Ep An (tidy_of _ (file_stops_ascii _ _ _ F) Nt) E) as (t' & L & E'). apply L. apply IH; auto. eapply leads_unbroken; eauto.
Qed.
Theorem file_stops_panics : forall text, ascii_files fs -> file_stops fs w_start text -> reads_to fs text Panic.
Proof.
  intros text Af F. apply makefile_crashes; [exact Af|eapply file_stops_ascii; exact F|].
  apply (proj2 (proj2 stops_crash) _ _ F); [|reflexivity|reflexivity|apply file_unbroken|apply file_chars]. constructor; cbn; auto; intros y; exact Logic.I.
Qed.
End Run2.
