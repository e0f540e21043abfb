(** Proofs about makefiles that end the program: lines. *)
From Coq Require Import String.
From Verif Require Import Base LocModel EvdModel AstModel EngineModel EvdSpec DbSpec ParseModel ParseSpec EvalSpec AstParseSpec EngineSpec MakeSpec CrashSpec
  EvdProofs2 ParseProofs EvalProofs4 AstParseProofs AstParseProofs2 MakeProofs5 MakeRun WriteSpec WriteProofs WriteProofs2 WriteProofs3 WriteProofs4 WriteProofs5 WriteProofs6 StopSpec.
Local Open Scope nat_scope.

(** * Lines and keywords *)
Lemma word_not_end : forall c, word_char c -> ~ name_end c.
Proof. intros c W Q. apply word_facts in W as (_ & _ & G & _). apply G. unfold name_end in Q. cbn in Q |- *. tauto. Qed.
(** After the first word comes no operator. *)
Lemma not_assigning : forall (l : text) w bl x r, chars l = w ++ bl ++ x :: r -> Forall word_char w -> only_spaces bl -> (bl <> [] \/ name_end x) ->
  blank x = false -> (forall op k z, In (op, k) operators -> x :: r <> op ++ z) -> no_assignment l.
Proof.
  intros l w bl x r E W B X Bx No name k v (bl' & op & post & -> & N & B' & I & _).
  destruct (op_first _ _ I) as (c & u & -> & Q1 & Q2). rewrite !chars_app in E.
  destruct (drop_same char (fun a => negb (ends_name a)) (chars name) (chars bl' ++ chars (c :: u) ++ chars post) w (bl ++ x :: r) E) as (_ & E').
  - intros a Ia. apply in_map_iff in Ia as (a' & <- & Ia). apply negb_true_iff. destruct (ends_name (fst a')) eqn:Q; [|reflexivity].
    apply ends_name_iff in Q. destruct (N _ Ia Q).
  - intros a Ia. apply negb_true_iff. destruct (ends_name a) eqn:Q; [|reflexivity]. apply ends_name_iff in Q. rewrite Forall_forall in W. destruct (word_not_end _ (W _ Ia) Q).
  - destruct bl' as [|y bl']; cbn [chars List.map app]; [rewrite Q1; reflexivity|]. specialize (B' y (or_introl eq_refl)). unfold blank in B'.
    apply orb_true_iff in B' as [B'|B']; apply N.eqb_eq in B'; rewrite B'; reflexivity.
  - destruct bl as [|y bl]; cbn [app].
    + destruct X as [X|X]; [contradiction|]. apply ends_name_iff in X. rewrite X. reflexivity.
    + inversion B; subst. reflexivity.
  - destruct (drop_same char blank (chars bl') (chars (c :: u) ++ chars post) bl (x :: r) E') as (_ & E2).
    + intros a Ia. apply in_map_iff in Ia as (a' & <- & Ia). apply B'. exact Ia.
    + intros a Ia. unfold only_spaces in B. rewrite Forall_forall in B. rewrite (B _ Ia). reflexivity.
    + exact Q2.
    + exact Bx.
    + eapply No; [exact I|]. symmetry. exact E2.
Qed.
Lemma word_no_operator : forall c r op k z, word_char c -> In (op, k) operators -> c :: r <> op ++ z.
Proof.
  intros c r op k z W I E. cbn in I. unfold word_char in W.
  repeat (destruct I as [I|I]; [injection I as <- _; cbn in E; injection E as E _; subst c; lia|]). destruct I.
Qed.
Lemma word_no_assignment : forall (l : text) w c r, chars l = w ++ c_space :: c :: r -> Forall word_char w -> word_char c -> no_assignment l.
Proof.
  intros l w c r E W C. apply (not_assigning l w [c_space] c r); auto.
  - repeat constructor.
  - left. discriminate.
  - apply word_facts. exact C.
  - intros op k z. apply word_no_operator. exact C.
Qed.

(** Targets, a colon, and what comes after it. *)
Lemma targets_no_assignment : forall (l : text) ts (double : bool) r, chars l = join c_space ts ++ lit (if double then ":: " else ": ") ++ r ->
  ts <> [] -> Forall name ts -> no_assignment l.
Proof.
  intros l ts double r E NE F. destruct ts as [|x ts]; [contradiction|]. inversion F as [|? ? N F']; subst. destruct ts as [|y ts].
  - cbn [join] in E. assert (exists z, lit (if double then ":: " else ": ") ++ r = colon :: z /\ forall op k z', In (op, k) operators -> colon :: z <> op ++ z') as (z & Ez & No).
    { destruct double; eexists; (split; [reflexivity|]); intros op k z' I; cbn in I; repeat (destruct I as [I|I]; [injection I as <- _; cbn; intros Q; discriminate|]); destruct I. }
    rewrite Ez in E. apply (not_assigning l x [] colon z); auto; [apply N|constructor|right; right; cbn; tauto].
  - change (join c_space (x :: y :: ts)) with (x ++ c_space :: join c_space (y :: ts)) in E.
    destruct (join_first (y :: ts)) as (c & l' & Ec & W & _); [discriminate|exact F'|]. rewrite Ec, <- app_assoc in E. cbn [app] in E.
    eapply word_no_assignment; [exact E|apply N|exact W].
Qed.

Lemma anything_printable : forall r, anything r -> Forall printable r.
Proof. intros r. apply Forall_impl. intros c [O| ->]; [apply ordinary_printable; exact O|unfold printable; lia]. Qed.
Lemma rest_inked : forall r, line_rest r -> Forall inked r.
Proof. intros r. apply Forall_impl. intros c [O|I]; [apply line_inked, ordinary_line; exact O|cbn in I; unfold inked; lia]. Qed.
Lemma rest_whole : forall a r, Forall printable a -> line_rest r -> whole (a ++ r).
Proof.
  intros a r A R. apply inline_whole, Forall_app. split; [apply printable_all_inline; exact A|]. eapply Forall_impl; [|exact R].
  intros c [O|I]; [apply printable_inline, ordinary_printable; exact O|]. cbn in I. unfold inline, c_nl, c_bslash. lia.
Qed.
Lemma printable_rest : forall r, Forall (fun c => c = c_space) r -> line_rest r.
Proof. intros r. apply Forall_impl. intros c ->. left. split; [unfold c_space; lia|cbn; unfold c_space; lia]. Qed.
Lemma spaces_printable : forall r, only_spaces r -> Forall printable r.
Proof. intros r. apply Forall_impl. intros c ->. unfold printable, c_space. lia. Qed.
Lemma spaces_blank : forall u : text, only_spaces (chars u) -> all_blank fst u.
Proof. intros u S a I. unfold only_spaces in S. rewrite Forall_forall in S. rewrite (S (fst a)); [reflexivity|apply in_map; exact I]. Qed.
Lemma blank_spaces : forall u : text, Forall printable (chars u) -> all_blank fst u -> only_spaces (chars u).
Proof.
  intros u P B. apply Forall_forall. intros c I. apply in_map_iff in I as (a & <- & I). specialize (B a I). rewrite printable_blank in B; [apply N.eqb_eq; exact B|].
  rewrite Forall_forall in P. apply P. apply in_map. exact I.
Qed.
Lemma rest_spaces : forall u : text, line_rest (chars u) -> all_blank fst u -> only_spaces (chars u).
Proof.
  intros u P B. apply Forall_forall. intros c I. apply in_map_iff in I as (a & <- & I). specialize (B a I). unfold line_rest in P. rewrite Forall_forall in P.
  destruct (P (fst a)) as [O|J]; [apply in_map; exact I|rewrite printable_blank in B by (apply ordinary_printable; exact O); apply N.eqb_eq; exact B|].
  cbn in J. destruct J as [J|[J|[]]]; rewrite <- J in B; discriminate B.
Qed.
Lemma lstrip_blank : forall u : text, all_blank fst u -> lstrip fst u = [].
Proof. intros u B. unfold lstrip. induction u as [|a u IH]; [reflexivity|]. cbn. rewrite (B a (or_introl eq_refl)). apply IH. intros b I. apply B. now right. Qed.

(** The letters of a keyword. *)
Lemma spelled_letters : forall k w, In k ["ifdef"; "ifndef"; "else"; "endif"; "ifeq"; "ifneq"]%string -> spelled k w -> Forall word_char w /\ exists c l, w = c :: l.
Proof.
  intros k w I S. split.
  - assert (L : Forall (fun c => (97 <= c <= 122)%N) (lit k)) by (cbn in I; repeat (destruct I as [<-|I]; [cbn; repeat (apply Forall_cons; [lia|]); apply Forall_nil|]); destruct I).
    unfold spelled in S. rewrite <- S in L. rewrite Forall_map in L. eapply Forall_impl; [|exact L]. cbn. intros c H. unfold word_char.
    unfold ascii_lower in H. destruct ((65 <=? c)%N && (c <=? 90)%N) eqn:Q; [|lia]. apply andb_prop in Q as [Q1 Q2]. apply N.leb_le in Q1, Q2. lia.
  - destruct w as [|c l]; [|eauto]. cbn in I. repeat (destruct I as [<-|I]; [discriminate S|]). destruct I.
Qed.

(** * The first line *)
Record line_at (st : mstate) (t l rest : text) : Prop := LineAt {
  la_line : line_is st t l; la_plain : plain_line t l rest; la_logical : logical_line fst l [] l [];
  la_comment : ~ is_comment_text t; la_direct : directly st t; la_solid : solid l }.
Lemma line_any : forall s st (t : text) l u, rel s st -> ~ has fst c_hash t -> chars t = l ++ nl ++ u -> Forall inked l -> whole l ->
  (exists c r, l = c :: r /\ blank c = false) -> exists tl rest, chars tl = l /\ line_at st t tl rest /\ t <> [].
Proof.
  intros s st t l u R H E P W (c & r & -> & B).
  destruct (take_any t c r u E P W B H) as (tl & t' & E1 & E2 & [L Pl Lo Co Hh] & So).
  assert (D : directly st t) by (eapply direct; [exact R|exact E|intros ->; discriminate B]).
  exists tl, t'. split; [exact E1|]. split; [|intros ->; discriminate E]. constructor; auto. unfold line_is. eauto 10.
Qed.
Lemma line_found : forall s st (t : text) l u, rel s st -> ~ has fst c_hash t -> chars t = l ++ nl ++ u -> Forall printable l ->
  (exists c r, l = c :: r /\ c <> c_space) -> exists tl rest, chars tl = l /\ line_at st t tl rest /\ t <> [].
Proof.
  intros s st t l u R H E P (c & r & -> & Ns).
  assert (Nt : c <> c_tab) by (inversion P as [|? ? Pc _]; subst; unfold printable, c_tab in *; lia).
  destruct (take_line t c r u E P Ns H) as (tl & t' & E1 & E2 & [L Pl Lo Co Hh] & So).
  assert (D : directly st t) by (eapply direct; [exact R|exact E|exact Nt]).
  exists tl, t'. split; [exact E1|]. split; [|intros ->; discriminate E]. constructor; auto. unfold line_is. eauto 10.
Qed.

(** * References that are not closed, in texts *)
Lemma unclosed_reads : forall t, unclosed t -> forall ns, ~ reads False t ns.
Proof.
  intros t U. induction U as [d b o c t D Op NG|d b o c t inner rest D Op G Nk Ui IH|d b o c t inner rest D Op G Nk X Ur IH|d c t D Nc Ut IH|c t N Ut IH]; intros ns R.
  - apply reads_dollar_inv in R; [|exact D].
    destruct R as [(E & _)|[(c' & u & ns' & E & X & _)|[(c' & u & ns' & E & X & _)|[(b' & o' & cc & u & i & re & a & ns' & E & X & G & _)|(b' & o' & cc & u & i & re & a & E & X & G & _)]]]];
      try discriminate; injection E as <- <-.
    + rewrite X in Op. inversion Op.
    + apply X. inversion Op; cbn; auto.
    + destruct (opens_fun _ _ _ _ _ Op X) as (-> & ->). exact (NG _ _ G).
    + destruct (opens_fun _ _ _ _ _ Op X) as (-> & ->). exact (NG _ _ G).
  - apply reads_dollar_inv in R; [|exact D].
    destruct R as [(E & _)|[(c' & u & ns' & E & X & _)|[(c' & u & ns' & E & X & _)|[(b' & o' & cc & u & i & re & a & ns' & E & X & G' & _ & Ra & _)|(b' & o' & cc & u & i & re & a & E & X & G' & C & _)]]]];
      try discriminate; injection E as <- <-.
    + rewrite X in Op. inversion Op.
    + apply X. inversion Op; cbn; auto.
    + destruct (opens_fun _ _ _ _ _ Op X) as (-> & ->). destruct (group_unique _ _ _ _ _ _ _ (proj1 (opens_ne _ _ _ Op)) G G') as (<- & <-).
      inversion Ra; subst; [inversion Ui|eapply IH; eauto].
    + destruct (opens_fun _ _ _ _ _ Op X) as (-> & ->). destruct (group_unique _ _ _ _ _ _ _ (proj1 (opens_ne _ _ _ Op)) G G') as (<- & <-).
      apply calls_begins in C as (k & I & Bk). eapply Nk; eauto.
  - apply reads_dollar_inv in R; [|exact D].
    destruct R as [(E & _)|[(c' & u & ns' & E & Y & _)|[(c' & u & ns' & E & Y & _)|[(b' & o' & cc & u & i & re & a & ns' & E & Y & G' & _ & _ & Rr & _)|(b' & o' & cc & u & i & re & a & E & Y & G' & C & _)]]]];
      try discriminate; injection E as <- <-.
    + rewrite Y in Op. inversion Op.
    + apply Y. inversion Op; cbn; auto.
    + destruct (opens_fun _ _ _ _ _ Op Y) as (-> & ->). destruct (group_unique _ _ _ _ _ _ _ (proj1 (opens_ne _ _ _ Op)) G G') as (<- & <-). eapply IH; eauto.
    + destruct (opens_fun _ _ _ _ _ Op Y) as (-> & ->). destruct (group_unique _ _ _ _ _ _ _ (proj1 (opens_ne _ _ _ Op)) G G') as (<- & <-).
      apply calls_begins in C as (k & I & Bk). eapply Nk; eauto.
  - apply reads_dollar_inv in R; [|exact D].
    destruct R as [(E & _)|[(c' & u & ns' & E & _ & R & _)|[(c' & u & ns' & E & _ & R & _)|[(b' & o' & cc & u & i & re & a & ns' & E & Y & _)|(b' & o' & cc & u & i & re & a & E & Y & _)]]]];
      try discriminate; injection E as <- <-.
    + eapply IH; eauto.
    + eapply IH; eauto.
    + apply Nc. inversion Y; cbn; auto.
    + apply Nc. inversion Y; cbn; auto.
  - apply (reads_after_text [c] t) in R as (ns' & R); [eapply IH; eauto|]. intros (y & [<-|[]] & Q). exact (N Q).
Qed.
Lemma unclosed_malformed : forall t, unclosed t -> ~ expression t.
Proof. intros t U (a & R). inversion R; subst; [inversion U|]. eapply unclosed_reads; eauto. Qed.

Lemma count_chars : forall c (t : text), count c t = count_occ N.eq_dec (chars t) c.
Proof.
  intros c. induction t as [|a t IH]; [reflexivity|]. unfold count in *. cbn [filter chars List.map count_occ]. fold (chars t).
  destruct (N.eq_dec (fst a) c) as [E|E]; [apply N.eqb_eq in E; rewrite E; cbn [List.length]; f_equal; exact IH|apply N.eqb_neq in E; rewrite E; exact IH].
Qed.
Lemma open_no_group : forall t : text, stays_open (chars t) -> forall inner rest, ~ group open_paren close_paren t inner rest.
Proof.
  intros t O inner rest (_ & C & x & X & ->). unfold all_closed in C. specialize (O (chars (inner ++ [x])) (chars rest)).
  rewrite <- !count_chars, !count_app, C in O. unfold count at 2 4 in O. cbn [filter] in O. rewrite X in O. cbn in O.
  assert (Q : chars (inner ++ x :: rest) = chars (inner ++ [x]) ++ chars rest) by (rewrite <- chars_app, <- app_assoc; reflexivity).
  specialize (O Q). lia.
Qed.
Lemma shown_unclosed : forall e r (t : text), expr_ok e -> stays_open r -> chars t = show e ++ lit "$(" ++ r -> unclosed t.
Proof.
  intros e r t O Op. revert t. induction e as [|p e IH]; intros t Et.
  - change (show [] ++ lit "$(" ++ r) with (dollar :: open_paren :: r) in Et. apply chars_cons in Et as (d & t1 & -> & F1 & Et). apply chars_cons in Et as (b & t2 & -> & F2 & Et).
    eapply UN_here; [exact F1|rewrite F2; apply O_paren|]. apply open_no_group. rewrite Et. exact Op.
  - inversion O as [|? ? H O']; subst. unfold show in Et. cbn [List.map concat] in Et. fold (show e) in Et. rewrite <- app_assoc in Et. destruct p as [s|x| |x k z]; cbn [show_part] in Et.
    + apply chars_split in Et as (a & b & -> & E1 & E2).
      assert (Na : ~ In dollar (chars a)) by (rewrite E1; intros I; rewrite Forall_forall in H; exact (H _ I eq_refl)).
      clear E1 H. induction a as [|c a IHa]; [apply IH; assumption|]. cbn [app]. apply UN_plain; [intros Q; apply Na; left; exact Q|]. apply IHa. intros I. apply Na. now right.
    + destruct (ref_text _ _ _ Et) as (d & b & inner & c & u & -> & F1 & F2 & F3 & E1 & E2). subst x.
      eapply UN_later; [exact F1|rewrite F2; apply O_paren|apply group_plain; [not_in H|not_in H|exact F3]|eapply not_function; [exact H|reflexivity]| |apply IH; assumption].
      apply (show_expression [Txt (chars inner)]); [repeat constructor; apply Forall_forall; intros y I ->; pose proof (name_char _ _ H I) as Wc; unfold word_char in Wc; lia|rewrite show_one; reflexivity].
    + change (lit "$$" ++ show e ++ lit "$(" ++ r) with (dollar :: dollar :: show e ++ lit "$(" ++ r) in Et.
      apply chars_cons in Et as (d & t1 & -> & F1 & Et). apply chars_cons in Et as (d' & t2 & -> & F2 & Et).
      apply UN_char; [exact F1|rewrite F2; cbn; intuition discriminate|apply IH; assumption].
    + destruct (ref_text _ _ _ Et) as (d & b & inner & c & u & -> & F1 & F2 & F3 & E1 & E2). destruct H as (N & K & Rr & _).
      destruct (sub_inner x k z inner N K Rr E1) as (_ & A & B).
      eapply UN_later; [exact F1|rewrite F2; apply O_paren|apply group_plain; [apply A; cbn; tauto|apply A; cbn; tauto|exact F3]|exact B| |apply IH; assumption].
      apply (show_expression [Txt (chars inner)]); [|rewrite show_one; reflexivity]. constructor; [|constructor]. apply Forall_forall. intros y I ->. revert I. apply A. cbn. tauto.
Qed.

Section Run.
Variable fs : str -> file.

(** The line [l] ends the program, whatever follows it. *)
Definition ends (s : wstate) (p : list (bool * bool) -> Prop) (l : str) : Prop := forall st (t : text) u, rel s st -> p (m_conds st) -> ~ has fst c_hash t -> unbroken t ->
  chars t = l ++ nl ++ u -> crashes fs st t.
Definition at_place (p : place) (conds : list (bool * bool)) : Prop :=
  match p with Top => conds = [] | InThen => exists b c, conds = (b, false) :: c | InElse => exists b c, conds = (b, true) :: c end.

Lemma spelled_keyword : forall k (tl : text) w r, chars tl = w ++ r -> spelled k w -> exists u, keyword k tl u /\ chars u = r.
Proof. intros k tl w r E S. apply chars_split in E as (a & b & -> & E1 & E2). exists b. split; [exists a; split; [reflexivity|rewrite E1; exact S]|exact E2]. Qed.
Lemma spelled_line : forall s st (t : text) u k w r, rel s st -> ~ has fst c_hash t -> chars t = (w ++ r) ++ nl ++ u -> In k ["ifdef"; "ifndef"; "else"; "endif"; "ifeq"; "ifneq"]%string ->
  spelled k w -> line_rest r -> exists tl rest v, line_at st t tl rest /\ t <> [] /\ keyword k tl v /\ chars v = r.
Proof.
  intros s st t u k w r R H E I S P. destruct (spelled_letters k w I S) as (W & c & l & Ew).
  assert (Pw : Forall printable w) by (eapply Forall_impl; [exact word_printable|exact W]).
  destruct (line_any s st t (w ++ r) u R H E) as (tl & rest & E1 & L & Nz).
  - apply Forall_app. split; [apply all_inked; exact Pw|apply rest_inked; exact P].
  - apply rest_whole; assumption.
  - subst w. exists c, (l ++ r). split; [reflexivity|]. inversion W; subst. apply word_facts. assumption.
  - destruct (spelled_keyword k tl w r E1 S) as (v & K & Ev). eauto 10.
Qed.

Lemma ifdef_ends : forall s p k w r, In k ["ifdef"; "ifndef"]%string -> spelled k w -> line_rest r -> ends s (at_place p) (w ++ r).
Proof.
  intros s p k w r I S A st t u R _ H Ub E.
  destruct (spelled_line s st t u k w r R H E) as (tl & rest & v & L & Nz & K & _); auto; [cbn in *; tauto|].
  apply CR_here; [exact Nz|]. eapply FA_ifdef; [apply L|exact I|exact K].
Qed.
Lemma extra_ends : forall s p k w r, In k ["else"; "endif"]%string -> spelled k w -> line_rest r -> ~ only_spaces r -> ends s (at_place p) (w ++ r).
Proof.
  intros s p k w r I S A Ns st t u R _ H Ub E.
  destruct (spelled_line s st t u k w r R H E) as (tl & rest & v & L & Nz & K & Ev); auto; [cbn in *; tauto|].
  apply CR_here; [exact Nz|]. eapply FA_extra; [apply L|exact I|exact K|]. intros B. apply Ns. rewrite <- Ev. apply rest_spaces; [rewrite Ev; exact A|exact B].
Qed.
Lemma else_ends : forall s p w r, spelled "else" w -> only_spaces r -> p <> InThen -> ends s (at_place p) (w ++ r).
Proof.
  intros s p w r S A Np st t u R Pl H Ub E.
  destruct (spelled_line s st t u "else" w r R H E) as (tl & rest & v & L & Nz & K & Ev); auto; [cbn; tauto|apply printable_rest; exact A|].
  apply CR_here; [exact Nz|]. eapply FA_unmatched; [apply L|eapply CL_else; [exact K|apply spaces_blank; rewrite Ev; exact A]|].
  destruct p; cbn in Pl; [rewrite Pl; reflexivity|contradiction|]. destruct Pl as (b & c & ->). reflexivity.
Qed.
Lemma endif_ends : forall s w r, spelled "endif" w -> only_spaces r -> ends s (at_place Top) (w ++ r).
Proof.
  intros s w r S A st t u R Pl H Ub E.
  destruct (spelled_line s st t u "endif" w r R H E) as (tl & rest & v & L & Nz & K & Ev); auto; [cbn; tauto|apply printable_rest; exact A|].
  apply CR_here; [exact Nz|]. eapply FA_unmatched; [apply L|eapply CL_endif; [exact K|apply spaces_blank; rewrite Ev; exact A]|]. cbn in Pl. rewrite Pl. reflexivity.
Qed.

Lemma acting : forall s st (t l rest : text), rel s st -> w_deaf s = false -> line_at st t l rest -> unconditional l -> acting_line st t l.
Proof. intros s st t l rest R D L B. split; [apply L|]. split; [rewrite (re_deaf _ _ R); exact D|exact B]. Qed.
Lemma first_of : forall x r, name x -> exists c z, x ++ r = c :: z /\ c <> c_space.
Proof. intros x r N. destruct (first_printable _ N) as (c & l & -> & _ & Ns & _). exists c, (l ++ r). auto. Qed.

Lemma no_value_ends : forall s p x r, w_deaf s = false -> name x -> only_spaces r -> ends s (at_place p) (x ++ lit " :=" ++ r).
Proof.
  intros s p x r D N A st t u R _ H Ub E.
  destruct (line_found s st t _ u R H E) as (tl & rest & E1 & L & Nz).
  - rewrite !Forall_app. split; [apply name_printable; exact N|]. split; [printables|apply spaces_printable; exact A].
  - apply first_of. exact N.
  - apply CR_here; [exact Nz|].
    assert (B : unconditional tl).
    { apply unconditional_of. rewrite E1. change (lit " :=" ++ r) with (c_space :: lit ":=" ++ r). apply unreserved_app; [apply N|reflexivity]. }
    pose proof (acting _ _ _ _ _ R D L B) as Ac. change (lit " :=" ++ r) with ([c_space] ++ lit ":=" ++ r) in E1.
    apply chars_split in E1 as (nm & t1 & -> & En & E1). apply chars_split in E1 as (bl & t2 & -> & Eb & E1). apply chars_split in E1 as (op & v & -> & Eo & Ev).
    eapply (FA_no_value st t _ nm nm Ac); [|apply plain_stands; rewrite En; not_in N].
    exists bl, op, v. split; [reflexivity|]. split; [|split; [apply spaces_blank; rewrite Eb; repeat constructor|split; [rewrite Eo; cbn; tauto|]]].
    + intros a Ia. apply word_not_end. apply (name_char _ _ N). rewrite <- En. apply in_map. exact Ia.
    + symmetry. apply lstrip_blank, spaces_blank. rewrite Ev. exact A.
Qed.

Lemma storable_of : forall s st o e (v : text), rel s st -> value_expr e -> storable_value (w_env s) o e -> chars v = show e -> unbroken v -> storable (m_defs st) (op_of o) v.
Proof.
  intros s st o e v R [M _] Hv Ev Ub. assert (O : expr_ok e) by (apply line_ok; exact M).
  assert (X : expression v) by (eapply show_expression; eauto). destruct o; try exact X. destruct Hv as (m & S).
  destruct (says_both _ _ (re_env _ _ R)) as [SB _]. destruct (SB _ _ S O v Ev Ub) as (m' & S' & _). exists m'. exact S'.
Qed.
Lemma modified_ends : forall s p k x o e, w_deaf s = false -> In k ["export "; "override "; "private "]%string -> name x -> value_expr e ->
  storable_value (w_env s) o e -> ends s (at_place p) (lit k ++ x ++ show_op o ++ show e).
Proof.
  intros s p k x o e D I N V Hv st t u R _ H Ub E.
  assert (K : exists k', In k' ["export"; "override"; "private"]%string /\ lit k = lit k' ++ [c_space] /\ Forall word_char (lit k') /\ spelled k' (lit k') /\
    forallb (fun c => clash (lit k) (lit c)) conditional_words = true /\ exists c z, lit k = c :: z /\ blank c = false).
  { cbn in I. destruct I as [<-|[<-|[<-|[]]]]; [exists "export"%string|exists "override"%string|exists "private"%string]; (split; [cbn; tauto|]); (split; [reflexivity|]);
      (split; [cbn; repeat (apply Forall_cons; [unfold word_char; lia|]); apply Forall_nil|]); (split; [reflexivity|]); (split; [reflexivity|]); eexists; eexists; (split; [reflexivity|reflexivity]). }
  destruct K as (k' & I' & Ek & W & Sp & Cl & c & z & Ec & Ns).
  destruct (line_any s st t _ u R H E) as (tl & rest & E1 & L & Nz).
  - rewrite !Forall_app. split; [apply all_inked; rewrite Ek; apply Forall_app; split; [eapply Forall_impl; [exact word_printable|exact W]|repeat constructor; unfold printable, c_space; lia]|].
    split; [apply all_inked, name_printable; exact N|]. split; [apply all_inked, op_printable|apply show_inked; apply V].
  - pose proof (assign_whole [Txt (lit k ++ x)] o e V) as Wh. rewrite show_one, <- app_assoc in Wh. exact Wh.
  - rewrite Ec. eexists. eexists. split; [reflexivity|exact Ns].
  - apply CR_here; [exact Nz|]. assert (B : unconditional tl) by (apply none_unconditional; eapply literal_none; [exact E1|exact Cl]).
    pose proof (acting _ _ _ _ _ R D L B) as Ac.
    destruct (first_printable _ N) as (cx & lx & Ex & Wx & _).
    assert (NoA : no_assignment tl).
    { apply (word_no_assignment tl (lit k') cx (lx ++ show_op o ++ show e)); auto. rewrite E1, Ek, Ex, <- app_assoc. reflexivity. }
    rewrite Ek, <- app_assoc in E1. destruct (spelled_keyword k' tl _ _ E1 Sp) as (v & Kv & Ev). cbn [app] in Ev. apply chars_cons in Ev as (sp & v' & -> & Fs & Ev).
    destruct (assigns_of v' x o e Ev) as (n & tv & En & Etv & A & q & Eq); [intros y I0; apply word_not_end, (name_char _ _ N I0)|exact V|].
    assert (Sv : lstrip fst (sp :: v') = v').
    { unfold lstrip. cbn [drop_while]. rewrite Fs. change (blank c_space) with true. cbn match. apply (lstrip_solid v' cx (lx ++ show_op o ++ show e)); [rewrite Ev, Ex; reflexivity|apply word_facts; exact Wx]. }
    rewrite <- Sv in A. eapply (FA_modified st t tl k' (sp :: v') n n (op_of o) tv Ac NoA I' Kv A); [apply plain_stands; rewrite En; not_in N|].
    eapply storable_of; eauto. pose proof (plain_unbroken _ _ _ (la_plain _ _ _ _ L) Ub) as Ul. destruct Kv as (w' & Ew & _). rewrite Ew, Eq in Ul.
    eapply unbroken_after, unbroken_after, unbroken_tail, unbroken_after. exact Ul.
Qed.

Lemma undefine_ends : forall s p c r, w_deaf s = false -> word_char c -> anything r -> ends s (at_place p) (lit "undefine " ++ c :: r).
Proof.
  intros s p c r D W A st t u R _ H Ub E.
  destruct (line_found s st t _ u R H E) as (tl & rest & E1 & L & Nz).
  - apply Forall_app. split; [printables|]. constructor; [apply word_printable; exact W|apply anything_printable; exact A].
  - eexists. eexists. split; [reflexivity|discriminate].
  - apply CR_here; [exact Nz|]. assert (B : unconditional tl) by (apply none_unconditional; eapply literal_none; [exact E1|reflexivity]).
    pose proof (acting _ _ _ _ _ R D L B) as Ac. change (lit "undefine " ++ c :: r) with (lit "undefine" ++ c_space :: c :: r) in E1.
    destruct (spelled_keyword "undefine" tl _ _ E1 eq_refl) as (v & K & _). eapply FA_undefine; [exact Ac| |exact K].
    eapply word_no_assignment; [exact E1| |exact W]. cbn. repeat (apply Forall_cons; [unfold word_char; lia|]). apply Forall_nil.
Qed.

Lemma names_expression : forall xs (v : text) a, Forall name xs -> chars v = a ++ join c_space xs -> ~ In dollar a -> expression v.
Proof.
  intros xs v a F E Na. apply (show_expression [Txt (a ++ join c_space xs)]).
  - constructor; [|constructor]. apply Forall_app. split; [apply Forall_forall; intros c I ->; contradiction|].
    apply join_forall; [discriminate|intros c W ->; unfold word_char in W; lia|exact F].
  - rewrite E. unfold show. cbn. rewrite app_nil_r. reflexivity.
Qed.
Lemma export_ends : forall s p xs, w_deaf s = false -> xs <> [] -> Forall name xs -> ends s (at_place p) (lit "export " ++ join c_space xs).
Proof.
  intros s p xs D NE F st t u R _ H Ub E. destruct (join_first xs NE F) as (c & z & Ec & W & _).
  destruct (line_found s st t _ u R H E) as (tl & rest & E1 & L & Nz).
  - apply Forall_app. split; [printables|]. apply join_forall; [unfold printable, c_space; lia|exact word_printable|exact F].
  - eexists. eexists. split; [reflexivity|discriminate].
  - apply CR_here; [exact Nz|]. assert (B : unconditional tl) by (apply none_unconditional; eapply literal_none; [exact E1|reflexivity]).
    pose proof (acting _ _ _ _ _ R D L B) as Ac. change (lit "export " ++ join c_space xs) with (lit "export" ++ c_space :: join c_space xs) in E1.
    destruct (spelled_keyword "export" tl _ _ E1 eq_refl) as (v & K & Ev). pose proof Ev as Ev0. apply chars_cons in Ev as (sp & v' & -> & Fs & Ev).
    assert (Sv : lstrip fst (sp :: v') = v').
    { unfold lstrip. cbn [drop_while]. rewrite Fs. change (blank c_space) with true. cbn match. apply (lstrip_solid v' c z); [rewrite Ev, Ec; reflexivity|apply word_facts; exact W]. }
    assert (Ne : ~ In equals (join c_space xs)).
    { intros I. assert (J : Forall (fun c => c <> equals) (join c_space xs)) by (apply join_forall; [discriminate|intros y Wy ->; unfold word_char in Wy; lia|exact F]).
      rewrite Forall_forall in J. exact (J _ I eq_refl). }
    eapply FA_export; [exact Ac| |exact K| | |].
    + apply no_equals. rewrite E1, in_app_iff. intros [I|[I|I]]; [cbn in I; lia|discriminate|contradiction].
    + apply no_equals. rewrite Sv, Ev. exact Ne.
    + apply begins_none_of; [|intros k I; unfold reserved; rewrite !in_app_iff; tauto]. rewrite Sv, Ev. apply join_unreserved_end; auto.
    + apply (names_expression xs _ [c_space] F); [exact Ev0|]. intros [I|[]]. discriminate.
Qed.

Lemma directive_ends : forall s p k e, w_deaf s = false -> In k ["unexport "; "vpath "; "load "; "-load "]%string -> made_of dep_char e ->
  ends s (at_place p) (lit k ++ show e).
Proof.
  intros s p k e D I M st t u R _ H Ub E.
  assert (K : exists k', In k' ["unexport"; "vpath"; "load"; "-load"]%string /\ lit k = lit k' ++ [c_space] /\ Forall word_char (lit k') /\ spelled k' (lit k') /\
    forallb (fun c => clash (lit k) (lit c)) (conditional_words ++ modifier_words) = true /\ exists c z, lit k = c :: z /\ c <> c_space).
  { cbn in I. destruct I as [<-|[<-|[<-|[<-|[]]]]]; [exists "unexport"%string|exists "vpath"%string|exists "load"%string|exists "-load"%string]; (split; [cbn; tauto|]); (split; [reflexivity|]);
      (split; [cbn; repeat (apply Forall_cons; [unfold word_char; lia|]); apply Forall_nil|]); (split; [reflexivity|]); (split; [reflexivity|]); eexists; eexists; (split; [reflexivity|discriminate]). }
  destruct K as (k' & I' & Ek & W & Sp & Cl & c & z & Ec & Ns). rewrite forallb_app in Cl. apply andb_prop in Cl as [Cl1 Cl2].
  destruct (line_found s st t _ u R H E) as (tl & rest & E1 & L & Nz).
  - apply Forall_app. split; [|apply deps_printable; exact M].
    rewrite Ek; apply Forall_app; split; [eapply Forall_impl; [exact word_printable|exact W]|repeat constructor; unfold printable, c_space; lia].
  - rewrite Ec. eexists. eexists. split; [reflexivity|exact Ns].
  - apply CR_here; [exact Nz|]. assert (B : unconditional tl) by (apply none_unconditional; eapply literal_none; [exact E1|exact Cl1]).
    assert (B2 : begins_none modifier_words tl) by (eapply literal_none; [exact E1|exact Cl2]).
    pose proof (acting _ _ _ _ _ R D L B) as Ac.
    rewrite Ek, <- app_assoc in E1. destruct (spelled_keyword k' tl _ _ E1 Sp) as (v & Kv & Ev).
    eapply FA_directive; [exact Ac| |exact B2|exact I'|exact Kv|].
    + apply no_equals. rewrite E1, !in_app_iff. intros [J|[[J|[]]|J]]; [|discriminate|].
      * rewrite Forall_forall in W. apply W in J. unfold word_char in J. lia.
      * pose proof (deps_show _ M) as Q. rewrite Forall_forall in Q. destruct (Q _ J) as [Wd|Kd]; [unfold word_char in Wd; lia|cbn in Kd; lia].
    + apply (show_expression (Txt [c_space] :: e)); [|exact Ev]. constructor; [repeat constructor; discriminate|apply deps_ok; exact M].
Qed.

(** * References that are not closed *)
Lemma unclosed_ends : forall s p x o e r, w_deaf s = false -> name x -> made_of ordinary e -> not_blank_first (show e) -> anything r -> stays_open r ->
  ends s (at_place p) (x ++ show_op o ++ show e ++ lit "$(" ++ r).
Proof.
  intros s p x o e r D N M B A O st t u R _ H Ub E.
  destruct (line_found s st t _ u R H E) as (tl & rest & E1 & L & Nz).
  - rewrite !Forall_app. split; [apply name_printable; exact N|]. split; [apply op_printable|]. split; [apply show_printable; exact M|]. split; [printables|apply anything_printable; exact A].
  - apply first_of. exact N.
  - apply CR_here; [exact Nz|].
    assert (Bc : unconditional tl).
    { apply unconditional_of. rewrite E1. destruct o; cbn [show_op];
        match goal with |- context [lit ?k ++ ?r] => let z := eval cbn in (lit k) in match z with ?c :: ?y => change (lit k ++ r) with (c :: y ++ r) end end;
        (apply unreserved_app; [apply N|reflexivity]). }
    pose proof (acting _ _ _ _ _ R D L Bc) as Ac.
    apply chars_split in E1 as (nm & t1 & -> & En & E1). apply chars_split in E1 as (ops & v & -> & Eo & Ev).
    eapply (FA_unclosed st t _ nm (op_of o) v Ac).
    + apply assigns_parts; [exact Eo|rewrite En; intros c I; apply word_not_end, (name_char _ _ N I)|].
      destruct v as [|a v]; [reflexivity|]. unfold lstrip. cbn [drop_while]. replace (blank (fst a)) with false; [reflexivity|]. symmetry.
      destruct (show e) as [|c w] eqn:Es; cbn in Ev; injection Ev as Ea _; rewrite Ea; [reflexivity|]. cbn in B.
      pose proof (show_printable _ M) as P. rewrite Es in P. inversion P as [|? ? Pc _]; subst. unfold blank. unfold printable in Pc. unfold c_space, c_tab in *.
      apply orb_false_intro; apply N.eqb_neq; [exact B|lia].
    + right. split; [apply (show_expression [Txt x]); [repeat constructor; apply Forall_forall; intros c I ->; pose proof (name_char _ _ N I) as Wc; unfold word_char in Wc; lia|rewrite show_one; exact En]|].
      exact (shown_unclosed e r v (ordinary_ok _ M) O Ev).
Qed.

Lemma unclosed_recipe_ends : forall s p o e r, w_open s = Some o -> made_of ordinary e -> anything r -> stays_open r ->
  ends s (at_place p) (c_tab :: show e ++ lit "$(" ++ r).
Proof.
  intros s p o e r W M A O st t u R _ H Ub E.
  pose proof (re_open _ _ R) as Ro. rewrite W in Ro. destruct (m_rule st) as [rl|] eqn:Mr; [|contradiction Ro].
  cbn [app] in E. apply chars_cons in E as (c & t1 & -> & Fc & E). apply chars_split in E as (b & t2 & -> & Eb & E).
  change (nl ++ u) with (c_nl :: u) in E. apply chars_cons in E as (n & rest & -> & Fn & E).
  assert (P : Forall printable (chars b)).
  { rewrite Eb, !Forall_app. split; [apply show_printable; exact M|]. split; [printables|apply anything_printable; exact A]. }
  apply CR_here; [discriminate|].
  eapply FA_recipe; [apply no_comment; exact H|exact Mr|reflexivity|exact Fc|apply RT_line|].
  - intros (a & I & Q). apply H. exists a. split; [right; exact I|exact Q].
  - intros (a & I & Q). rewrite Forall_forall in P. specialize (P (fst a) (in_map fst _ _ I)). rewrite Q in P. unfold printable, c_nl in P. lia.
  - exact Fn.
  - apply no_backslash. eapply Forall_impl; [|exact P]. intros a Pa. unfold printable in Pa. unfold c_bslash. lia.
  - apply unclosed_malformed. exact (shown_unclosed e r b (ordinary_ok _ M) O Eb).
Qed.

Lemma unclosed_directive_ends : forall s p k e r, w_deaf s = false -> In k ["include "; "-include "; "sinclude "; "unexport "; "vpath "; "load "; "-load "]%string ->
  made_of dep_char e -> anything r -> ~ In equals r -> stays_open r -> ends s (at_place p) (lit k ++ show e ++ lit "$(" ++ r).
Proof.
  intros s p k e r D I M A NE O st t u R _ H Ub E.
  assert (K : exists k', In k' directive_words /\ lit k = lit k' ++ [c_space] /\ Forall word_char (lit k') /\ spelled k' (lit k') /\
    forallb (fun c => clash (lit k) (lit c)) (conditional_words ++ modifier_words) = true /\ exists c z, lit k = c :: z /\ c <> c_space).
  { cbn in I. repeat (destruct I as [I|I]; [subst k; match goal with |- context [lit ?w] => let n := eval compute in (String.substring 0 (String.length w - 1) w) in exists n end;
      (split; [cbn; tauto|]); (split; [reflexivity|]); (split; [cbn; repeat (apply Forall_cons; [unfold word_char; lia|]); apply Forall_nil|]);
      (split; [reflexivity|]); (split; [reflexivity|]); eexists; eexists; (split; [reflexivity|discriminate])|]). destruct I. }
  destruct K as (k' & I' & Ek & W & Sp & Cl & c & z & Ec & Ns). rewrite forallb_app in Cl. apply andb_prop in Cl as [Cl1 Cl2].
  destruct (line_found s st t _ u R H E) as (tl & rest & E1 & L & Nz).
  - rewrite !Forall_app. split; [|split; [apply deps_printable; exact M|split; [printables|apply anything_printable; exact A]]].
    rewrite Ek; apply Forall_app; split; [eapply Forall_impl; [exact word_printable|exact W]|repeat constructor; unfold printable, c_space; lia].
  - rewrite Ec. eexists. eexists. split; [reflexivity|exact Ns].
  - apply CR_here; [exact Nz|]. assert (B : unconditional tl) by (apply none_unconditional; eapply literal_none; [exact E1|exact Cl1]).
    assert (B2 : begins_none modifier_words tl) by (eapply literal_none; [exact E1|exact Cl2]).
    pose proof (acting _ _ _ _ _ R D L B) as Ac.
    rewrite Ek, <- app_assoc in E1. destruct (spelled_keyword k' tl _ _ E1 Sp) as (v & Kv & Ev).
    eapply FA_malformed; [exact Ac| |exact B2|exact I'|exact Kv|].
    + apply no_equals. rewrite E1, !in_app_iff. intros [J|[[J|[]]|[J|[J|J]]]]; [|discriminate| | |exact (NE J)].
      * rewrite Forall_forall in W. apply W in J. unfold word_char in J. lia.
      * pose proof (deps_show _ M) as Q. rewrite Forall_forall in Q. destruct (Q _ J) as [Wd|Kd]; [unfold word_char in Wd; lia|cbn in Kd; lia].
      * cbn in J. destruct J as [J|[J|[]]]; discriminate J.
    + apply unclosed_malformed. apply (shown_unclosed (Txt [c_space] :: e) r); [|exact O|exact Ev]. constructor; [repeat constructor; discriminate|apply deps_ok; exact M].
Qed.

Local Ltac ord := unfold ordinary, c_space; split; [|cbn]; lia.
Lemma anything_rest : forall r, anything r -> line_rest r.
Proof. intros r A. eapply Forall_impl; [|exact A]. intros c [O| ->]; [left; exact O|right; cbn; tauto]. Qed.
Lemma show_anything : forall e, made_of ordinary e -> anything (show e).
Proof. intros e M. eapply show_forall; [exact M|intros c O; left; exact O| | | |]; first [right; reflexivity|left; ord|intros c W; left; unfold word_char in W; ord]. Qed.
Lemma unclosed_condition_ends : forall s p k w q e r v, In k ["ifeq"; "ifneq"]%string -> spelled k w -> In q [34; 39]%N -> made_of ordinary e -> anything r ->
  ~ In q (show e ++ r) -> stays_open r -> line_rest v -> ends s (at_place p) (w ++ c_space :: q :: (show e ++ lit "$(" ++ r) ++ q :: v).
Proof.
  intros s p k w q e r v I S Iq M A Nq O V st t u R _ H Ub E.
  assert (Qo : ordinary q) by (cbn in Iq; destruct Iq as [<-|[<-|[]]]; ord).
  assert (P : line_rest (c_space :: q :: (show e ++ lit "$(" ++ r) ++ q :: v)).
  { constructor; [left; ord|]. constructor; [left; exact Qo|]. unfold line_rest. rewrite !Forall_app. split; [split; [apply anything_rest, show_anything; exact M|split; [|apply anything_rest; exact A]]|].
    - change (lit "$(") with [36; 40]%N. apply Forall_cons; [right; cbn; tauto|]. apply Forall_cons; [left; ord|apply Forall_nil].
    - constructor; [left; exact Qo|exact V]. }
  destruct (spelled_line s st t u k w _ R H E) as (tl & rest & b & L & Nz & K & Eb); auto; [cbn in *; tauto|].
  apply CR_here; [exact Nz|]. eapply FA_condition; [apply L|exact I|exact K|]. left.
  apply chars_cons in Eb as (sp & b1 & -> & Fs & Eb). apply chars_cons in Eb as (o & b2 & -> & Fo & Eb). apply chars_split in Eb as (a & b3 & -> & Ea & Eb).
  apply chars_cons in Eb as (q' & b4 & -> & Fq & Eb).
  exists a. split; [|apply unclosed_malformed; exact (shown_unclosed e r a (ordinary_ok _ M) O Ea)].
  assert (Ls : lstrip fst (sp :: o :: a ++ q' :: b4) = o :: a ++ q' :: b4).
  { unfold lstrip. cbn [drop_while]. rewrite Fs, Fo. cbn in Iq. destruct Iq as [<-|[<-|[]]]; reflexivity. }
  rewrite Ls. apply FI_quotes; [rewrite Fo; exact Iq| |congruence].
  intros (x & J & Q). apply (in_map fst) in J. change (In (fst x) (chars a)) in J. rewrite Ea, Q, Fo in J.
  apply in_app_iff in J as [J|J]; [apply Nq, in_app_iff; left; exact J|]. apply in_app_iff in J as [J|J]; [|apply Nq, in_app_iff; right; exact J]. cbn in Iq, J. lia.
Qed.
End Run.
