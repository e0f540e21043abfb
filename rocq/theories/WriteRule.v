(** Proofs about makefiles written out from statements: lines that are not assignments. *)
From Coq Require Import String.
From Verif Require Import Base LocModel EvdModel AstModel EngineModel EvdSpec DbSpec ParseModel ParseSpec EvalSpec AstParseSpec EngineSpec MakeSpec
  ParseProofs EvalProofs4 MakeProofs MakeRun WriteSpec WriteProofs WriteProofs2.
Local Open Scope nat_scope.

Definition no_operator (s : str) : Prop := forall op k z, In (op, k) operators -> s <> op ++ z.

(** After the first word comes no operator. *)
Lemma no_assigning : forall (l : text) w bl r, chars l = w ++ bl ++ r -> Forall (fun c => ~ name_end c) w -> Forall (fun c => c = c_space) bl ->
  (r = [] \/ exists x r', r = x :: r' /\ (bl <> [] \/ name_end x) /\ blank x = false /\ no_operator r) -> no_assignment l.
Proof.
  intros l w bl r E W B X name k v (bl' & op & post & -> & N & B' & I & _).
  destruct (op_first _ _ I) as (c & u & -> & Q1 & Q2). rewrite !chars_app in E. rewrite Forall_forall in W, B.
  destruct X as [-> |(x & r' & -> & X & Bx & No)].
  { assert (J : In (fst c) (w ++ bl ++ [])) by (rewrite <- E, !in_app_iff; right; right; left; now left).
    rewrite app_nil_r in J. apply in_app_iff in J as [J|J]; [apply (W _ J); apply ends_name_iff; exact Q1|].
    rewrite (B _ J) in Q2. discriminate. }
  destruct (drop_same char (fun a => negb (ends_name a)) (chars name) (chars bl' ++ chars (c :: u) ++ chars post) w (bl ++ x :: r') E) as (_ & E').
  - intros a Ia. apply in_map_iff in Ia as (a' & <- & Ia). apply negb_true_iff. destruct (ends_name (fst a')) eqn:Q; [|reflexivity].
    apply ends_name_iff in Q. destruct (N _ Ia Q).
  - intros a Ia. apply negb_true_iff. destruct (ends_name a) eqn:Q; [|reflexivity]. apply ends_name_iff in Q. destruct (W _ Ia Q).
  - destruct bl' as [|y bl']; cbn [chars List.map app]; [rewrite Q1; reflexivity|]. specialize (B' y (or_introl eq_refl)). unfold blank in B'.
    apply orb_true_iff in B' as [B'|B']; apply N.eqb_eq in B'; rewrite B'; reflexivity.
  - destruct bl as [|y bl]; cbn [app].
    + destruct X as [X|X]; [contradiction|]. apply ends_name_iff in X. rewrite X. reflexivity.
    + rewrite (B y (or_introl eq_refl)). reflexivity.
  - destruct (drop_same char blank (chars bl') (chars (c :: u) ++ chars post) bl (x :: r') E') as (_ & E2).
    + intros a Ia. apply in_map_iff in Ia as (a' & <- & Ia). apply B'. exact Ia.
    + intros a Ia. rewrite (B _ Ia). reflexivity.
    + exact Q2.
    + exact Bx.
    + eapply No; [exact I|]. symmetry. exact E2.
Qed.

Lemma solid_no_operator : forall c r, ~ name_end c -> no_operator (c :: r).
Proof.
  intros c r N op k z I E. cbn in I. unfold name_end in N. cbn in N.
  repeat (destruct I as [I|I]; [injection I as <- _; cbn in E; injection E as E _; subst c; tauto|]). destruct I.
Qed.
Lemma word_stays : forall c, word_char c \/ In c [36; 40; 41]%N -> ~ name_end c.
Proof.
  intros c [W|J] Q; [apply word_facts in W as (_ & _ & K & _); apply K; unfold name_end in Q; cbn in Q |- *; tauto|].
  unfold name_end in Q. cbn in J, Q. lia.
Qed.

(** A string is a word, spaces, and the rest. *)
Lemma first_word : forall s, Forall printable s -> exists w bl r, s = w ++ bl ++ r /\ ~ In c_space w /\ Forall (fun c => c = c_space) bl /\
  (r = [] \/ exists x r', r = x :: r' /\ bl <> [] /\ x <> c_space).
Proof.
  assert (G : forall s, exists bl r, s = bl ++ r /\ Forall (fun c => c = c_space) bl /\ match r with [] => True | x :: _ => x <> c_space end).
  { induction s as [|c s (bl & r & -> & B & R)]; [exists [], []; auto|]. destruct (N.eq_dec c c_space) as [-> |Nc].
    - exists (c_space :: bl), r. auto.
    - exists [], (c :: bl ++ r). auto. }
  induction s as [|c s IH]; intros P; [exists [], [], []; cbn; auto 10|]. inversion P as [|? ? Pc Ps]; subst.
  destruct (N.eq_dec c c_space) as [-> |Nc].
  - destruct (G s) as (bl & r & -> & B & R). exists [], (c_space :: bl), r. split; [reflexivity|]. split; [auto|]. split; [constructor; auto|].
    destruct r as [|x r]; [auto|]. right. exists x, r. split; [reflexivity|]. split; [discriminate|exact R].
  - destruct (IH Ps) as (w & bl & r & -> & W & B & R). exists (c :: w), bl, r. split; [reflexivity|]. split; [intros [Q|Q]; [congruence|auto]|auto].
Qed.
Lemma trim_spaces : forall e, Forall printable e -> exists bl, e = bl ++ trim_start e /\ Forall (fun c => c = c_space) bl /\ (trim_start e = [] \/ exists x r, trim_start e = x :: r /\ x <> c_space /\ printable x).
Proof.
  induction e as [|c e IH]; intros P; [exists []; auto|]. inversion P as [|? ? Pc Pe]; subst. cbn [trim_start]. rewrite printable_space by exact Pc.
  destruct (N.eqb_spec c c_space) as [-> |Nc].
  - destruct (IH Pe) as (bl & E & B & R). exists (c_space :: bl). split; [cbn; rewrite <- E; reflexivity|]. split; [constructor; auto|exact R].
  - exists []. split; [reflexivity|]. split; [constructor|]. right. exists c, e. auto.
Qed.
Lemma trim_before : forall d e, Forall printable d -> trim_start (d ++ semicolon :: e) = trim_start d ++ semicolon :: e.
Proof. induction 1 as [|c d Pc Pd IH]; [reflexivity|]. cbn [app trim_start]. destruct (is_whitespace c); [exact IH|reflexivity]. Qed.
Lemma trim_incl : forall x, incl (trim_start x) x.
Proof. induction x as [|a x IH]; [intros y []|]. cbn [trim_start]. destruct (is_whitespace a); [intros y I; right; apply IH; exact I|apply incl_refl]. Qed.

(** Dependencies, a semicolon, and a command after spaces. *)
Lemma command_no_assignment : forall (l : text) d e, Forall (fun c => word_char c \/ In c [32; 36; 40; 41]%N) d -> Forall printable e ->
  (e = [] \/ exists r, e = c_space :: r) -> no_operator (trim_start e) -> chars l = trim_start (d ++ semicolon :: e) -> no_assignment l.
Proof.
  intros l d e D P B No E.
  assert (Pd : Forall printable d).
  { eapply Forall_impl; [|exact D]. intros c [W|J]; [apply word_printable; exact W|]. unfold printable. cbn in J. lia. }
  rewrite trim_before in E by exact Pd.
  assert (D' : Forall (fun c => word_char c \/ In c [32; 36; 40; 41]%N) (trim_start d)).
  { rewrite Forall_forall in *. intros c I. apply D, trim_incl, I. }
  destruct (first_word (trim_start d)) as (w & bl & r & Ed & W & Bl & R).
  { rewrite Forall_forall in *. intros c I. apply Pd, trim_incl, I. }
  rewrite Ed in E, D'. rewrite !Forall_app in D'. destruct D' as (Dw & _ & Dr).
  assert (Sw : Forall (fun c => ~ name_end c) w).
  { rewrite Forall_forall in *. intros c I. apply word_stays. destruct (Dw c I) as [Wc|J]; [auto|]. destruct J as [<-|J]; [contradiction|auto]. }
  rewrite <- !app_assoc in E. destruct R as [-> |(x & r' & -> & Nb & Nx)].
  - cbn [app] in E. destruct bl as [|b bl].
    + cbn [app] in E. destruct (trim_spaces e P) as (be & Ee & Be & Re).
      replace (w ++ semicolon :: e) with ((w ++ [semicolon]) ++ be ++ trim_start e) in E by (rewrite <- Ee, <- app_assoc; reflexivity).
      eapply no_assigning; [exact E|apply Forall_app; split; [exact Sw|]|exact Be|].
      { constructor; [unfold name_end; cbn; lia|constructor]. }
      destruct Re as [Z|(x & r' & Ex & Nx & Px)]; [left; exact Z|]. right. exists x, r'. split; [exact Ex|]. split; [|split; [|exact No]].
      * left. intros ->. cbn in Ee. destruct B as [-> |(q & ->)]; [discriminate Ex|]. rewrite Ex in Ee. injection Ee as <- _. contradiction.
      * rewrite printable_blank by exact Px. apply N.eqb_neq. exact Nx.
    + eapply no_assigning; [exact E|exact Sw|exact Bl|]. right. exists semicolon, e. split; [reflexivity|]. split; [left; discriminate|]. split; [reflexivity|].
      apply solid_no_operator. unfold name_end. cbn. lia.
  - eapply no_assigning; [exact E|exact Sw|exact Bl|]. right. exists x, (r' ++ semicolon :: e). split; [reflexivity|]. split; [left; exact Nb|].
    inversion Dr as [|? ? Dx _]; subst. assert (Dx' : word_char x \/ In x [36; 40; 41]%N) by (destruct Dx as [Dx|[Dx|Dx]]; [auto|exfalso; apply Nx; symmetry; exact Dx|auto]).
    split; [|apply solid_no_operator, word_stays; exact Dx'].
    destruct Dx' as [Dx'|J]; [apply word_facts; exact Dx'|]. cbn in J. unfold blank. repeat (destruct J as [<-|J]; [reflexivity|]). destruct J.
Qed.
