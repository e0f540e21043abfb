(** Proofs about the engine as a whole, third part: the parsers of lines. *)
From Coq Require Import String Lia ZArith.
From Verif Require Import Base LocModel EvdModel NomModel AstModel ParseModel AstParseModel EngineModel
  EvdSpec DbSpec ParseSpec EvalSpec AstParseSpec EngineSpec DbProofs EvdProofs EvdProofs2 EvdProofs3 ParseProofs ParseProofs2
  ParseProofs3 ParseProofs4 ParseProofs5 SubstProofs EvalProofs EvalProofs2 EvalProofs3 EvalProofs4
  AstParseProofs AstParseProofs2 AstParseProofs3 SafeProofs SafeProofs2.
Local Open Scope nat_scope.

(** * Logical lines *)

Lemma logical_shorter : forall {A} (ch : A -> char) t ls last rest, logical_line ch t ls last rest ->
  List.length rest <= List.length t /\ (t <> [] -> List.length rest < List.length t).
Proof.
  intros A ch t ls last rest H. induction H as [l N C|l n rest N C E|l N C|l n t ls last rest N C E H (IH & _)].
  - cbn. split; [lia|]. intros X. destruct l; [congruence|cbn; lia].
  - rewrite app_length. cbn. lia.
  - cbn. split; [lia|]. intros X. destruct l; [congruence|cbn; lia].
  - rewrite app_length. cbn. lia.
Qed.

Lemma hash_split : forall (t : list (char * location)),
  ~ has mch c_hash t \/ exists l h u, t = l ++ h :: u /\ ~ has mch c_hash l /\ fst h = c_hash.
Proof.
  induction t as [|m t IH]; [left; apply no_has_nil|].
  destruct (N.eq_dec (fst m) c_hash) as [E|E].
  - right. exists [], m, t. split; [reflexivity|]. split; [apply no_has_nil|exact E].
  - destruct IH as [N|(l & h & u & -> & N & H)].
    + left. rewrite has_cons. intros [X|X]; contradiction.
    + right. exists (m :: l), h, u. split; [reflexivity|]. split; [|exact H]. rewrite has_cons. intros [X|X]; contradiction.
Qed.

(** The text does not begin with a comment character. *)
Definition no_hash_first (s : span) : Prop := forall m t, span_marks s = m :: t -> fst m <> c_hash.

Lemma line_safe : forall mode strip s, gspan s ->
  exists r b, makefile_line s mode strip = Ok (POk r b) /\ gspan r /\ wf_block b /\ sp_len r <= sp_len s /\
    (0 < sp_len s -> no_hash_first s -> sp_len r < sp_len s).
Proof.
  intros mode strip s G. assert (W := proj1 G). destruct (hash_split (span_marks s)) as [N|(l & h & u & E & N & H)].
  - destruct (logical_line_total mch (span_marks s)) as (ls & last & rest & L).
    destruct (makefile_line_ok mode strip s ls last rest W N L) as (r & b & k & E & Wb & _ & Sr & Mr & _).
    exists r, b. assert (Gr := sub_gspan _ _ _ _ G Sr). destruct (logical_shorter _ _ _ _ _ L) as (A & B).
    rewrite <- Mr, !span_marks_len in A, B by (exact W || apply Gr).
    split; [exact E|]. split; [exact Gr|]. split; [exact Wb|]. split; [exact A|]. intros P _. apply B.
    intros Z. rewrite <- (span_marks_len s W), Z in P. cbn in P. lia.
  - destruct (makefile_line_hash mode strip s l h u W E N H) as (r & b & E2 & Wb & _ & Sr & Mr & _).
    exists r, b. assert (Gr := sub_gspan _ _ _ _ G Sr). destruct (sub_len _ _ _ _ Sr) as (L & L2).
    split; [exact E2|]. split; [exact Gr|]. split; [exact Wb|]. split; [lia|]. intros P Nh.
    destruct l as [|m l]; [exfalso; exact (Nh _ _ E H)|]. cbn in *. lia.
Qed.

(** * Comments *)

Lemma popt_safe : forall {A} F (p : parser A) (P : A -> Prop) n s, gspan s -> sp_len s <= n ->
  safe F (pgood n P) (p s) -> safe F (pgood n (fun o => forall a, o = Some a -> P a)) (popt p s).
Proof.
  intros A F p P n s G L H. unfold popt. eapply safe_bind; [exact H|]. intros [i a|ks|ks] K; cbn in *.
  - destruct K as (Gi & Li & Pa). split; [exact Gi|]. split; [exact Li|]. intros b E. inversion E; subst; exact Pa.
  - split; [exact G|]. split; [exact L|]. intros a E. discriminate.
  - exact I.
Qed.

Lemma comment_loop_rest : forall n fuel i line reason, gspan i -> gspan line -> sp_len i <= n ->
  safe True (pgood n (fun _ => True)) (comment_loop fuel i line reason).
Proof.
  intros n fuel. induction fuel as [|fuel IH]; intros i line reason G Gl L; cbn [comment_loop]; [exact I|].
  eapply safe_bind with (P := fun _ => True).
  - destruct reason; [exact I| |];
      (eapply safe_bind with (P := fun _ => True); [rewrite (ends_with_backslash_ok line (proj1 Gl)); exact I|intros; exact I]).
  - intros [|] _; [|apply safe_pok; auto]. unfold preceded. eapply safe_pbind with (P := fun out => gspan (fst out)).
    + eapply safe_pbind with (P := fun _ => True).
      * eapply safe_pweak; [eapply popt_safe with (n := sp_len i); [exact G|lia|]|exact L|auto].
        eapply safe_pweak; [apply safe_false, pchar_safe; [reflexivity|exact G]|lia|intros; exact I].
      * intros j _ Gj Lj _. eapply safe_pweak; [apply safe_false, grab_line_safe; exact Gj|exact Lj|].
        intros a (Ga & _). exact Ga.
    + intros j out Gj Lj Go. apply IH; auto.
Qed.

Lemma parse_comment_rest : forall s, gspan s -> safe True (pgood (sp_len s) (fun _ => True)) (parse_comment s).
Proof.
  intros s G. unfold parse_comment, preceded. eapply safe_pbind with (P := fun out => gspan (fst out)).
  - eapply safe_pbind with (P := fun _ => True).
    + apply add_return_error_safe. eapply safe_pweak; [apply safe_false, pchar_safe; [reflexivity|exact G]|lia|intros; exact I].
    + intros j _ Gj Lj _. eapply safe_pweak; [apply safe_false, grab_line_safe; exact Gj|exact Lj|].
      intros a (Ga & _). exact Ga.
  - intros j out Gj Lj Go. apply comment_loop_rest; auto.
Qed.

(** A comment line is skipped, or the text does not begin with a comment. *)
Lemma comment_safe : forall s, gspan s ->
  (exists r, parse_comment_following_whitespace s = Ok (POk r tt) /\ gspan r /\ sp_len r < sp_len s) \/
  (exists ks, parse_comment_following_whitespace s = Ok (PError ks) /\ no_hash_first s).
Proof.
  intros s G. unfold parse_comment_following_whitespace, preceded.
  destruct (whitespace_marks s (proj1 G)) as (i & q & E & Si & Mi). rewrite E. cbn [pbind bind].
  assert (Gi := sub_gspan _ _ _ _ G Si). destruct (sub_len _ _ _ _ Si) as (Li & Li2).
  destruct (span_marks i) as [|h t] eqn:M.
  - right. destruct (parse_comment_no i (proj1 Gi)) as (e & E2); [intros x y X; congruence|].
    exists e. split; [exact E2|]. intros m u X C. rewrite X in Mi. cbn in Mi. rewrite C in Mi. discriminate.
  - destruct (N.eq_dec (fst h) c_hash) as [C|C].
    + left. destruct (comment_parts_total t) as (parts & u & Fp & Nu & Et).
      destruct (logical_line_total mch u) as (ls & last & rest & L).
      destruct (parse_comment_ok i h parts u ls last rest (proj1 Gi) C Fp Nu) as (r & Er & Wr & Mr); [congruence|exact L|].
      exists r. split; [exact Er|]. pose proof (parse_comment_rest i Gi) as P. rewrite Er in P. cbn in P.
      destruct P as (Gr & _ & _). split; [exact Gr|].
      rewrite <- (span_marks_len r Wr), Mr. destruct (logical_shorter _ _ _ _ _ L) as (A & _).
      assert (List.length u <= List.length t).
      { rewrite Et. unfold comment_parts. rewrite app_length. lia. }
      assert (List.length (span_marks i) = S (List.length t)) by (rewrite M; reflexivity).
      rewrite span_marks_len in H0 by apply Gi. lia.
    + right. destruct (parse_comment_no i (proj1 Gi)) as (e & E2); [intros x y X; rewrite M in X; inversion X; subst; exact C|].
      exists e. split; [exact E2|]. intros m u X D. rewrite X in Mi. cbn in Mi. rewrite D in Mi. cbn in Mi.
      inversion Mi; subst. contradiction.
Qed.

(** * Recipe lines *)

(** A block whose first piece is not empty. *)
Definition headed (b : block) : Prop :=
  wf_block_w b /\ match b_content b with [] => True | c :: _ => 0 < c_len c end.

Lemma headed_span : forall b, headed b -> wf_span (block_span b).
Proof.
  intros b (W & H). split; [exact W|]. split; [exists []; reflexivity|]. split.
  - cbn [block_span sp_off sp_len sp_contents]. unfold block_len. lia.
  - cbn [block_span sp_off sp_len sp_contents]. intros P. destruct (b_content b) as [|c cs] eqn:E.
    + unfold block_len in P. rewrite E in P. unfold sum_len in P. cbn in P. lia.
    + exists c, cs. auto.
Qed.

Lemma headed_wf : forall b, wf_block b -> headed b.
Proof.
  intros b W. split; [now apply wf_block_weak|]. unfold wf_block in W. destruct (b_content b) as [|c cs]; [exact I|].
  inversion W as [|? ? Wc]; subst. destruct c. apply Wc.
Qed.

Lemma headed_push : forall b c, headed b -> b_content b <> [] -> wf_cref_w c -> headed (block_push b c).
Proof.
  intros b c (W & H) N Wc. split.
  - unfold wf_block_w, block_push. cbn. apply Forall_app. auto.
  - unfold block_push. cbn. destruct (b_content b) as [|d ds]; [congruence|]. exact H.
Qed.

Lemma content_reference_w : forall s, gspan s -> safe False wf_cref_w (to_content_reference s).
Proof.
  intros s G. unfold to_content_reference. eapply safe_bind; [apply to_new_block_safe, G|]. intros b (W & _).
  cbn. split; [lia|]. destruct b as [sens cs]. apply fold_and_Forall. exact W.
Qed.

Lemma parse_ast_headed : forall s, wf_span s -> safe False (fun r => match r with POk _ a => ast_ok a | _ => True end) (parse_ast s).
Proof.
  intros s W. pose proof (parse_ast_good s W) as P. unfold parse_good in P.
  destruct (parse_ast s) as [[r a|ks|ks]| |] eqn:E; cbn; auto.
  destruct P as (_ & _ & R). apply (proj1 (proj2 (reads_ok _)) _ _ R). apply span_ascii. exact W.
Qed.

Lemma command_safe : forall c s, ascii c -> gspan s ->
  safe False (fun r => match r with POk i out => gspan i /\ sp_len i < sp_len s /\ gspan (fst out) | _ => True end)
    (grab_command_line c s).
Proof.
  intros c s A G. unfold grab_command_line, preceded.
  destruct (pchar c s) as [[i x|ks|ks]| |] eqn:E; cbn [pbind bind]; try exact I.
  - pose proof (pchar_safe c A s G) as P. rewrite E in P. destruct P as (Gi & Li & _).
    destruct (pchar_pos c s i x A G E) as (Ls & Ls2).
    eapply safe_weak; [apply grab_line_safe; exact Gi|auto|]. intros [j out|ks|ks] H; auto.
    destruct H as (Gj & Lj & (Go & _)). split; [exact Gj|]. split; [lia|exact Go].
  - pose proof (pchar_safe c A s G) as P. rewrite E in P. exact P.
Qed.

Lemma newline_wf : wf_cref cr_newline.
Proof. unfold cr_newline. cbn. split; [lia|]. split; [lia|]. constructor; [reflexivity|constructor]. Qed.

Lemma recipe_loop_safe : forall c, ascii c -> forall n fuel i line, gspan i -> sp_len i < fuel -> sp_len i <= n -> headed line ->
  safe False (pgood n ast_ok) (recipe_loop fuel c i line).
Proof.
  intros c A n. induction fuel as [|fuel IH]; intros i line G L Ln H; [lia|]. cbn [recipe_loop].
  assert (Fin : forall j b, gspan j -> sp_len j <= n -> headed b ->
    safe False (pgood n ast_ok) (let! (_j, a) := parse_ast (block_span b) in pok j a)).
  { intros j b Gj Lj Hb. unfold pbind. eapply safe_bind; [apply parse_ast_headed, headed_span, Hb|].
    intros [r a|ks|ks] Q; try exact I. apply safe_pok; auto. }
  rewrite (ends_with_backslash_ok _ (headed_span line H)). cbn [bind].
  destruct (Nat.odd _) eqn:O; [|apply Fin; auto].
  assert (N : b_content line <> []).
  { intros Z. replace (span_marks (block_span line)) with (@nil (char * location)) in O; [discriminate|].
    unfold span_marks. cbn [block_span sp_contents sp_off sp_len]. rewrite Z. cbn. now rewrite firstn_nil. }
  assert (H1 : headed (block_push line cr_newline)) by (apply headed_push; auto; apply wf_cref_weak, newline_wf).
  eapply safe_bind; [apply command_safe; eauto|]. intros [j out|ks|ks] K; [|apply Fin; auto|apply Fin; auto].
  destruct K as (Gj & Lj & Go). destruct out as [nl reason]. cbn [fst] in Go.
  eapply safe_bind; [apply content_reference_w, Go|]. intros cr Wc.
  assert (H2 : headed (block_push (block_push line cr_newline) cr)).
  { apply headed_push; auto. unfold block_push. cbn. destruct (b_content line); discriminate. }
  destruct reason; [apply Fin; auto; lia| |]; (apply IH; auto; lia).
Qed.

Lemma recipe_line_safe : forall c s, ascii c -> gspan s ->
  safe False (fun r => match r with POk i a => gspan i /\ sp_len i < sp_len s /\ ast_ok a | _ => True end) (recipe_line c s).
Proof.
  intros c s A G. unfold recipe_line. unfold pbind at 1.
  eapply safe_bind with (P := fun r => match r with POk i out => gspan i /\ sp_len i < sp_len s /\ gspan (fst out) | _ => True end).
  - unfold add_return_error. eapply safe_bind; [apply command_safe; eauto|]. intros [i out|ks|ks] H; cbn; auto.
  - intros [i [l reason]|ks|ks] H; try exact I. destruct H as (Gi & Li & Gl). cbn [fst snd] in *.
    assert (Lp : safe False (fun r => match r with POk j a => gspan j /\ sp_len j < sp_len s /\ ast_ok a | _ => True end)
      (let* line := to_new_block l in recipe_loop (S (sp_len i)) c i line)).
    { eapply safe_bind; [apply to_new_block_safe, Gl|]. intros b (Wb & _).
      eapply safe_weak; [apply (recipe_loop_safe c A (sp_len i) (S (sp_len i)) i b Gi (Nat.lt_succ_diag_r _) (le_n _) (headed_wf b Wb))|auto|].
      intros [j a|ks|ks] Q; auto. destruct Q as (Gj & Lj & Qa). split; [exact Gj|]. split; [lia|exact Qa]. }
    destruct reason; [|exact Lp|exact Lp].
    unfold pbind. eapply safe_bind; [apply parse_ast_headed, Gl|]. intros [r a|ks|ks] Q; try exact I.
    cbn. split; [exact Gi|]. split; [lia|exact Q].
Qed.

(** * Conditionals *)

Fixpoint cond_ok (c : conditional) : Prop :=
  match c with
  | CIfDef a | CIfNDef a => ast_ok a
  | CIfEq a b | CIfNEq a b => ast_ok a /\ ast_ok b
  | CElse (Some c) => cond_ok c
  | CElse None | CEndIf => True
  end.

Lemma find_terminator_in : forall t l count boom i, find_terminator t count l boom = Ok (Some i) -> exists c, In (i, c) l.
Proof.
  intros t l. induction l as [|[j c] l IH]; cbn [find_terminator]; intros count boom i E; [destruct boom; discriminate|].
  assert (K : forall n, find_terminator t n l boom = Ok (Some i) -> exists d, In (i, d) ((j, c) :: l)).
  { intros n H. destruct (IH _ _ _ H) as (d & D). exists d. right. exact D. }
  destruct (c =? c_lparen)%N; [eauto|]. destruct (c =? c_rparen)%N.
  - destruct ((c =? t)%N && _); [|eauto]. inversion E; subst. exists c. left. reflexivity.
  - destruct ((c =? t)%N && _); [|eauto]. inversion E; subst. exists c. left. reflexivity.
Qed.

Lemma find_terminator_fuel : forall t l count boom, find_terminator t count l boom <> OutOfFuel.
Proof.
  intros t l. induction l as [|[j c] l IH]; cbn [find_terminator]; intros count boom; [destruct boom; discriminate|].
  destruct (c =? c_lparen)%N; [auto|]. destruct (c =? c_rparen)%N; destruct ((c =? t)%N && _); auto; discriminate.
Qed.

Lemma indices_lt : forall s i c, wf_span s -> In (i, c) (fst (span_indices s)) -> i < sp_len s.
Proof.
  intros s i c W H. rewrite indices_marks in H by exact W. cbn [fst] in H. apply in_combine_l in H. apply in_seq in H.
  rewrite span_marks_len in H by exact W. lia.
Qed.

Lemma terminator_safe : forall t, ascii t -> psafe (take_till_terminator t) part_of.
Proof.
  intros t A s G. unfold take_till_terminator. destruct ((t =? c_comma) || (t =? c_rparen))%N.
  - destruct (span_indices s) as [l boom] eqn:E. destruct (find_terminator t 0 l boom) as [[i|]| |] eqn:F; cbn [bind]; try exact I.
    + apply find_terminator_in in F as (c & Hc). assert (L : i < sp_len s).
      { apply (indices_lt s i c (proj1 G)). rewrite E. exact Hc. }
      eapply safe_bind; [apply slice_from_safe, G|]. intros r (Gr & _ & Lr). eapply safe_pbind with (P := fun _ => True).
      * eapply safe_pweak; [apply pchar_safe; eauto|lia|auto].
      * intros j _ Gj Lj _. apply safe_pok; auto. split; [apply slice_to_gspan; [exact G|lia]|cbn; lia].
    + exfalso. exact (find_terminator_fuel _ _ _ _ F).
  - eapply terminated_safe; [apply take_till_safe, G|]. intros i Gi Li. instantiate (1 := fun _ => True).
    eapply safe_pweak; [apply pchar_safe; eauto|lia|auto].
Qed.

Lemma pchar_map_safe : forall {A} (f : char -> A) c (P : A -> Prop) n s, ascii c -> gspan s -> sp_len s <= n -> P (f c) ->
  safe False (pgood n P) (pmap f (pchar c) s).
Proof.
  intros A f c P n s H G L Q. eapply pmap_safe; [eapply safe_pweak; [apply pchar_safe; eauto|lia|intros a E; exact E]|].
  intros a ->. exact Q.
Qed.

(** The rest of the parse is dropped. *)
Lemma safe_drop : forall {A B} F (p : parser A) (Q : span -> A -> Prop) (P : B -> Prop) n s (f : A -> res (presult B)),
  psafe p Q -> gspan s -> (forall a, Q s a -> safe F (pgood n P) (f a)) ->
  safe F (pgood n P) (let! (_j, a) := p s in f a).
Proof.
  intros A B F p Q P n s f H G K. unfold pbind. eapply safe_bind; [apply safe_false, H, G|].
  intros [i a|ks|ks] R; try exact I. apply K. apply R.
Qed.

Lemma parse_ifeq_safe : psafe parse_ifeq (fun _ out => ast_ok (fst out) /\ ast_ok (snd out)).
Proof.
  intros s G. unfold parse_ifeq. eapply safe_pbind with (P := ascii).
  - apply palt_safe. repeat constructor; (apply pchar_map_safe; [reflexivity|exact G|lia|reflexivity]).
  - intros i term Gi Li At. eapply safe_pbind with (P := gspan).
    { eapply safe_pweak; [apply terminator_safe; eauto|exact Li|]. intros a (Ga & _). exact Ga. }
    intros j arg1 Gj Lj Ga. eapply safe_drop; [apply parse_ast_safe|exact Ga|]. intros a1 A1.
    eapply safe_pbind with (P := fun _ => True).
    { eapply safe_pweak; [apply ws_safe; exact Gj|exact Lj|auto]. }
    intros k _ Gk Lk _. eapply safe_pbind with (P := ascii).
    { destruct (term =? c_comma)%N; [apply safe_pok; auto; reflexivity|].
      apply palt_safe. repeat constructor; (apply pchar_map_safe; [reflexivity|exact Gk|lia|reflexivity]). }
    intros k2 t2 Gk2 Lk2 At2. eapply safe_pbind with (P := gspan).
    { eapply safe_pweak; [apply terminator_safe; eauto|exact Lk2|]. intros a (Gb & _). exact Gb. }
    intros k3 arg2 Gk3 Lk3 Gb. eapply safe_drop; [apply parse_ast_safe|exact Gb|]. intros a2 A2.
    apply safe_pok; auto.
Qed.

(** A keyword was consumed, so the rest is strictly shorter. *)
Lemma keyword_safe : forall {A} (f : span -> A) t s, asciis t -> t <> [] -> gspan s ->
  safe False (pgood (sp_len s - 1) (fun _ => 0 < sp_len s)) (pmap f (tag_no_case t) s).
Proof.
  intros A f t s At N G. unfold pmap.
  pose proof (tag_no_case_safe t At s G) as P. destruct (tag_no_case t s) as [[r p|ks|ks]| |] eqn:E; cbn; auto.
  destruct (tag_no_case_rest t s r p At G E) as (L & L2). cbn in P. destruct P as (Gr & _ & _).
  assert (0 < List.length t) by (destruct t; [congruence|cbn; lia]). split; [exact Gr|]. split; lia.
Qed.

Lemma conditional_keyword_safe : forall s, gspan s ->
  safe False (pgood (sp_len s - 1) (fun _ => 0 < sp_len s)) (conditional_keyword s).
Proof.
  intros s G. unfold conditional_keyword, preceded. unfold pbind at 1.
  eapply safe_bind; [apply ws_safe, G|]. intros [i q|ks|ks] H; try exact I. destruct H as (Gi & Li & _).
  apply add_return_error_safe. eapply terminated_safe with (Q := fun _ => True).
  - eapply safe_pweak with (n := sp_len i - 1) (P := fun _ => 0 < sp_len i); [|lia|intros _ Z; cbn in Z; lia].
    apply palt_safe. repeat constructor; (apply keyword_safe; [repeat constructor|discriminate|exact Gi]).
  - intros j Gj Lj. eapply safe_pweak; [apply ws_safe, Gj|exact Lj|auto].
Qed.

Lemma conditional_fuel_safe : forall fuel s, gspan s -> sp_len s < fuel ->
  safe False (pgood (sp_len s) cond_ok) (conditional_line_fuel fuel s).
Proof.
  induction fuel as [|fuel IH]; intros s G L; [lia|]. cbn [conditional_line_fuel]. unfold pbind at 1.
  eapply safe_bind; [apply conditional_keyword_safe, G|]. intros [i tag|ks|ks] H; try exact I.
  destruct H as (Gi & Li & Z).
  assert (Def : forall f, (forall a, ast_ok a -> cond_ok (f a)) -> safe False (pgood (sp_len s) cond_ok)
     (let! (input, rest) := return_error MalformedIfDef parse_ast i in pok input (f rest))).
  { intros f Hf. eapply safe_pbind with (P := ast_ok).
    - apply return_error_safe. eapply safe_pweak; [apply parse_ast_safe, Gi|lia|auto].
    - intros j a Gj Lj Aa. apply safe_pok; auto. }
  assert (Eq : forall f, (forall a, ast_ok (fst a) /\ ast_ok (snd a) -> cond_ok (f a)) -> safe False (pgood (sp_len s) cond_ok)
     (let! (input, args) := parse_ifeq i in pok input (f args))).
  { intros f Hf. eapply safe_pbind with (P := fun out => ast_ok (fst out) /\ ast_ok (snd out)).
    - eapply safe_pweak; [apply parse_ifeq_safe, Gi|lia|auto].
    - intros j a Gj Lj Aa. apply safe_pok; auto. }
  destruct tag; try (apply Def; intros a Aa; exact Aa); try (apply Eq; intros a Aa; exact Aa).
  - eapply safe_pbind with (P := fun o => forall c, o = Some c -> cond_ok c).
    + unfold parse_else. unfold pbind at 1. eapply safe_bind; [apply ws_safe, Gi|].
      intros [j q|ks|ks] H; try exact I. destruct H as (Gj & Lj & _).
      destruct (0 <? sp_len j); [|apply safe_pok; auto; [lia|discriminate]].
      eapply safe_pbind with (P := cond_ok).
      * apply return_error_safe. eapply safe_pweak; [apply IH; [exact Gj|lia]|lia|auto].
      * intros k c Gk Lk Ck. destruct c; try exact I; (apply safe_pok; auto; intros d E; inversion E; subst; exact Ck).
    + intros j o Gj Lj Ho. apply safe_pok; auto. cbn. destruct o as [c|]; [|exact I]. apply Ho. reflexivity.
  - destruct (0 <? sp_len i); [exact I|]. apply safe_pok; auto; [lia|exact I].
Qed.

Lemma conditional_safe : psafe conditional_parse_line (fun _ c => cond_ok c).
Proof. intros s G. apply conditional_fuel_safe; [exact G|lia]. Qed.

(** * Assignments, directives, defines *)

Lemma assignment_operator_safe : psafe parse_assignment_operator (fun s out => part_of s (fst out)).
Proof.
  intros s G. unfold parse_assignment_operator. eapply safe_pbind; [apply take_till_safe, G|].
  intros i nm Gi Li Hn. eapply safe_pbind with (P := fun _ => True); [eapply safe_pweak; [apply ws_safe, Gi|exact Li|auto]|].
  intros j _ Gj Lj _. eapply safe_pbind with (P := fun _ => True).
  - apply palt_safe. repeat constructor;
      (eapply pmap_safe; [eapply safe_pweak; [apply tag_safe; [repeat constructor|exact Gj]|exact Lj|intros a H; exact H]|auto]).
  - intros k a Gk Lk _. eapply safe_pbind with (P := fun _ => True); [eapply safe_pweak; [apply ws_safe, Gk|exact Lk|auto]|].
    intros k2 _ G2 L2 _. apply safe_pok; auto.
Qed.

Lemma modifier_keyword_safe : forall s, gspan s ->
  safe False (pgood (sp_len s - 1) (fun _ => 0 < sp_len s)) (modifier_keyword s).
Proof.
  intros s G. unfold modifier_keyword. eapply terminated_safe with (Q := fun _ => True).
  - apply palt_safe. repeat constructor; (apply keyword_safe; [repeat constructor|discriminate|exact G]).
  - intros j Gj Lj. eapply safe_pweak; [apply ws_safe, Gj|exact Lj|auto].
Qed.

Definition directive_ok (d : directive) : Prop :=
  match d with
  | DiInclude a | DiSoftInclude a | DiExport a | DiUnexport a | DiVPath a | DiLoad a | DiSoftLoad a => ast_ok a
  end.

Lemma directive_safe : psafe directive_parse_line (fun _ d => directive_ok d).
Proof.
  intros s G. unfold directive_parse_line.
  assert (K : forall t f, asciis t -> (forall a, ast_ok a -> directive_ok (f a)) ->
    safe False (pgood (sp_len s) directive_ok) (pmap f (preceded (tag_no_case t) parse_ast) s)).
  { intros t f At Hf. eapply pmap_safe; [|exact Hf]. eapply preceded_safe; [apply tag_no_case_safe; eauto|].
    intros i Gi Li. eapply safe_pweak; [apply parse_ast_safe, Gi|exact Li|auto]. }
  apply palt_safe. repeat constructor; (apply K; [repeat constructor|intros a Aa; exact Aa]).
Qed.

Lemma tag_after : forall t s, asciis t -> wf_span s ->
  (exists r p, tag t s = Ok (POk r p) /\ after s (List.length t) r) \/ (exists ks, tag t s = Ok (PError ks)).
Proof.
  intros t s A W. pose proof (tag_ok s t W A) as T. destruct (starts_with t (span_text s)); [left|right; eauto].
  destruct T as (r & p & E & Sr & Sp & L). exists r, p. split; [exact E|].
  unfold tag in E. destruct (compare s t) as [[]| |]; try discriminate. cbn [bind] in E.
  assert (B : blen t = List.length t). { clear - A. induction A as [|c t Hc Ht IH]; [reflexivity|]. cbn. rewrite IH. unfold ascii in Hc. 
    rewrite (ascii_len c Hc). reflexivity. }
  rewrite B in E. unfold take_split in E. rewrite rassert_true in E by (apply Nat.leb_le; exact L). cbn [bind] in E.
  destruct (slice_from s (List.length t)) as [x| |] eqn:E3; try discriminate. cbn [bind] in E. injection E as <- _.
  now apply slice_from_after.
Qed.

Lemma line_with_end : forall t s, asciis t -> t <> [] -> gspan s ->
  safe False (fun r => match r with POk i l => gspan i /\ gspan l /\ sp_len i < sp_len s | _ => True end)
    (recognize (terminated (take_until t) (tag t)) s).
Proof.
  intros t s A N G. unfold recognize, terminated.
  destruct (take_until_cutter t A s (proj1 G)) as [(r & a & k & E & Af)|(ks & E)]; rewrite E; cbn [pbind bind]; [|exact I].
  assert (Wr : wf_span r) by apply Af.
  destruct (tag_after t r A Wr) as [(r2 & p & E2 & Af2)|(ks & E2)]; rewrite E2; cbn [pbind bind pok]; [|exact I].
  assert (A3 := after_trans _ _ _ _ _ Af Af2).
  eapply safe_bind; [exact (offset_after _ _ _ A3)|]. intros n Ln. cbn beta in Ln. destruct A3 as (S3 & L3 & _).
  cbn. split; [eapply sub_gspan; eauto|]. split; [apply slice_to_gspan; [exact G|lia]|].
  assert (0 < List.length t) by (destruct t; [congruence|cbn; lia]). apply sub_len in S3. lia.
Qed.

Lemma define_grab_safe : forall s, gspan s -> 0 < sp_len s -> no_hash_first s ->
  safe False (fun r => match r with POk i l => gspan i /\ gspan l /\ sp_len i < sp_len s | _ => True end) (define_grab_line s).
Proof.
  intros s G P N. unfold define_grab_line. cbn [palt].
  pose proof (take_until_ok s c_hash (proj1 G) eq_refl) as T. destruct (index_of (is_char c_hash) (span_text s)) as [n|] eqn:X.
  - destruct T as (r & p & E & Sr & Sp & L). rewrite E. cbn. split; [eapply sub_gspan; eauto|].
    split; [eapply sub_gspan; eauto|]. apply sub_len in Sr. destruct n as [|n]; [|lia].
    exfalso. rewrite span_text_marks in X. destruct (span_marks s) as [|m t] eqn:M; [discriminate|].
    cbn [List.map index_of] in X. destruct (is_char c_hash (mch m)) eqn:C; [|destruct (index_of (is_char c_hash) (List.map mch t)); discriminate X].
    apply N.eqb_eq in C. apply (N m t M). symmetry. exact C.
  - rewrite T. cbn [bind].
    eapply safe_bind; [apply line_with_end; [repeat constructor|discriminate|exact G]|]. intros [i l|ks|ks] H; cbn; auto.
    eapply safe_bind; [apply line_with_end; [repeat constructor|discriminate|exact G]|]. intros [i l|ks2|ks2] H2; cbn; auto.
    destruct (prest_ok s (proj1 G)) as (r & E & Sr). rewrite E. cbn. split; [eapply sub_gspan; eauto|].
    split; [exact G|]. apply sub_len in Sr. lia.
Qed.

Lemma span_location_fuel : forall s, span_location s <> OutOfFuel.
Proof. intros s. unfold span_location. destruct (span_segs s) as [[|l ls] [|]]; discriminate. Qed.

Lemma define_line_safe : forall s, gspan s -> 0 < sp_len s -> no_hash_first s ->
  safe False (fun r => match r with POk i d => gspan i /\ sp_len i < sp_len s /\ ast_ok (dl_content d) | _ => True end)
    (parse_define_line s).
Proof.
  intros s G P N. unfold parse_define_line. unfold pbind at 1.
  eapply safe_bind; [apply define_grab_safe; auto|]. intros [nl i|ks|ks] H; try exact I. destruct H as (Gn & Gi & Ln).
  eapply safe_bind with (P := fun _ => True).
  { pose proof (span_location_fuel i). destruct (span_location i); cbn; auto. }
  intros loc _. eapply safe_bind with (P := fun _ => True); [apply safe_unwrap; auto|]. intros l _.
  unfold pbind at 1. eapply safe_bind; [apply parse_ast_safe, Gi|]. intros [j a|ks|ks] H; try exact I. destruct H as (_ & _ & Aa).
  unfold pbind at 1. eapply safe_bind with (P := fun r => match r with POk i _ => gspan i | _ => True end).
  - eapply safe_weak with (F := False) (P := pgood (sp_len i) (fun _ => True)); [|auto|intros [x y|ks|ks] Q; auto; apply Q].
    eapply preceded_safe; [apply ws_safe, Gi|]. intros k Gk Lk. apply palt_safe.
    constructor; [|constructor; [|constructor; [|constructor]]].
    + eapply pmap_safe with (P := part_of k); [eapply safe_pweak; [apply tag_safe; [repeat constructor|exact Gk]|exact Lk|auto]|auto].
    + eapply pmap_safe with (P := part_of k); [eapply safe_pweak; [apply tag_safe; [repeat constructor|exact Gk]|exact Lk|auto]|auto].
    + eapply pmap_safe with (P := part_of k); [eapply safe_pweak; [apply prest_safe; exact Gk|exact Lk|auto]|auto].
  - intros [k act|ks|ks] Gk; try exact I. unfold pbind.
    eapply safe_bind; [apply take_till_safe, Gk|]. intros [k2 q|ks|ks] _; try exact I.
    destruct act; try (cbn; auto). destruct (negb (sp_len k2 =? 0)); cbn; auto.
Qed.

(** * Words of a rule line *)

Lemma skip_braces_suffix : forall o c count l stop boom st l', skip_braces o c count stop l boom = Ok (st, l') ->
  exists pre, l = pre ++ l' /\ (pre = [] -> st = stop).
Proof.
  intros o c count l. revert count. induction l as [|[i x] l IH]; cbn [skip_braces]; intros count stop boom st l' E.
  - destruct boom; inversion E; subst. exists []. auto.
  - assert (K : forall n b, skip_braces o c n b l boom = Ok (st, l') -> exists pre, (i, x) :: l = pre ++ l' /\ (pre = [] -> st = stop)).
    { intros n b H. destruct (IH _ _ _ _ _ H) as (pre & -> & _). exists ((i, x) :: pre). split; [reflexivity|discriminate]. }
    destruct (x =? o)%N; [eauto|]. destruct (x =? c)%N; [|eauto]. destruct count as [|[|n]]; [| |eauto];
      (inversion E; subst; exists [(i, x)]; split; [reflexivity|discriminate]).
Qed.

Lemma skip_braces_fuel : forall o c count l stop boom, skip_braces o c count stop l boom <> OutOfFuel.
Proof.
  intros o c count l. revert count. induction l as [|[i x] l IH]; cbn [skip_braces]; intros count stop boom; [destruct boom; discriminate|].
  destruct (x =? o)%N; [auto|]. destruct (x =? c)%N; [|auto]. destruct count as [|[|n]]; [discriminate|discriminate|auto].
Qed.

Lemma skip_braces_stop : forall o c count l stop boom st l', 1 <= stop -> skip_braces o c count stop l boom = Ok (st, l') -> 1 <= st.
Proof.
  intros o c count l. revert count. induction l as [|[i x] l IH]; cbn [skip_braces]; intros count stop boom st l' L E.
  - destruct boom; inversion E; subst. exact L.
  - destruct (x =? o)%N; [eapply IH; [|exact E]; lia|]. destruct (x =? c)%N; [|eapply IH; [|exact E]; lia].
    destruct count as [|[|n]]; [| |eapply IH; [|exact E]; lia]; inversion E; subst; lia.
Qed.

Lemma scan_fuel : forall fuel l boom stop reason prev, List.length l < fuel -> mword_scan fuel l boom stop reason prev <> OutOfFuel.
Proof.
  induction fuel as [|fuel IH]; intros l boom stop reason prev L; [lia|]. cbn [mword_scan]. destruct l as [|[i c] l]; [destruct boom; discriminate|].
  cbn [List.length] in L.
  assert (T : List.length (tl l) < fuel) by (destruct l; cbn in *; lia).
  destruct ((c =? c_space) || (c =? c_tab) || (c =? c_eq))%N; [discriminate|].
  destruct (c =? c_colon)%N.
  { destruct l as [|[j d] l]; cbn [peek]; [destruct boom; [discriminate|]; cbn [bind]; discriminate|]. cbn [bind].
    destruct (_ && _); [apply IH; lia|discriminate]. }
  destruct (c =? c_dollar)%N.
  { destruct l as [|[j d] l]; cbn [peek]; [destruct boom; [discriminate|]; cbn [bind]; discriminate|]. cbn [bind tl] in *.
    destruct (d =? c_dollar)%N; [apply IH; exact T|].
    destruct (d =? c_lparen)%N.
    { destruct (skip_braces c_lparen c_rparen 1 (j + 1) l boom) as [[st l']| |] eqn:E; cbn [bind]; [|discriminate|].
      - apply IH. apply skip_braces_suffix in E as (pre & -> & _). rewrite app_length in T. lia.
      - exfalso. exact (skip_braces_fuel _ _ _ _ _ _ E). }
    destruct (d =? c_lbrace)%N.
    { destruct (skip_braces c_lbrace c_rbrace 1 (j + 1) l boom) as [[st l']| |] eqn:E; cbn [bind]; [|discriminate|].
      - apply IH. apply skip_braces_suffix in E as (pre & -> & _). rewrite app_length in T. lia.
      - exfalso. exact (skip_braces_fuel _ _ _ _ _ _ E). }
    apply IH. exact T. }
  destruct (c =? c_bslash)%N.
  { destruct l as [|[j d] l]; cbn [peek]; [destruct boom; [discriminate|]; cbn [bind]; apply IH; cbn; lia|]. cbn [bind tl] in *.
    destruct (_ || _)%bool; apply IH; [exact T|exact (Nat.lt_le_trans _ _ _ (Nat.lt_succ_diag_r _) (le_S_n _ _ L))]. }
  destruct ((c =? 63) || (c =? 43))%N.
  { destruct l as [|[j d] l]; cbn [peek]; [destruct boom; [discriminate|]; cbn [bind]; apply IH; cbn; lia|]. cbn [bind] in *.
    destruct (d =? c_eq)%N; [discriminate|]. apply IH. lia. }
  apply IH. lia.
Qed.

Definition later_index (p : nat * char) : Prop := 1 <= fst p.

Lemma scan_pos : forall fuel l boom stop reason prev st r, Forall later_index l -> 1 <= stop \/ l <> [] ->
  mword_scan fuel l boom stop reason prev = Ok (st, r) -> 1 <= st.
Proof.
  induction fuel as [|fuel IH]; intros l boom stop reason prev st r Fl S E; [discriminate|]. cbn [mword_scan] in E.
  destruct l as [|[i c] l]; [destruct boom; inversion E; subst; destruct S; [assumption|congruence]|].
  inversion Fl as [|? ? Hi Fl']; subst. unfold later_index in Hi. cbn in Hi.
  assert (T : Forall later_index (tl l)) by (destruct l; cbn; [constructor|inversion Fl'; assumption]).
  assert (Br : forall o cl j st' l', skip_braces o cl 1 (j + 1) (tl l) boom = Ok (st', l') -> Forall later_index l' /\ 1 <= st').
  { intros o cl j st' l' H. split.
    - destruct (skip_braces_suffix _ _ _ _ _ _ _ _ H) as (pre & Q & _). rewrite Q in T. apply Forall_app in T. apply T.
    - eapply skip_braces_stop; [|exact H]. lia. }
  destruct ((c =? c_space) || (c =? c_tab) || (c =? c_eq))%N; [inversion E; subst; exact Hi|].
  destruct (c =? c_colon)%N.
  { destruct l as [|[j d] l]; cbn [peek] in E; [destruct boom; [discriminate|]; cbn [bind] in E; inversion E; subst; lia|]. cbn [bind] in E.
    destruct (_ && _); [eapply IH; [exact Fl'| |exact E]; lia|inversion E; subst; lia]. }
  destruct (c =? c_dollar)%N.
  { destruct l as [|[j d] l]; cbn [peek] in E; [destruct boom; [discriminate|]; cbn [bind] in E; inversion E; subst; lia|]. cbn [bind tl] in *.
    destruct (d =? c_dollar)%N; [eapply IH; [exact T| |exact E]; lia|].
    destruct (d =? c_lparen)%N.
    { destruct (skip_braces c_lparen c_rparen 1 (j + 1) l boom) as [[st' l']| |] eqn:E2; cbn [bind] in E; try discriminate.
      destruct (Br _ _ _ _ _ E2) as (B1 & B2). eapply IH; [exact B1|left; exact B2|exact E]. }
    destruct (d =? c_lbrace)%N.
    { destruct (skip_braces c_lbrace c_rbrace 1 (j + 1) l boom) as [[st' l']| |] eqn:E2; cbn [bind] in E; try discriminate.
      destruct (Br _ _ _ _ _ E2) as (B1 & B2). eapply IH; [exact B1|left; exact B2|exact E]. }
    eapply IH; [exact T| |exact E]. lia. }
  destruct (c =? c_bslash)%N.
  { destruct l as [|[j d] l]; cbn [peek] in E; [destruct boom; [discriminate|]; cbn [bind] in E; eapply IH; [constructor| |exact E]; lia|]. cbn [bind tl] in *.
    destruct (_ || _)%bool; (eapply IH; [| |exact E]; [assumption|lia]). }
  destruct ((c =? 63) || (c =? 43))%N.
  { destruct l as [|[j d] l]; cbn [peek] in E; [destruct boom; [discriminate|]; cbn [bind] in E; eapply IH; [constructor| |exact E]; lia|]. cbn [bind] in *.
    destruct (d =? c_eq)%N; [inversion E; subst; exact Hi|]. eapply IH; [exact Fl'| |exact E]. lia. }
  eapply IH; [exact Fl'| |exact E]. lia.
Qed.

(** The operators tried by [next_mword]. *)
Definition mword_tags : list (str * mword_end) :=
  [(lit ";", MwSemicolon); (lit "=", MwVarAssign); (lit ":=", MwVarAssign); (lit "::=", MwVarAssign); (lit "::", MwDColon);
   (lit ":", MwColon); (lit "+=", MwVarAssign); (lit "?=", MwVarAssign); (lit "!=", MwVarAssign)].

Definition tag_as (x : str * mword_end) : parser (span * mword_end) := pmap (fun c : span => (c, snd x)) (tag (fst x)).

Lemma mword_alt : forall s l, gspan s -> Forall (fun x : str * mword_end => asciis (fst x) /\ fst x <> []) l ->
  (exists i m r, palt (List.map tag_as l) s = Ok (POk i (m, r)) /\ gspan i /\ gspan m /\ sp_len i < sp_len s) \/
  ((exists ks, palt (List.map tag_as l) s = Ok (PError ks)) /\ Forall (fun x => starts_with (fst x) (span_text s) = false) l).
Proof.
  intros s l G A. induction A as [|[t m] l (At & N) Al IH]; cbn [List.map palt].
  - right. split; [exists [KNom]; reflexivity|constructor].
  - cbn [fst snd] in *. pose proof (tag_ok s t (proj1 G) At) as T.
    assert (E : tag_as (t, m) s = if starts_with t (span_text s) then tag_as (t, m) s else Ok (PError [KNom])).
    { destruct (starts_with t (span_text s)); [reflexivity|]. unfold tag_as, pmap. cbn [fst snd]. rewrite T. reflexivity. }
    destruct (starts_with t (span_text s)) eqn:S.
    + destruct T as (r & p & Et & Sr & Sp & L). unfold tag_as at 1, pmap. cbn [fst snd]. rewrite Et. cbn [pbind bind pok].
      left. exists r, p, m. split; [reflexivity|].
      split; [eapply sub_gspan; eauto|]. split; [eapply sub_gspan; eauto|]. apply sub_len in Sr.
      assert (0 < List.length t) by (destruct t; [congruence|cbn; lia]). lia.
    + rewrite E. cbn [bind]. destruct IH as [IH|(E' & Fs)]; [left; exact IH|]. right. split; [exact E'|]. constructor; auto.
Qed.

Lemma scan_first : forall fuel c l st r, blank c = false -> Forall (fun x => starts_with (fst x) (c :: List.map snd l) = false) mword_tags ->
  Forall later_index l -> mword_scan fuel ((0, c) :: l) false 0 MwStatic 0%N = Ok (st, r) -> 1 <= st.
Proof.
  intros fuel c l st r B T Fl E. destruct fuel as [|fuel]; [discriminate|]. cbn [mword_scan] in E.
  assert (Hin : forall x, In x mword_tags -> starts_with (fst x) (c :: List.map snd l) = false) by (apply Forall_forall; exact T).
  assert (Tl : Forall later_index (tl l)) by (destruct l; cbn; [constructor|inversion Fl; assumption]).
  assert (Br : forall o cl j st' l', skip_braces o cl 1 (j + 1) (tl l) false = Ok (st', l') -> Forall later_index l' /\ 1 <= st').
  { intros o cl j st' l' H. split.
    - destruct (skip_braces_suffix _ _ _ _ _ _ _ _ H) as (pre & Q & _). rewrite Q in Tl. apply Forall_app in Tl. apply Tl.
    - eapply skip_braces_stop; [|exact H]. lia. }
  destruct ((c =? c_space) || (c =? c_tab) || (c =? c_eq))%N eqn:C1.
  { exfalso. unfold blank in B. apply orb_false_iff in B as (B1 & B2). unfold c_space, c_tab in C1. rewrite B1, B2 in C1. cbn [orb] in C1. apply N.eqb_eq in C1. subst c.
    pose proof (Hin (lit "=", MwVarAssign) ltac:(cbn; tauto)) as H; cbn in H; discriminate. }
  destruct (c =? c_colon)%N eqn:C2.
  { exfalso. apply N.eqb_eq in C2. subst c.
    pose proof (Hin (lit ":", MwColon) ltac:(cbn; tauto)) as H; cbn in H; discriminate. }
  destruct (c =? c_dollar)%N.
  { destruct l as [|[j d] l]; cbn [peek] in E; [cbn [bind] in E; inversion E; subst; lia|]. cbn [bind tl] in *.
    destruct (d =? c_dollar)%N; [eapply scan_pos; [exact Tl| |exact E]; lia|].
    destruct (d =? c_lparen)%N.
    { destruct (skip_braces c_lparen c_rparen 1 (j + 1) l false) as [[st' l']| |] eqn:E2; cbn [bind] in E; try discriminate.
      destruct (Br _ _ _ _ _ E2) as (B1 & B2). eapply scan_pos; [exact B1|left; exact B2|exact E]. }
    destruct (d =? c_lbrace)%N.
    { destruct (skip_braces c_lbrace c_rbrace 1 (j + 1) l false) as [[st' l']| |] eqn:E2; cbn [bind] in E; try discriminate.
      destruct (Br _ _ _ _ _ E2) as (B1 & B2). eapply scan_pos; [exact B1|left; exact B2|exact E]. }
    eapply scan_pos; [exact Tl| |exact E]. lia. }
  destruct (c =? c_bslash)%N.
  { destruct l as [|[j d] l]; cbn [peek bind] in E; [eapply scan_pos; [constructor| |exact E]; lia|]. cbn [bind tl] in *.
    destruct ((d =? c_colon) || _ || _ || _)%N; (eapply scan_pos; [| |exact E]; [assumption|lia]). }
  destruct ((c =? 63) || (c =? 43))%N eqn:C3.
  { destruct l as [|[j d] l]; cbn [peek bind] in E; [eapply scan_pos; [constructor| |exact E]; lia|].
    destruct (d =? c_eq)%N eqn:D; [|eapply scan_pos; [exact Fl| |exact E]; right; discriminate].
    exfalso. apply N.eqb_eq in D. subst d. apply orb_true_iff in C3 as [C3|C3]; apply N.eqb_eq in C3; subst c.
    - pose proof (Hin (lit "?=", MwVarAssign) ltac:(cbn; tauto)) as H; cbn in H; discriminate.
    - pose proof (Hin (lit "+=", MwVarAssign) ltac:(cbn; tauto)) as H; cbn in H; discriminate. }
  eapply scan_pos; [exact Fl| |exact E]. lia.
Qed.

Lemma later_combine : forall n k (l : list char), 1 <= n -> Forall later_index (combine (seq n k) l).
Proof.
  intros n k l L. apply Forall_forall. intros [i c] H. apply in_combine_l in H. apply in_seq in H. unfold later_index. cbn. lia.
Qed.

Lemma map_snd_combine : forall n (l : list char), List.map snd (combine (seq n (List.length l)) l) = l.
Proof. intros n l. revert n. induction l as [|c l IH]; intros n; cbn; [reflexivity|]. now rewrite IH. Qed.

Lemma next_mword_safe : forall s, gspan s ->
  safe False (fun r => match r with
    | POk i out => gspan i /\ gspan (fst out) /\ sp_len i <= sp_len s /\ (sp_len i < sp_len s \/ sp_len (fst out) = 0)
    | _ => True end) (next_mword s).
Proof.
  intros s G. unfold next_mword. unfold pbind at 1.
  destruct (whitespace_marks s (proj1 G)) as (i & q & E & R & M). rewrite E. cbn [bind].
  assert (Gi : gspan i) by (eapply sub_gspan; eauto). assert (Li : sp_len i <= sp_len s) by (apply sub_len in R; lia).
  match goal with |- safe False _ (let* r := palt ?l i in _) => change l with (List.map tag_as mword_tags) end.
  assert (A : Forall (fun x : str * mword_end => asciis (fst x) /\ fst x <> []) mword_tags) by (repeat constructor; discriminate).
  destruct (mword_alt i mword_tags Gi A) as [(j & m & r & P & Gj & Gm & Lj)|((ks & P) & Fs)]; rewrite P; cbn [bind].
  - cbn. split; [exact Gj|]. split; [exact Gm|]. lia.
  - clear P. destruct (span_indices i) as [l boom] eqn:Ix.
    pose proof (indices_marks i (proj1 Gi)) as Ix2. rewrite Ix in Ix2. inversion Ix2 as [[El Eb]]. clear Ix2. subst boom. rewrite <- El.
    destruct (mword_scan (S (List.length l)) l false 0 MwStatic 0%N) as [[stop reason]| |] eqn:Sc; cbn [bind]; try exact I;
      [|exact (scan_fuel _ _ _ _ _ _ (Nat.lt_succ_diag_r _) Sc)].
    eapply safe_bind; [apply take_split_safe, Gi|]. intros [k cap] (Gk & Gc & Ls & Lk & Lc). cbn [fst snd] in *. cbn.
    split; [exact Gk|]. split; [exact Gc|]. split; [lia|].
    destruct (span_marks i) as [|[c mm] t] eqn:Mi.
    + right. assert (sp_len i = 0) by (rewrite <- (span_marks_len i (proj1 Gi)), Mi; reflexivity). lia.
    + left. assert (1 <= stop); [|lia]. cbn [List.length seq combine List.map fst] in El.
      rewrite El in Sc. eapply scan_first; [| | |exact Sc].
      * assert (H : forall l : list (char * _), lstrip mch l = (c, mm) :: t -> blank c = false).
        { clear. unfold lstrip. induction l as [|a l IH]; cbn; intros H; [discriminate|]. destruct (blank (mch a)) eqn:B; [auto|].
          inversion H; subst. exact B. }
        eapply H. rewrite <- M. reflexivity.
      * rewrite span_text_marks, Mi in Fs. cbn [List.map] in Fs. rewrite <- (map_length fst t). rewrite map_snd_combine. exact Fs.
      * apply later_combine. lia.
Qed.
