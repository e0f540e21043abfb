(** Text-level makefile semantics: what blank lines, comments, conditional
    directives, ignored lines and assignments do. *)
From Coq Require Import String ZArith.
From Verif Require Import Base LocModel EvdModel NomModel AstModel ParseModel AstParseModel EngineModel
  EvdSpec DbSpec ParseSpec EvalSpec AstParseSpec EngineSpec MakeSpec
  EvdProofs EvdProofs3 ParseProofs ParseProofs2 ParseProofs4 ParseProofs5 EvalProofs2 EvalProofs3 EvalProofs4 FuelProofs
  DbProofs EvdProofs2 AstParseProofs AstParseProofs2 AstParseProofs3 PieceProofs SafeProofs SafeProofs2 SafeProofs3 SafeProofs4
  EngineProofs EngineProofs2 EngineProofs3 MakeProofs MakeProofs2 MakeProofs3.
Local Open Scope nat_scope.

(** * Worlds that differ in interned variable names *)
Lemma sbn_grown : forall w w', same_but_names w w' -> grown w w'.
Proof.
  intros w w' (_ & C & F & V). split; [exact V|]. split; [|exact C]. intros t i. unfold file_name. rewrite F. auto.
Qed.
Lemma sbn_good : forall w w', same_but_names w w' -> world_good w -> world_good w'.
Proof. intros w w' S G. exact (good_grown w w' G (sbn_grown _ _ S) (proj1 S)). Qed.
Lemma state_grown : forall s w w', state_ok s w -> grown w w' -> state_ok s w'.
Proof. intros s w w' (R & D) G. split; [exact R|]. intros d E. exact (grown_id _ _ _ G (D d E)). Qed.

Lemma block_len_marks : forall b, wf_block b -> block_len b = List.length (block_marks b).
Proof. intros b W. rewrite <- (block_span_marks b W), span_marks_len by apply block_span_wf, W. reflexivity. Qed.

(** * Steps *)

(** The engine in [s], [w] at [i] gets to [st'] and [rest] with the next line. *)
Definition gets_to (fs : str -> file) (s : pstate) (w : world) (i : span) (st' : mstate) (rest : text) : Prop :=
  exists s' w' i' enough, (forall fuel, enough <= fuel -> engine_line fs fuel s w i = Ok (s', w', POk i' tt)) /\
    at_text i' rest /\ sim st' s' w'.

Lemma comment_step : forall fs st s w i t rest, sim st s w -> at_text i t -> comment_text t rest -> gets_to fs s w i st rest.
Proof.
  intros fs st s w i t rest SI A C. destruct (comment_at i t rest A C) as (r & E & Ar).
  exists s, w, r, 0. split; [|split; [exact Ar|exact SI]]. intros fuel _. unfold engine_line, parse_line. rewrite E. reflexivity.
Qed.

Lemma blank_step : forall fs st s w i t rest, sim st s w -> at_text i t -> ~ is_comment_text t -> directly st t -> line_text t [] rest ->
  gets_to fs s w i st rest.
Proof.
  intros fs st s w i t rest SI A NC DR L.
  destruct (line_start fs st s w i t [] rest SI A NC DR L) as (r & b & Ar & W & _ & M & E).
  exists s, w, r, 0. split; [|split; [exact Ar|exact SI]]. intros fuel _. rewrite E.
  rewrite (block_len_marks b W), M. reflexivity.
Qed.

(** A line with something on it. *)
Lemma solid_start : forall fs st s w i t l rest, sim st s w -> at_text i t -> ~ is_comment_text t -> directly st t -> line_text t l rest -> solid l ->
  exists r b, at_text r rest /\ wf_block b /\ tidy_block b /\ block_marks b = l /\ wf_span (block_span b) /\ span_marks (block_span b) = l /\
    forall fuel, engine_line fs fuel s w i =
        let* c := conditional_parse_line (block_span b) in
        run_parser s w r c (handle_conditional (eval_fuel fs fuel) s w)
          (fun _ => if ps_ignoring s then Ok (s, w, POk r tt)
                    else parse_active_line (eval_fuel fs fuel) (read_makefile_with (process_fuel fs fuel)) fs s w r b).
Proof.
  intros fs st s w i t l rest SI A NC DR L S.
  destruct (line_start fs st s w i t l rest SI A NC DR L) as (r & b & Ar & W & F & M & E).
  exists r, b. split; [exact Ar|]. split; [exact W|]. split; [exact F|]. split; [exact M|]. split; [apply block_span_wf, W|].
  split; [rewrite (block_span_marks b W); exact M|]. intros fuel. rewrite E, (block_len_marks b W), M.
  destruct S as (c & u & -> & _). reflexivity.
Qed.

Lemma ignored_step : forall fs st s w i t l rest, sim st s w -> at_text i t -> ~ is_comment_text t -> directly st t -> line_text t l rest -> solid l ->
  m_ignoring st = true -> unconditional l -> gets_to fs s w i st rest.
Proof.
  intros fs st s w i t l rest SI A NC DR L S IG N.
  destruct (solid_start fs st s w i t l rest SI A NC DR L S) as (r & b & Ar & W & F & M & WS & MS & E).
  exists s, w, r, 0. split; [|split; [exact Ar|exact SI]]. intros fuel _. rewrite E.
  rewrite <- MS in S, N. destruct (conditional_none _ WS F S N) as (ks & Ek). rewrite Ek. cbn [bind run_parser].
  rewrite (sim_ignoring _ _ _ SI), IG. reflexivity.
Qed.

(** ** Conditionals *)
Lemma stands_expression : forall D e t m, env_rep D e -> stands_for D t m -> expression t.
Proof.
  intros D e t m R S. destruct (proj1 (stands_means D _ R) _ _ S) as [d [H _]]. destruct (means_reads _ _ _ _ _ H) as [ns X].
  exact (reads_reads_ast _ _ _ X).
Qed.

Lemma reads_evaluates : forall fs D w t a m, world_ok w -> env_rep D (world_env w) -> reads_ast True t a -> ast_ok a -> stands_for D t m ->
  exists w' b enough, (forall fuel, enough <= fuel -> eval_fuel fs fuel w a = Ok (w', b)) /\
    block_marks b = m /\ block_into_string b = Ok (chars m) /\ same_but_names w w' /\ depends_on w' (looks_up D t) b.
Proof.
  intros fs D w t a m W R RA A S. destruct (proj1 (stands_means D _ R) _ _ S) as [d [H EX]].
  pose proof (proj1 (proj2 (reads_means True (world_env w))) t a RA m d H) as X.
  destruct (expands_fixed fs w a m d _ W A X EX) as (w' & b & en & E & M & I & S' & _ & DO). exists w', b, en. auto.
Qed.

Lemma str_eqb_dec : forall a b, str_eqb a b = if list_eq_dec N.eq_dec a b then true else false.
Proof.
  intros a b. destruct (list_eq_dec N.eq_dec a b) as [E|N].
  - apply str_eqb_eq. exact E.
  - destruct (str_eqb a b) eqn:Q; [|reflexivity]. apply str_eqb_eq in Q. contradiction.
Qed.

Lemma sim_conds_set : forall st s w c st' ig, sim st s w -> List.map (fun c => (cs_executing c, cs_seen_else c)) c = st' ->
  sim (with_conds st st' ig) (PState c ig (ps_rule s) (ps_define s)) w.
Proof. intros st s w c st' ig [E C I R RS D F K Kd] H. constructor; cbn; auto. Qed.

(** What `handle_conditional` does for a comparison. *)
Lemma compare_handled : forall fs st s w (eq : bool) ta tb a b m n, sim st s w -> world_good w ->
  reads_ast True ta a -> reads_ast True tb b -> ast_ok a -> ast_ok b -> stands_for (m_defs st) ta m -> stands_for (m_defs st) tb n ->
  exists s' w' enough, (forall fuel, enough <= fuel ->
      handle_conditional (eval_fuel fs fuel) s w (if eq then CIfEq a b else CIfNEq a b) = Ok (s', w', HOk)) /\
    let holds := if list_eq_dec N.eq_dec (trim (chars m)) (trim (chars n)) then eq else negb eq in
    sim (with_conds st ((holds, false) :: m_conds st) (not_taken ((holds, false) :: m_conds st))) s' w'.
Proof.
  intros fs st s w eq ta tb a b m n SI G RA RB OA OB SA SB.
  destruct (reads_evaluates fs _ w _ _ _ (proj1 G) (sim_env _ _ _ SI) RA OA SA) as (w1 & x & e1 & E1 & M1 & I1 & S1 & _).
  pose proof (sbn_good _ _ S1 G) as G1. pose proof (sim_same _ _ _ _ SI (proj1 G) S1) as SI1.
  destruct (reads_evaluates fs _ w1 _ _ _ (proj1 G1) (sim_env _ _ _ SI1) RB OB SB) as (w2 & y & e2 & E2 & M2 & I2 & S2 & _).
  pose proof (sim_same _ _ _ _ SI1 (proj1 G1) S2) as SI2.
  set (holds := if list_eq_dec N.eq_dec (trim (chars m)) (trim (chars n)) then eq else negb eq).
  exists (PState (CondState holds false :: ps_conds s) (not_taken ((holds, false) :: m_conds st)) (ps_rule s) (ps_define s)), w2, (Nat.max e1 e2).
  split.
  - intros fuel L.
    assert (Q : (if eq then CIfEq a b else CIfNEq a b) = (if eq then CIfEq a b else CIfNEq a b)) by reflexivity.
    assert (X : forall c, (c = CIfEq a b /\ eq = true) \/ (c = CIfNEq a b /\ eq = false) ->
      handle_conditional (eval_fuel fs fuel) s w c =
      Ok (PState (CondState holds false :: ps_conds s) (not_taken ((holds, false) :: m_conds st)) (ps_rule s) (ps_define s), w2, HOk)).
    { intros c Hc. assert (Y : handle_conditional (eval_fuel fs fuel) s w c =
        Ok (update_ignoring (PState (CondState holds false :: ps_conds s) (ps_ignoring s) (ps_rule s) (ps_define s)), w2, HOk)).
      { destruct Hc as [(-> & He)|(-> & He)]; cbn [handle_conditional]; rewrite E1 by lia; cbn [bind]; rewrite E2 by lia; cbn [bind];
          rewrite I1, I2; cbn [bind]; rewrite str_eqb_dec; unfold holds; rewrite He; destruct (list_eq_dec _ _ _); reflexivity. }
      rewrite Y. unfold update_ignoring. cbn [ps_conds ps_ignoring ps_rule ps_define]. rewrite not_taken_stack. cbn [List.map cs_executing cs_seen_else].
      pose proof (sim_conds _ _ _ SI) as C. unfold stack in C. rewrite C. reflexivity. }
    apply X. destruct eq; auto.
  - apply sim_conds_set; [exact SI2|]. cbn. f_equal. exact (sim_conds _ _ _ SI2).
Qed.

Lemma conditional_step : forall fs st s w i t l rest e c, sim st s w -> world_good w -> at_text i t -> ~ is_comment_text t -> directly st t ->
  line_text t l rest -> solid l -> conditional_line (m_defs st) l e -> enter (m_conds st) e = Some c ->
  gets_to fs s w i (with_conds st c (ignoring_after (m_ignoring st) e c)) rest.
Proof.
  intros fs st s w i t l rest e c SI G A NC DR L S CL EN.
  destruct (solid_start fs st s w i t l rest SI A NC DR L S) as (r & b & Ar & W & F & M & WS & MS & E).
  assert (Fs : tidy (block_span b)) by exact F.
  assert (CMP : forall (eq : bool) rest0 x y m n, keyword (if eq then "ifeq" else "ifneq") l rest0 -> two_arguments (lstrip fst rest0) x y ->
    stands_for (m_defs st) x m -> stands_for (m_defs st) y n ->
    EvIf (if list_eq_dec N.eq_dec (trim (chars m)) (trim (chars n)) then eq else negb eq) = e ->
    gets_to fs s w i (with_conds st c (ignoring_after (m_ignoring st) e c)) rest).
  { intros eq rest0 x y m n Kw T X Y <-. rewrite <- MS in Kw, S.
    destruct (ifeq_line _ eq rest0 x y WS Fs S Kw T) as (j & ax & ay & P & RX & RY & OX & OY).
    { exact (stands_expression _ _ _ _ (sim_env _ _ _ SI) X). } { exact (stands_expression _ _ _ _ (sim_env _ _ _ SI) Y). }
    destruct (compare_handled fs st s w eq x y ax ay m n SI G RX RY OX OY X Y) as (s' & w' & en & H & SI').
    exists s', w', r, en. split; [|split; [exact Ar|]].
    - intros fuel Lf. rewrite E, P. cbn [bind run_parser]. rewrite (H fuel Lf). reflexivity.
    - cbn [enter] in EN. injection EN as <-. exact SI'. }
  destruct CL as [l rest0 x y m n Kw T X Y|l rest0 x y m n Kw T X Y|l rest0 Kw B|l rest0 Kw B].
  - exact (CMP true rest0 x y m n Kw T X Y eq_refl).
  - exact (CMP false rest0 x y m n Kw T X Y eq_refl).
  - rewrite <- MS in Kw, S. destruct (else_line _ _ WS S Kw B) as (j & P).
    pose proof (sim_conds _ _ _ SI) as C. destruct (m_conds st) as [|(tk, [|]) cs] eqn:Q; try discriminate EN. cbn in EN. injection EN as <-.
    unfold stack in C. destruct (ps_conds s) as [|[ex seen] pcs] eqn:PC; [discriminate|]. cbn in C. injection C as -> -> C.
    exists (update_ignoring (PState (CondState (negb tk) true :: pcs) (ps_ignoring s) (ps_rule s) (ps_define s))), w, r, 0.
    split; [|split; [exact Ar|]].
    + intros fuel _. rewrite E, P. cbn [bind run_parser handle_conditional]. rewrite PC. reflexivity.
    + unfold update_ignoring. cbn [ps_conds ps_ignoring ps_rule ps_define]. rewrite not_taken_stack. cbn [List.map cs_executing cs_seen_else].
      rewrite C. apply sim_conds_set; [exact SI|]. cbn. f_equal. exact C.
  - rewrite <- MS in Kw, S. destruct (endif_line _ _ WS S Kw B) as (j & P).
    pose proof (sim_conds _ _ _ SI) as C. destruct (m_conds st) as [|c0 cs] eqn:Q; try discriminate EN. cbn in EN. injection EN as <-.
    unfold stack in C. destruct (ps_conds s) as [|pc pcs] eqn:PC; [discriminate|]. cbn in C. injection C as C0 C.
    exists (PState pcs (ps_ignoring s) (ps_rule s) (ps_define s)), w, r, 0.
    split; [|split; [exact Ar|]].
    + intros fuel _. rewrite E, P. cbn [bind run_parser handle_conditional]. rewrite PC. reflexivity.
    + cbn [ignoring_after]. rewrite <- (sim_ignoring _ _ _ SI). apply sim_conds_set; [exact SI|exact C].
Qed.

(** ** Assignments *)

Lemma assignment_parts : forall s name k v, wf_span s -> tidy s -> assigns (span_marks s) name k v ->
  exists r nm, parse_assignment_operator s = Ok (POk r (nm, k)) /\ moves s nm name /\ moves s r v.
Proof.
  intros s name k v W F (bl & op & post & E & Hn & Hb & I & ->).
  destruct (assignment_operator_ok s name bl op k post W E Hn Hb I) as (r & nm & P & Wn & Wr & Mn & Mr & a & Sb).
  exists r, nm. split; [exact P|]. split; [|split; [exact (sub_keeps _ _ _ _ Sb)|exact Mr]].
  split; [|exact Mn]. unfold parse_assignment_operator in P.
  apply pbind_inv in P as (j & q & P1 & P). apply pbind_inv in P as (j2 & q2 & P2 & P). apply pbind_inv in P as (j3 & q3 & P3 & P).
  destruct (take_till_marks s ends_name W) as (r' & q' & P1' & _ & _ & _ & _ & _ & Sq). rewrite P1' in P1. injection P1 as -> ->.
  destruct (makefile_whitespace j3) as [[? ?|?|?]| |]; cbn in P; try discriminate P. injection P as _ <- _. exact (sub_keeps _ _ _ _ Sq).
Qed.

Definition value_read (D : defs) (w : world) (k : assignment) (v : text) (m : text) (va : ast) : Prop :=
  (k = AsSimple /\ exists l b, va = APre l b /\ block_marks b = m /\ ((forall ps, text_in D v ps -> alike (List.map cref_marks (b_content b)) ps) /\ shaped v b) /\ depends_on w (looks_up D v) b) \/ (k <> AsSimple /\ reads_ast True v va).

Lemma assignment_at : forall fs D w s name nm k v m, wf_span s -> tidy s -> world_good w -> env_rep D (world_env w) ->
  assigns (span_marks s) name k v -> stands_for D name nm ->
  (k = AsSimple -> v <> [] /\ stands_for D v m) -> (k <> AsSimple -> expression v) ->
  exists w' r id va enough, (forall fuel, enough <= fuel -> parse_variable_assignment (eval_fuel fs fuel) no_modifiers w s =
      Ok (w', POk r (VariableAction id no_modifiers (assignment_action k va)))) /\
    same_but_names w w' /\ variable_name (w_names w') (trim (chars nm)) = Some id /\ value_read D w' k v m va.
Proof.
  intros fs D w s name nm k v m W F G R AS SN H1 H2.
  destruct (assignment_parts s name k v W F AS) as (r & ns & P & (Kn & Mn) & (Kr & Mr)).
  destruct (whitespace_keeps r (proj1 Kr)) as (r2 & q & P2 & K2 & M2). rewrite Mr in M2.
  assert (Z : lstrip fst v = v). { destruct AS as (? & ? & post & _ & _ & _ & _ & ->). apply lstrip_twice. }
  rewrite Z in M2. clear Z.
  rewrite <- Mn in SN.
  destruct (text_evaluates fs D w ns nm (proj1 G) R (proj1 Kn) (proj1 (proj2 (proj2 Kn)) F) SN) as (rn & an & Pn & _ & _ & An & w1 & b1 & e1 & E1 & M1 & I1 & S1 & _).
  destruct (world_intern_variable w1 (trim (chars nm))) as [w2 id] eqn:EI. destruct (intern_world _ _ _ _ EI) as (S2 & N2).
  assert (S12 : same_but_names w w2) by exact (sbn_trans _ _ _ S1 S2).
  assert (F2 : tidy r2) by exact (proj1 (proj2 (proj2 K2)) (proj1 (proj2 (proj2 Kr)) F)).
  assert (k = AsSimple \/ k <> AsSimple) as [->|NK] by (destruct k; auto; right; discriminate).
  - destruct (H1 eq_refl) as (Nv & Sv). rewrite <- M2 in Sv.
    assert (R2 : env_rep D (world_env w2)). { eapply env_rep_ext; [exact R|]. apply sbn_env; [exact S12|exact (proj1 G)]. }
    destruct (text_evaluates fs D w2 r2 m (sbn_ok _ _ S12 (proj1 G)) R2 (proj1 K2) F2 Sv) as (rv & av & Pv & _ & Rv & Av & w3 & b3 & e3 & E3 & M3 & I3 & S3 & O3 & D3). rewrite M2 in Rv, D3.
    pose proof (location_cases r2 (proj1 K2)) as LC. rewrite M2 in LC.
    destruct v as [|v0 v]; [congruence|]. cbn in LC. destruct (span_location r2) as [l| |] eqn:EL; [|exfalso; apply LC, F2|contradiction]. subst l.
    exists w3, rv, id, (APre (snd v0) b3), (Nat.max e1 e3). split; [|split; [|split]].
    + intros fuel L. unfold parse_variable_assignment, wbind. rewrite P. cbn [bind]. rewrite P2. cbn [bind].
      rewrite Pn. cbn [bind]. rewrite Pv. cbn [bind]. rewrite E1 by lia. cbn [bind]. rewrite I1. cbn [bind]. rewrite EI.
      rewrite E3 by lia. cbn [bind]. rewrite EL. reflexivity.
    + exact (sbn_trans _ _ _ S12 S3).
    + exact (sbn_name _ _ _ _ S3 N2).
    + left. split; [reflexivity|]. exists (snd v0), b3. split; [reflexivity|]. split; [exact M3|]. split; [|exact D3]. split.
      * intros ps T. destruct (proj2 (proj2 (proj2 (proj2 (stands_means D _ R2)))) _ _ (VN_deferred D FlRecursive _ _ T) av (Rep_deferred _ _ _ Rv)) as (qs & d & Q & Al & _).
        exact (alike_trans _ _ _ (proj1 O3 qs d Q) Al).
      * intros Nd U. split; [exact (const_flat fs e3 w2 av w3 b3 _ Nd U Rv (E3 e3 (le_n _)))|]. exact (proj2 O3 (proj1 (reads_plain_whole True _ _ Logic.I Nd U Rv))).
  - specialize (H2 NK). rewrite <- M2 in H2.
    destruct (parse_at r2 (proj1 K2) F2 H2) as (rv & av & Pv & Rv & _ & Av). rewrite M2 in Rv.
    exists w2, rv, id, av, e1. split; [|split; [|split]].
    + intros fuel L. unfold parse_variable_assignment, wbind. rewrite P. cbn [bind]. rewrite P2. cbn [bind].
      rewrite Pn. cbn [bind]. rewrite Pv. cbn [bind]. rewrite E1 by lia. cbn [bind]. rewrite I1. cbn [bind]. rewrite EI.
      destruct k; try contradiction; reflexivity.
    + exact S12.
    + exact N2.
    + right. auto.
Qed.

Lemma sim_set_var : forall st s w x id d vp value, sim st s w -> variable_name (w_names w) x = Some id ->
  get_variable d id = Some vp -> rep value (v_ast vp) -> v_flavor vp = kind_of value -> v_origin vp = OrFile -> (forall j, j <> id -> get_variable d j = get_variable (w_db w) j) ->
  db_rules d = db_rules (w_db w) -> (forall t m P l b, value = Fixed t m P -> v_ast vp = APre l b -> depends_on w P b) ->
  sim (with_defs st (set (m_defs st) x value)) s (set_db w d).
Proof.
  intros st s w x id d vp value [E C I R RS D F K Kd Fx] N V RP Fl Og O Ru Fv. constructor; cbn; auto.
  - intros y. unfold set. destruct (list_eq_dec N.eq_dec x y) as [<-|Ny].
    + rewrite (env_set w d id x vp N V). exact RP.
    + rewrite (env_other w d id x y N) by auto. apply E.
  - intros t. specialize (RS t). unfold rule_of, get_rule in *. cbn. rewrite Ru. exact RS.
  - intros y v Ey. unfold set in Ey. unfold recorded. cbn [set_db w_names w_db]. destruct (list_eq_dec N.eq_dec x y) as [<-|Ny].
    + injection Ey as <-. rewrite N, V. cbn. rewrite Fl, Og. reflexivity.
    + specialize (Kd y v Ey). unfold recorded in Kd. destruct (variable_name (w_names w) y) as [j|] eqn:Nj; [|discriminate].
      rewrite O; [exact Kd|]. intros ->. apply Ny. eapply variable_name_inj; eauto.
  - intros y t m P l b Ey Ea. unfold set in Ey. apply (depends_more w); [intros z k Hz; exact Hz|]. destruct (list_eq_dec N.eq_dec x y) as [<-|Ny].
    + injection Ey as ->. rewrite (env_set w d id x vp N V) in Ea. injection Ea as Ea. eapply Fv; [reflexivity|exact Ea].
    + rewrite (env_other w d id x y N) in Ea by auto. eapply Fx; eassumption.
Qed.

Lemma get_set : forall d id p, get_variable (set_variable d id p) id = Some p.
Proof. intros d id p. unfold get_variable, set_variable. cbn [db_vars]. apply mget_mset_same. Qed.
Lemma get_set_other : forall d id p j, j <> id -> get_variable (set_variable d id p) j = get_variable d j.
Proof. intros d id p j N. unfold get_variable, set_variable. cbn [db_vars]. apply mget_mset_other. exact N. Qed.
Lemma append_rules : forall d id l v sp, db_rules (append_to_variable d id l v sp) = db_rules d.
Proof. intros d id l v sp. unfold append_to_variable. destruct (get_variable d id); reflexivity. Qed.

Lemma closed_defs : forall st, m_defs (closed st) = m_defs st.
Proof. intros st. unfold closed. destruct (m_rule st); reflexivity. Qed.

Lemma assignment_step : forall fs st s w i t l rest name nm k v value, sim st s w -> world_good w -> state_ok s w ->
  at_text i t -> ~ is_comment_text t -> directly st t -> line_text t l rest -> solid l -> m_ignoring st = false ->
  unconditional l -> assigns l name k v -> stands_for (m_defs st) name nm ->
  assigned (m_defs st) (trim (chars nm)) k v value ->
  gets_to fs s w i (with_defs (closed st) (set (m_defs st) (trim (chars nm)) value)) rest.
Proof.
  intros fs st s w i t l rest name nm k v value SI G SO A NC DR L S IG N AS SN AD.
  destruct (solid_start fs st s w i t l rest SI A NC DR L S) as (r & b & Ar & W & F & M & WS & MS & E).
  assert (Fs : tidy (block_span b)) by exact F.
  rewrite <- MS in S, N, AS. destruct (conditional_none _ WS F S N) as (ks & Ek).
  destruct (whitespace_keeps _ WS) as (s0 & q0 & E0 & K0 & M0). rewrite (solid_strip _ S) in M0.
  rewrite <- M0 in AS.
  assert (exists m, (k = AsSimple -> v <> [] /\ stands_for (m_defs st) v m) /\ (k <> AsSimple -> expression v) /\
    (k = AsSimple -> exists ps, text_in (m_defs st) v ps /\ value = Fixed v ps (looks_up (m_defs st) v))) as (m & H1 & H2 & H3).
  { destruct AD as [k f v Ik If X|v ps X Y|v X Y|v old X Y].
    - exists []. assert (k <> AsSimple) by (intros ->; cbn in Ik; intuition discriminate). split; [contradiction|]. split; [auto|contradiction].
    - exists (concat ps). split; [auto using text_stands|]. split; [contradiction|eauto].
    - exists []. split; [discriminate|]. split; [auto|discriminate].
    - exists []. split; [discriminate|]. split; [auto|discriminate]. }
  destruct (assignment_at fs (m_defs st) w s0 name nm k v m (proj1 K0) (proj1 (proj2 (proj2 K0)) Fs) G (sim_env _ _ _ SI) AS SN H1 H2)
    as (w1 & j & id & va & en & P & S1 & N1 & VR).
  destruct (close_sim st s w1 (sim_same _ _ _ _ SI (proj1 G) S1) (sbn_good _ _ S1 G) (state_grown _ _ _ SO (sbn_grown _ _ S1)))
    as (s2 & w2 & C & SI2 & _ & _ & _ & G2 & EE & NE).
  assert (N2 : variable_name (w_names w2) (trim (chars nm)) = Some id) by (rewrite NE; exact N1).

  set (d := match assignment_action k va with
            | VDefine p => set_variable (w_db w2) id p
            | VAppend node => append_to_variable (w_db w2) id (ast_location node) (VParams node FlRecursive OrFile) true
            end).
  assert (DR2 : exists vp, get_variable d id = Some vp /\ rep value (v_ast vp) /\ v_flavor vp = kind_of value /\ v_origin vp = OrFile /\
    (forall t m P l b, value = Fixed t m P -> v_ast vp = APre l b -> depends_on w2 P b)).
  { pose proof (sim_env _ _ _ SI2) as ER. rewrite closed_defs in ER. unfold d. clear d.
    destruct AD as [k f v Ik If X|v m' X Y|v X Y|v old X Y].
    - destruct VR as [(-> & _)|(_ & VR)]; [cbn in Ik; intuition discriminate|].
      exists (VParams va (assignment_flavor k) OrFile). split; [|split; [constructor; exact VR|split; [|split; [reflexivity|discriminate]]; cbn in Ik; destruct Ik as [<-|[<-|[<-|[]]]]; cbn in If |- *; intuition congruence]].
      assert (assignment_action k va = VDefine (VParams va (assignment_flavor k) OrFile)) as ->.
      { cbn in Ik. destruct Ik as [<-|[<-|[<-|[]]]]; reflexivity. }
      apply get_set.
    - destruct VR as [(_ & lc & bb & -> & Mb & Ob & Db)|(X' & _)]; [|congruence].
      exists (VParams (APre lc bb) (assignment_flavor AsSimple) OrFile). split; [apply get_set|]. cbn [v_ast].
      destruct (H3 eq_refl) as (ps & T & ->). split; [constructor; [exact (proj1 Ob ps T)|exact (proj2 Ob)]|]. split; [reflexivity|]. split; [reflexivity|].
      intros t0 m0 P0 l0 b0 Q Q'. injection Q as <- <- <-. injection Q' as <- <-. apply (depends_more w1); [|exact Db]. intros y0 id0 Hy. rewrite NE. exact Hy.
    - destruct VR as [(Q & _)|(_ & VR)]; [discriminate|]. cbn [assignment_action].
      specialize (ER (trim (chars nm))). rewrite X in ER. unfold world_env in ER. rewrite N2 in ER.
      rewrite append_get. destruct (get_variable (w_db w2) id); [contradiction|]. eexists. split; [reflexivity|]. split; [constructor; exact VR|]. split; [reflexivity|]. split; [reflexivity|]. discriminate.
    - destruct VR as [(Q & _)|(_ & VR)]; [discriminate|]. cbn [assignment_action].
      specialize (ER (trim (chars nm))). rewrite X in ER. unfold world_env in ER. rewrite N2 in ER.
      rewrite append_get. destruct (get_variable (w_db w2) id) as [vo|] eqn:Go; [|contradiction]. eexists. split; [reflexivity|]. cbn [v_ast v_flavor v_origin].
      split; [constructor; [exact ER|]; constructor; exact VR|].
      pose proof (sim_kinds _ _ _ SI2 (trim (chars nm)) old) as Kd. rewrite closed_defs in Kd. specialize (Kd X). unfold recorded in Kd. rewrite N2, Go in Kd.
      injection Kd as K1 K2. split; [exact K1|]. split; [exact K2|]. discriminate. }
  destruct DR2 as (vp & V & RP & Fl & Og & Fv).
  exists s2, (set_db w2 d), r, en. split; [|split; [exact Ar|]].
  - intros fuel Lf. rewrite E, Ek. cbn [bind run_parser]. rewrite (sim_ignoring _ _ _ SI), IG.
    unfold parse_active_line, variable_parse_line, wbind. rewrite E0. cbn [bind].
    assert (Z : sp_len s0 <> 0). { rewrite <- (span_marks_len s0 (proj1 K0)), M0. destruct S as (c & u & -> & _). discriminate. }
    apply Nat.eqb_neq in Z. rewrite Z. cbn [variable_loop]. rewrite (P fuel Lf). cbn [bind run_parser wret]. rewrite C. cbn [bind].
    unfold handle_global_variable_action. cbn [va_mods va_name va_action no_modifiers m_export m_override m_private m_undefine EngineModel.m_define orb bind].
    reflexivity.
  - pose proof (sim_set_var (closed st) s2 w2 (trim (chars nm)) id d vp value SI2 N2 V RP Fl Og) as X. rewrite closed_defs in X. apply X.
    + intros j0 Nj. unfold d. destruct (assignment_action k va); [apply get_set_other; exact Nj|apply append_other; exact Nj].
    + unfold d. destruct (assignment_action k va); [reflexivity|]. apply append_rules.
    + exact Fv.
Qed.
