(** Text-level makefile semantics: definitions of several lines. *)
From Coq Require Import String ZArith.
From Verif Require Import Base LocModel EvdModel NomModel AstModel ParseModel AstParseModel EngineModel
  EvdSpec DbSpec ParseSpec EvalSpec AstParseSpec EngineSpec MakeSpec
  EvdProofs EvdProofs3 ParseProofs ParseProofs2 ParseProofs4 ParseProofs5 EvalProofs2 EvalProofs3 EvalProofs4 FuelProofs SubstProofs
  DbProofs EvdProofs2 AstParseProofs AstParseProofs2 AstParseProofs3 SafeProofs SafeProofs2 SafeProofs3 SafeProofs4
  EngineProofs EngineProofs2 EngineProofs3 MakeProofs MakeProofs2 MakeProofs3 MakeProofs4 MakeProofs6.
Local Open Scope nat_scope.

Lemma ascii_nl : ascii c_nl. Proof. reflexivity. Qed.
Lemma ascii_hash : ascii c_hash. Proof. reflexivity. Qed.

Lemma define_grab_at : forall i t l rest, at_text i t -> body_line t l rest ->
  exists r p, define_grab_line i = Ok (POk r p) /\ at_text r rest /\ moves i p l /\ l <> [].
Proof.
  intros i t l rest A B. pose proof A as (G & S & M). pose proof (proj1 G) as W. unfold define_grab_line. cbn [palt].
  destruct B as [p h u Np NH Eh|l n rest NH NN En|l Nl NH NN].
  - pose proof (take_until_ok i c_hash W ascii_hash) as T. rewrite span_text_marks, M, (index_at _ _ _ _ _ NH Eh) in T.
    destruct T as (r & q & T & R & P & _). exists r, q. rewrite T. cbn [bind]. split; [reflexivity|]. split; [|split; [|exact Np]].
    + apply (at_sub _ _ _ _ _ _ A R). apply (sub_suffix i (List.length p) r p (h :: u) W R M eq_refl).
    + split; [exact (sub_keeps _ _ _ _ P)|]. exact (sub_prefix i _ q p (h :: u) W P M eq_refl).
  - pose proof (take_until_ok i c_hash W ascii_hash) as T. rewrite span_text_marks, M, (proj2 (index_none _ _ _) NH) in T. rewrite T. cbn [bind]. clear T.
    pose proof (take_until_ok i c_nl W ascii_nl) as T. rewrite span_text_marks, M, (index_at _ _ _ _ _ NN En) in T.
    destruct T as (r & q & T & R & P & Ln).
    destruct (take_until_flat i [c_nl] W (proj1 S)) as (o & FA & TA); [repeat constructor|].
    destruct o as [k|]; [|rewrite T in TA; discriminate]. destruct TA as (Lk & TA). rewrite T in TA. injection TA as -> ->.
    destruct (sub_len _ _ _ _ R) as (Rl & _). cbn [sp_len shift] in Rl. assert (k = List.length l) as -> by lia.
    set (j := shift i (List.length l)) in *. pose proof (proj1 R) as Wj.
    assert (Mj : span_marks j = n :: rest) by exact (sub_suffix i (List.length l) j l (n :: rest) W R M eq_refl).
    assert (Q : tag [c_nl] j = Ok (POk (shift i (List.length l + 1)) (slice_to j 1))).
    { pose proof (tag_ok j [c_nl] Wj) as Tg. assert (A1 : asciis [c_nl]) by (repeat constructor). specialize (Tg A1).
      rewrite span_text_marks, Mj in Tg. cbn [List.map starts_with] in Tg. rewrite En, N.eqb_refl in Tg. cbn [andb] in Tg.
      destruct Tg as (r & q & Tg & _ & _ & L1). cbn [List.length] in L1. unfold tag in Tg |- *.
      destruct (compare j [c_nl]) as [[| |]| |]; cbn [bind] in *; try discriminate Tg.
      unfold take_split in *. change (blen [c_nl]) with 1 in *. rewrite rassert_true in * by (apply Nat.leb_le; exact L1). cbn [bind] in *.
      rewrite (slice_from_flat j 1 Wj (shift_flat _ _ (proj1 S)) L1). cbn [bind]. unfold j at 1. rewrite shift_shift. reflexivity. }
    unfold recognize at 1, terminated at 1. rewrite T. cbn [pbind bind]. rewrite Q. cbn [pbind bind pok]. rewrite offset_shift. cbn [bind pok].
    exists (shift i (List.length l + 1)), (slice_to i (List.length l + 1)). split; [reflexivity|].
    assert (L2 : List.length l + 1 <= sp_len i) by lia.
    assert (M2 : span_marks i = (l ++ [n]) ++ rest) by (rewrite M, <- app_assoc; reflexivity).
    assert (Z : List.length (l ++ [n]) = List.length l + 1) by (rewrite app_length; reflexivity).
    split; [|split; [|destruct l; discriminate]].
    + pose proof (shift_sub i (List.length l + 1) W (proj1 S) L2) as Sb. apply (at_sub _ _ _ _ _ _ A Sb).
      exact (sub_suffix i _ _ _ _ W Sb M2 Z).
    + pose proof (slice_to_sub i (List.length l + 1) W L2) as Sb. split; [exact (sub_keeps _ _ _ _ Sb)|]. exact (sub_prefix i _ _ _ _ W Sb M2 Z).
  - pose proof (take_until_ok i c_hash W ascii_hash) as T. rewrite span_text_marks, M, (proj2 (index_none _ _ _) NH) in T. rewrite T. cbn [bind]. clear T.
    pose proof (take_until_ok i c_nl W ascii_nl) as T. rewrite span_text_marks, M, (proj2 (index_none _ _ _) NN) in T.
    assert (T3 := no_crnl i W). rewrite span_text_marks, M, (proj2 (index_none _ _ _) NN) in T3. specialize (T3 eq_refl).
    unfold recognize, terminated. rewrite T. cbn [pbind bind]. rewrite T3. cbn [pbind bind].
    destruct (prest_ok i W) as (r & E & R). rewrite E. cbn [bind]. exists r, i. split; [reflexivity|]. split; [|split; [|exact Nl]].
    + apply (at_sub _ _ _ _ _ _ A R). rewrite (sub_marks_firstn _ _ _ _ R). apply firstn_O.
    + split; [|exact M]. split; [exact W|]. split; [lia|]. auto.
Qed.

(** ** Nesting *)
Definition deeper_action (a : define_action) (n n' : nat) : Prop :=
  match a with DAppend => n' = n | DIncrease => n' = Datatypes.S n | DDecrease => n = Datatypes.S n' end.

Lemma tag_moves : forall s t u, wf_span s -> asciis t -> chars (span_marks s) = t ++ u ->
  exists r p, tag t s = Ok (POk r p) /\ keeps s r /\ chars (span_marks r) = u.
Proof.
  intros s t u W At E. pose proof (tag_ok s t W At) as T. rewrite span_text_marks in T. change (List.map fst (span_marks s)) with (chars (span_marks s)) in T.
  rewrite (proj2 (starts_with_iff t (chars (span_marks s)))) in T by (exists u; exact E).
  destruct T as (r & p & T & R & _ & L). exists r, p. split; [exact T|]. split; [exact (sub_keeps _ _ _ _ R)|].
  rewrite (sub_end _ _ _ W R). unfold chars in *. rewrite <- skipn_map, E, skipn_app, skipn_all, Nat.sub_diag. reflexivity.
Qed.
Lemma tag_misses : forall s t, wf_span s -> asciis t -> (forall u, chars (span_marks s) <> t ++ u) -> tag t s = Ok (PError [KNom]).
Proof.
  intros s t W At N. pose proof (tag_ok s t W At) as T. rewrite span_text_marks in T. destruct (starts_with t (List.map fst (span_marks s))) eqn:Q; [|exact T].
  apply starts_with_iff in Q as (u & Q). exfalso. exact (N u Q).
Qed.

Lemma define_line_at : forall i t l rest n n', at_text i t -> body_line t l rest -> expression l -> deeper n l n' ->
  exists r a k loc, parse_define_line i = Ok (POk r (DefineLine k a loc)) /\ at_text r rest /\ reads_ast True l a /\ ast_ok a /\ deeper_action k n n'.
Proof.
  intros i t l rest n n' A B X D. destruct (define_grab_at i t l rest A B) as (r & p & E & Ar & (Kp & Mp) & Nl).
  pose proof (proj1 Kp) as Wp. assert (Fp : tidy p) by exact (proj1 (proj2 (proj2 Kp)) (single_tidy _ (proj1 (proj2 A)))).
  pose proof (location_cases p Wp) as LC. rewrite Mp in LC.
  destruct l as [|l0 l]; [congruence|]. cbn in LC. destruct (span_location p) as [lc| |] eqn:EL; [|exfalso; exact (LC (proj1 Fp))|contradiction]. subst lc.
  pose proof X as X'. rewrite <- Mp in X'. destruct (parse_at p Wp Fp X') as (j & a & Pa & Ra & _ & Oa). rewrite Mp in Ra.
  destruct (whitespace_keeps p Wp) as (p1 & q1 & E1 & K1 & M1). rewrite Mp in M1.
  assert (AD : asciis (lit "define")) by (apply lit_ascii; reflexivity). assert (AE : asciis (lit "endef")) by (apply lit_ascii; reflexivity).
  assert (ND : forall u v : str, lit "define" ++ u <> lit "endef" ++ v) by (intros u v Q; discriminate Q).
  assert (exists k p2, preceded makefile_whitespace
      (palt [ pmap (fun _ => DIncrease) (tag (lit "define")); pmap (fun _ => DDecrease) (tag (lit "endef")); pmap (fun _ => DAppend) prest ]) p = Ok (POk p2 k) /\
      keeps p p2 /\ deeper_action k n n' /\ (k = DDecrease -> forall c, In c (chars (span_marks p2)) -> is_whitespace c = true)) as (k & p2 & E2 & K2 & DA & EW).
  { unfold preceded. rewrite E1. cbn [pbind bind palt]. unfold pmap. remember (l0 :: l) as ll. destruct D as [n ll u C|n ll u C Ew|n ll Nd Ne].
    - rewrite <- M1 in C. destruct (tag_moves p1 _ u (proj1 K1) AD C) as (p2 & q2 & T & K2 & M2). rewrite T. cbn [pbind bind pok].
      exists DIncrease, p2. split; [reflexivity|]. split; [exact (keeps_trans _ _ _ K1 K2)|]. split; [reflexivity|discriminate].
    - rewrite <- M1 in C. rewrite (tag_misses p1 (lit "define") (proj1 K1) AD) by (intros v Q; rewrite C in Q; exact (ND _ _ (eq_sym Q))). cbn [pbind bind].
      destruct (tag_moves p1 _ u (proj1 K1) AE C) as (p2 & q2 & T & K2 & M2). rewrite T. cbn [pbind bind pok].
      exists DDecrease, p2. split; [reflexivity|]. split; [exact (keeps_trans _ _ _ K1 K2)|]. split; [reflexivity|]. intros _ c Ic. rewrite M2 in Ic. auto.
    - rewrite <- M1 in Nd, Ne. rewrite (tag_misses p1 (lit "define") (proj1 K1) AD Nd). cbn [pbind bind]. rewrite (tag_misses p1 (lit "endef") (proj1 K1) AE Ne). cbn [pbind bind].
      destruct (prest_ok p1 (proj1 K1)) as (e & P & R). rewrite P. cbn [pbind bind pok].
      exists DAppend, e. split; [reflexivity|]. split; [exact (keeps_trans _ _ _ K1 (sub_keeps _ _ _ _ R))|]. split; [reflexivity|discriminate]. }
  destruct (take_till_marks p2 (fun c => negb (is_whitespace c)) (proj1 K2)) as (p3 & q3 & E3 & W3 & _ & _ & M3 & _ & _).
  exists r, a, k, (snd l0). split; [|auto].
  unfold parse_define_line. rewrite E. cbn [pbind bind]. rewrite EL. cbn [bind unwrap option_map]. rewrite Pa. cbn [pbind bind]. rewrite E2. cbn [pbind bind].
  rewrite E3. cbn [pbind bind]. destruct k; try reflexivity.
  assert (Z : sp_len p3 = 0).
  { rewrite <- (span_marks_len p3 W3), M3. specialize (EW eq_refl). clear -EW. induction (span_marks p2) as [|a t IH]; [reflexivity|].
    cbn [drop_while]. change mch with (@fst char location). rewrite (EW (fst a)) by (left; reflexivity). cbn [negb]. apply IH. intros c I. apply EW. right. exact I. }
  rewrite Z. reflexivity.
Qed.

Lemma define_start : forall fs st s w i t x n, sim st s w -> at_text i t -> ~ is_comment_text t -> m_rule st = None -> MakeSpec.m_define st = Some (x, n) ->
  exists d, ps_define s = Some d /\ variable_name (w_names w) x = Some (ds_var d) /\ n = ds_nesting d /\
  forall fuel, engine_line fs fuel s w i =
    let* r := parse_define_line i in run_parser s w (rest_of i r) r (handle_define_line s w) (fun _ => Panic).
Proof.
  intros fs st s w i t x n SI A NC RN DN. destruct (not_comment_at i t A NC) as (ks & E).
  pose proof (sim_define _ _ _ SI) as D. rewrite DN in D. destruct (ps_define s) as [d|] eqn:PD; [|contradiction]. destruct D as (V & N).
  exists d. split; [reflexivity|]. split; [exact V|]. split; [exact N|]. intros fuel. unfold engine_line, parse_line. rewrite E. cbn [bind run_parser].
  pose proof (sim_rule _ _ _ SI) as R. rewrite RN in R. destruct (ps_rule s); [contradiction|]. rewrite PD. reflexivity.
Qed.

Lemma sim_define_set : forall st s w x d, sim st s w -> define_rep x d w ->
  sim (with_define st x) (PState (ps_conds s) (ps_ignoring s) (ps_rule s) d) w.
Proof. intros st s w x d [E C I R RS D F K Kd] H. constructor; cbn; auto. Qed.

Lemma body_step : forall fs st s w i t x n n' l rest old, sim st s w -> at_text i t -> ~ is_comment_text t -> m_rule st = None -> MakeSpec.m_define st = Some (x, n) ->
    body_line t l rest -> expression l -> deeper n l n' -> n' <> 0 -> m_defs st x = Some old ->
  gets_to fs s w i (with_define (with_defs st (set (m_defs st) x (Appended old false (Deferred FlRecursive l)))) (Some (x, n'))) rest.
Proof.
  intros fs st s w i t x n n' l rest old SI A NC RN DN B X D N0 O.
  destruct (define_start fs st s w i t x n SI A NC RN DN) as (d & PD & V & -> & E).
  destruct (define_line_at i t l rest _ n' A B X D) as (r & a & k & loc & P & Ar & Ra & Oa & DA).
  set (db' := append_to_variable (w_db w) (ds_var d) loc (VParams a FlRecursive OrFile) false).
  exists (PState (ps_conds s) (ps_ignoring s) (ps_rule s) (Some (DefineState (ds_var d) n'))), (set_db w db'), r, 0. split; [|split; [exact Ar|]].
  - intros fuel _. rewrite E, P. cbn [bind rest_of run_parser]. unfold handle_define_line. rewrite PD. cbn [unwrap bind dl_action dl_location dl_content].
    destruct k; cbn [deeper_action] in DA.
    + subst n'. reflexivity.
    + subst n'. reflexivity.
    + rewrite DA. cbn [usub Nat.ltb Nat.leb bind]. unfold usub. cbn [Nat.ltb Nat.leb Nat.sub bind]. rewrite Nat.sub_0_r. apply Nat.eqb_neq in N0. rewrite N0. reflexivity.
  - apply (sim_define_set _ s (set_db w db')).
    + pose proof (sim_env _ _ _ SI x) as ER. rewrite O in ER. unfold world_env in ER. rewrite V in ER.
      destruct (get_variable (w_db w) (ds_var d)) as [vo|] eqn:Go; [|contradiction].
      eapply (sim_set_var st s w x (ds_var d) db'); [exact SI|exact V|unfold db'; rewrite append_get, Go; reflexivity| | | | | |].
      * cbn [v_ast]. constructor; [exact ER|constructor; exact Ra].
      * pose proof (sim_kinds _ _ _ SI x old O) as Kd. unfold recorded in Kd. rewrite V, Go in Kd. injection Kd as K1 K2. exact K1.
      * pose proof (sim_kinds _ _ _ SI x old O) as Kd. unfold recorded in Kd. rewrite V, Go in Kd. injection Kd as K1 K2. exact K2.
      * intros j Nj. apply append_other. exact Nj.
      * apply append_rules.
      * discriminate.
    + cbn. auto.
Qed.

Lemma endef_step : forall fs st s w i t x l rest, sim st s w -> at_text i t -> ~ is_comment_text t -> m_rule st = None -> MakeSpec.m_define st = Some (x, 1) ->
    body_line t l rest -> expression l -> deeper 1 l 0 ->
  gets_to fs s w i (with_define st None) rest.
Proof.
  intros fs st s w i t x l rest SI A NC RN DN B X D.
  destruct (define_start fs st s w i t x 1 SI A NC RN DN) as (d & PD & V & Nn & E).
  destruct (define_line_at i t l rest 1 0 A B X D) as (r & a & k & loc & P & Ar & Ra & Oa & DA).
  exists (PState (ps_conds s) (ps_ignoring s) (ps_rule s) None), w, r, 0. split; [|split; [exact Ar|]].
  - intros fuel _. rewrite E, P. cbn [bind rest_of run_parser]. unfold handle_define_line. rewrite PD. cbn [unwrap bind dl_action dl_location dl_content].
    destruct k; cbn [deeper_action] in DA; [discriminate|discriminate|]. rewrite <- Nn. reflexivity.
  - apply sim_define_set; [exact SI|exact Logic.I].
Qed.

(** ** The first line *)
Lemma empty_reads : reads_ast True [] a_empty.
Proof. constructor. Qed.

Definition define_modifiers : modifiers := Modifiers false false false true false.

(** What is done with the header [h]. *)
Lemma header_at : forall fs D w s x v, wf_span s -> tidy s -> world_good w -> env_rep D (world_env w) ->
  define_header D (span_marks s) x v ->
  exists w' r id act enough, (forall fuel, enough <= fuel -> parse_define_header (eval_fuel fs fuel) define_modifiers w s =
      Ok (w', POk r (VariableAction id define_modifiers act))) /\
    same_but_names w w' /\ variable_name (w_names w') x = Some id /\
    ((act = VAppend a_empty /\ match D x with None => v = Deferred FlRecursive [] | Some old => v = Appended old true (Deferred FlRecursive []) end) \/
     exists fl, act = VDefine (VParams a_empty fl OrFile) /\ v = Deferred fl []).
Proof.
  intros fs D w s x v W F G R H.
  assert (NAME : forall name k nm, assigns (span_marks s) name k [] -> stands_for D name nm ->
    exists w' r id enough, (forall fuel, enough <= fuel -> parse_define_header (eval_fuel fs fuel) define_modifiers w s =
        Ok (w', POk r (VariableAction id define_modifiers (assignment_action k a_empty)))) /\
      same_but_names w w' /\ variable_name (w_names w') (trim (chars nm)) = Some id).
  { intros name k nm AS SN. destruct (assignment_parts s name k [] W F AS) as (r & ns & P & (Kn & Mn) & (Kr & Mr)).
    destruct (whitespace_keeps r (proj1 Kr)) as (r2 & q & P2 & K2 & M2). rewrite Mr in M2. cbn in M2.
    assert (Z : sp_len r2 = 0) by (rewrite <- (span_marks_len r2 (proj1 K2)), M2; reflexivity).
    rewrite <- Mn in SN.
    destruct (text_evaluates fs D w ns nm (proj1 G) R (proj1 Kn) (proj1 (proj2 (proj2 Kn)) F) SN) as (rn & an & Pn & _ & _ & An & w1 & b1 & e1 & E1 & M1 & I1 & S1 & _).
    destruct (world_intern_variable w1 (trim (chars nm))) as [w2 id] eqn:EI. destruct (intern_world _ _ _ _ EI) as (S2 & N2).
    exists w2, r2, id, e1. split; [|split; [exact (sbn_trans _ _ _ S1 S2)|exact N2]].
    intros fuel L. unfold parse_define_header. rewrite P. cbn [bind]. rewrite P2. cbn [bind]. rewrite Z. cbn [Nat.eqb]. unfold wbind. rewrite Pn. cbn [bind].
    rewrite E1 by lia. cbn [bind]. rewrite I1. cbn [bind]. rewrite EI. reflexivity. }
  destruct H as [name k f nm AS SN Kf C|name nm old AS SN C|NA].
  - destruct (NAME name k nm AS SN) as (w' & r & id & en & E & S & N). exists w', r, id, (assignment_action k a_empty), en.
    split; [exact E|]. split; [exact S|]. split; [exact N|].
    assert (Ef : f = assignment_flavor k) by (destruct k; cbn in Kf |- *; intuition congruence). subst f.
    destruct k; try (right; eexists; split; reflexivity). left. split; [reflexivity|]. destruct C as [C|C]; [congruence|]. rewrite C. reflexivity.
  - destruct (NAME name AsAppend nm AS SN) as (w' & r & id & en & E & S & N). exists w', r, id, (VAppend a_empty), en.
    split; [exact E|]. split; [exact S|]. split; [exact N|]. left. split; [reflexivity|]. rewrite C. reflexivity.
  - destruct (world_intern_variable w (trim (chars (span_marks s)))) as [w2 id] eqn:EI. destruct (intern_world _ _ _ _ EI) as (S2 & N2).
    destruct (slice_from_sub s (sp_len s) W (le_n _)) as (rest & ER & _).
    exists w2, rest, id, (VDefine (VParams a_empty FlRecursive OrFile)), 0.
    split; [|split; [exact S2|split; [exact N2|right; eexists; split; reflexivity]]].
    intros fuel _. unfold parse_define_header.
    assert (WH : (let* s0 := span_into_string s in
      let '(w0, name) := world_intern_variable w (trim s0) in
      let* rest0 := slice_from s (sp_len s) in
      wret w0 (POk rest0 (VariableAction name define_modifiers (VDefine (VParams a_empty FlRecursive OrFile)))))
      = Ok (w2, POk rest (VariableAction id define_modifiers (VDefine (VParams a_empty FlRecursive OrFile))))).
    { rewrite (span_into_string_ok s W), span_text_marks. cbn [bind]. change (List.map fst (span_marks s)) with (chars (span_marks s)).
      rewrite EI, ER. reflexivity. }
    destruct (assignment_operator_total s W) as [(op & k & r & nm & I & Dv & P & Wn & Wr & Mn & post & Q & Mr & Sr)|(_ & e & P)].
    + rewrite P. cbn [bind]. destruct (whitespace_keeps r Wr) as (r2 & q & P2 & K2 & M2). rewrite P2. cbn [bind].
      destruct (Nat.eqb_spec (sp_len r2) 0) as [Z|_]; [|exact WH]. exfalso.
      rewrite <- (span_marks_len r2 (proj1 K2)), M2, Mr in Z. change mch with (@fst char location) in *. rewrite lstrip_twice in Z.
      destruct (lstrip_suffix (@fst char location) (drop_while namechar (span_marks s))) as (pre & E & Fb).
      apply (NA (take_while namechar (span_marks s)) k). exists pre, op, post. split; [|split; [|split; [|split]]].
      * rewrite Q in E. rewrite <- E. exact Dv.
      * assert (As := wf_span_ascii s W). rewrite span_text_marks in As. intros a Ia.
        assert (X : namechar a = true /\ In a (span_marks s)).
        { revert Ia. clear. induction (span_marks s) as [|b l IH]; cbn; [contradiction|].
          destruct (namechar b) eqn:B; cbn; [|contradiction]. intros [<-|I]; auto. apply IH in I. tauto. }
        destruct X as (X & Y). unfold namechar in X. intros Z0. rewrite <- ends_name_iff in Z0.
        -- rewrite Z0 in X. discriminate.
        -- unfold asciis in As. rewrite Forall_forall in As. apply As, in_map. exact Y.
      * rewrite Forall_forall in Fb. exact Fb.
      * exact I.
      * destruct (lstrip fst post); [reflexivity|discriminate].
    + rewrite P. cbn [bind]. exact WH.
Qed.

Lemma modifier_apart : MakeProofs3.apart modifier_table.
Proof.
  intros k x k' x' I I' H. cbn in I, I'.
  repeat (destruct I as [I|I]; [injection I as <- <-; repeat (destruct I' as [I'|I']; [injection I' as <- <-; first [split; reflexivity|discriminate H]|]); destruct I'|]); destruct I.
Qed.

Lemma define_step : forall fs st s w i t l rest u x v, ascii_files fs -> sim st s w -> world_good w -> state_ok s w ->
  at_text i t -> ~ is_comment_text t -> directly st t -> line_text t l rest -> solid l ->
    m_ignoring st = false -> unconditional l -> no_assignment l ->
    keyword "define" l u -> define_header (m_defs st) (lstrip fst u) x v ->
  gets_to fs s w i (with_define (with_defs (closed st) (set (m_defs st) x v)) (Some (x, 1))) rest.
Proof.
  intros fs st s w i t l rest u x v FS SI G SO A NC DR L S IG BC NA Kw DH.
  destruct (solid_start fs st s w i t l rest SI A NC DR L S) as (r & b & Ar & W & F & M & WS & MS & E).
  assert (Fs : tidy (block_span b)) by exact F.
  destruct (conditional_none (block_span b) WS F) as (kc & Ec); [rewrite MS; exact S|rewrite MS; exact BC|].
  destruct (whitespace_keeps _ WS) as (s0 & q0 & E0 & K0 & M0). rewrite MS, (solid_strip _ S) in M0.
  pose proof (proj1 K0) as W0. assert (F0 : tidy s0) by exact (proj1 (proj2 (proj2 K0)) Fs).
  pose proof NA as NA'. rewrite <- M0 in NA'. destruct (no_assignment_at s0 W0 NA') as (ea & Ea & Ka).
  pose proof Kw as Kw'. rewrite <- M0 in Kw'.
  destruct (words_pick modifier_table s0 "define" MDefine u W0 modifier_lower modifier_apart (or_introl eq_refl) Kw') as (s1 & E1 & K1 & M1).
  destruct (whitespace_keeps s1 (proj1 K1)) as (s2 & q2 & E2 & K2 & M2). rewrite M1 in M2.
  assert (EM : modifier_keyword s0 = Ok (POk s2 MDefine)).
  { assert (Q : modifier_keyword = terminated (words_parser modifier_table) makefile_whitespace) by reflexivity. rewrite Q. unfold terminated.
    rewrite E1. cbn [pbind bind]. rewrite E2. reflexivity. }
  rewrite <- M2 in DH.
  destruct (header_at fs (m_defs st) w s2 x v (proj1 K2) (proj1 (proj2 (proj2 K2)) (proj1 (proj2 (proj2 K1)) F0)) G (sim_env _ _ _ SI) DH)
    as (w1 & j & id & act & en & P & S1 & N1 & VR).
  destruct (close_sim st s w1 (sim_same _ _ _ _ SI (proj1 G) S1) (sbn_good _ _ S1 G) (state_grown _ _ _ SO (sbn_grown _ _ S1)))
    as (s3 & w2 & C & SI2 & Rn & Dn & _ & G2 & EE & NE).
  assert (N2 : variable_name (w_names w2) x = Some id) by (rewrite NE; exact N1).
  set (d := match act with
            | VDefine p => set_variable (w_db w2) id p
            | VAppend node => append_to_variable (w_db w2) id (ast_location node) (VParams node FlRecursive OrFile) true
            end).
  assert (DR2 : exists vp, get_variable d id = Some vp /\ rep v (v_ast vp) /\ v_flavor vp = kind_of v /\ v_origin vp = OrFile /\ (forall t m P, v <> Fixed t m P)).
  { pose proof (sim_kinds _ _ _ SI2 x) as Kd. rewrite closed_defs in Kd. unfold recorded in Kd. rewrite N2 in Kd. pose proof (sim_env _ _ _ SI2 x) as ER. rewrite closed_defs in ER. unfold world_env in ER. rewrite N2 in ER. unfold d. clear d.
    destruct VR as [(-> & V)|(fl & -> & ->)].
    - rewrite append_get. destruct (m_defs st x) as [old|], (get_variable (w_db w2) id) as [vo|]; cbn [option_map] in ER; try contradiction; subst v; eexists; (split; [reflexivity|]); cbn [v_ast v_flavor v_origin].
      + split; [constructor; [exact ER|constructor; exact empty_reads]|]. specialize (Kd _ eq_refl). injection Kd as KA KB. split; [exact KA|]. split; [exact KB|discriminate].
      + split; [constructor; exact empty_reads|]. split; [reflexivity|]. split; [reflexivity|discriminate].
    - eexists. split; [apply get_set|]. split; [constructor; exact empty_reads|]. split; [reflexivity|]. split; [reflexivity|discriminate]. }
  destruct DR2 as (vp & V & RP & Fl & Og & NF).
  assert (PN : ps_define s3 = None).
  { rewrite Dn. pose proof (sim_define _ _ _ SI) as DD. rewrite (proj2 DR) in DD. destruct (ps_define s); [contradiction|reflexivity]. }
  exists (PState (ps_conds s3) (ps_ignoring s3) (ps_rule s3) (Some (DefineState id 1))), (set_db w2 d), r, en. split; [|split; [exact Ar|]].
  - intros fuel Lf. rewrite E, Ec. cbn [bind run_parser]. rewrite (sim_ignoring _ _ _ SI), IG.
    unfold parse_active_line, variable_parse_line, wbind. rewrite E0. cbn [bind].
    assert (Z : sp_len s0 <> 0). { rewrite <- (span_marks_len s0 W0), M0. destruct S as (c & u' & -> & _). discriminate. }
    apply Nat.eqb_neq in Z. rewrite Z. cbn [variable_loop]. unfold parse_variable_assignment at 1, wbind. rewrite Ea. cbn [bind].
    rewrite Ka. cbn [is_unterminated]. rewrite EM. cbn [bind no_modifiers m_export m_override m_private m_undefine]. fold define_modifiers.
    rewrite (P fuel Lf). cbn [bind run_parser]. rewrite C. cbn [bind].
    unfold handle_global_variable_action, define_modifiers. cbn [va_mods va_name va_action m_export m_override m_private m_undefine EngineModel.m_define orb]. rewrite PN.
    reflexivity.
  - apply (sim_define_set _ s3 (set_db w2 d)).
    + pose proof (sim_set_var (closed st) s3 w2 x id d vp v SI2 N2 V RP Fl Og) as X. rewrite closed_defs in X. apply X.
      * intros j0 Nj. unfold d. destruct act; [apply get_set_other; exact Nj|apply append_other; exact Nj].
      * unfold d. destruct act; [reflexivity|]. apply append_rules.
      * intros t0 m0 P0 l0 b0 Q. destruct (NF _ _ _ Q).
    + cbn. auto.
Qed.
