(** Makefiles that end the program: single lines. *)
From Coq Require Import String ZArith.
From Verif Require Import Base LocModel EvdModel NomModel AstModel ParseModel AstParseModel EngineModel
  EvdSpec DbSpec ParseSpec EvalSpec AstParseSpec EngineSpec MakeSpec CrashSpec
  EvdProofs EvdProofs3 ParseProofs ParseProofs2 ParseProofs3 ParseProofs4 ParseProofs5 EvalProofs2 EvalProofs3 EvalProofs4 FuelProofs
  DbProofs EvdProofs2 AstParseProofs AstParseProofs2 AstParseProofs3 SubstProofs SafeProofs SafeProofs2 SafeProofs3 SafeProofs4
  EngineProofs EngineProofs2 EngineProofs3 MakeProofs MakeProofs2 MakeProofs3 MakeProofs4 MakeProofs6 MakeProofs7 MakeProofs8 MakeProofs9 MakeProofs10 MakeProofs11 MakeProofs12.
Local Open Scope nat_scope.

Definition rejects (r : res (pstate * world * presult unit)) : Prop :=
  match r with Ok (_, _, POk _ _) => False | OutOfFuel => False | _ => True end.
Definition stops_at (fs : str -> file) (s : pstate) (w : world) (i : span) : Prop :=
  exists enough, forall fuel, enough <= fuel -> rejects (engine_line fs fuel s w i).

Lemma line_stop : forall fs st s w i t l, sim st s w -> at_text i t -> line_is st t l ->
  exists r b, wf_block b /\ tidy_block b /\ block_marks b = l /\ wf_span (block_span b) /\ span_marks (block_span b) = l /\
    forall fuel, engine_line fs fuel s w i =
        let* c := conditional_parse_line (block_span b) in
        run_parser s w r c (handle_conditional (eval_fuel fs fuel) s w)
          (fun _ => if ps_ignoring s then Ok (s, w, POk r tt)
                    else parse_active_line (eval_fuel fs fuel) (read_makefile_with (process_fuel fs fuel)) fs s w r b).
Proof.
  intros fs st s w i t l SI A (NC & DR & (rest & L) & S).
  destruct (solid_start fs st s w i t l rest SI A NC DR L S) as (r & b & Ar & W & F & M & WS & MS & E). exists r, b. auto 10.
Qed.

Lemma active_stop : forall fs st s w i t l, sim st s w -> at_text i t -> acting_line st t l ->
  exists r b, wf_block b /\ tidy_block b /\ block_marks b = l /\ wf_span (block_span b) /\ span_marks (block_span b) = l /\
    forall fuel, engine_line fs fuel s w i = parse_active_line (eval_fuel fs fuel) (read_makefile_with (process_fuel fs fuel)) fs s w r b.
Proof.
  intros fs st s w i t l SI A (LI & IG & BC). destruct (line_stop fs st s w i t l SI A LI) as (r & b & W & F & M & WS & MS & E).
  exists r, b. split; [exact W|]. split; [exact F|]. split; [exact M|]. split; [exact WS|]. split; [exact MS|]. intros fuel. rewrite E.
  destruct (conditional_none (block_span b) WS F) as (kc & Ec); [rewrite MS; exact (proj2 (proj2 (proj2 LI)))|rewrite MS; exact BC|].
  rewrite Ec. cbn [bind run_parser]. rewrite (sim_ignoring _ _ _ SI), IG. reflexivity.
Qed.

(** * Conditionals *)
Lemma ifdef_stops : forall fs st s w i t l k u, sim st s w -> at_text i t -> line_is st t l -> In k ["ifdef"; "ifndef"]%string -> keyword k l u ->
  stops_at fs s w i.
Proof.
  intros fs st s w i t l k u SI A LI I Kw. destruct (line_stop fs st s w i t l SI A LI) as (r & b & W & F & M & WS & MS & E).
  exists 0. intros fuel _. rewrite E. unfold conditional_parse_line. cbn [conditional_line_fuel].
  destruct LI as (_ & _ & _ & S). rewrite <- MS in S, Kw.
  assert (exists ct, In (k, ct) conditional_table /\ In ct [CtIfDef; CtIfNDef]) as (ct & Ic & Id).
  { cbn in I. destruct I as [<-|[<-|[]]]; eexists; cbn; eauto 10. }
  destruct (conditional_keyword_pick (block_span b) _ _ u WS S Ic Kw) as (r1 & E1 & K1 & M1). clear Ic.
  rewrite E1. cbn [pbind bind].
  assert (Gr : gspan r1). { split; [apply K1|]. destruct K1 as (_ & _ & _ & -> & _). exact W. }
  pose proof (parse_ast_safe r1 Gr) as Sa. unfold return_error.
  cbn in Id. destruct (parse_ast r1) as [[r2 a|ks|ks]| |]; cbn in Sa; try contradiction; destruct Id as [<-|[<-|[]]]; cbn; exact Logic.I.
Qed.

Lemma extra_stops : forall fs st s w i t l k u, sim st s w -> at_text i t -> line_is st t l -> In k ["else"; "endif"]%string -> keyword k l u ->
  ~ all_blank fst u -> stops_at fs s w i.
Proof.
  intros fs st s w i t l k u SI A LI I Kw NB. destruct (line_stop fs st s w i t l SI A LI) as (r & b & W & F & M & WS & MS & E).
  exists 0. intros fuel _. rewrite E. unfold conditional_parse_line. cbn [conditional_line_fuel].
  destruct LI as (_ & _ & _ & S). rewrite <- MS in S, Kw.
  assert (exists ct, In (k, ct) conditional_table /\ In ct [CtElse; CtEndIf]) as (ct & Ic & Id).
  { cbn in I. destruct I as [<-|[<-|[]]]; eexists; cbn; eauto 10. }
  destruct (conditional_keyword_pick (block_span b) _ _ u WS S Ic Kw) as (r1 & E1 & K1 & M1). clear Ic.
  rewrite E1. cbn [pbind bind].
  assert (Gr : gspan r1). { split; [apply K1|]. destruct K1 as (_ & _ & _ & -> & _). exact W. }
  assert (Z : forall r2, keeps r1 r2 -> span_marks r2 = lstrip fst u -> (0 <? sp_len r2) = true).
  { intros r2 K2 M2. apply Nat.ltb_lt. rewrite <- (span_marks_len r2 (proj1 K2)), M2. destruct (lstrip fst u) eqn:Q; [|cbn; lia].
    exfalso. apply NB. destruct (lstrip_suffix fst u) as (pre & El & B). rewrite Q, app_nil_r in El. rewrite El. intros a Ia. rewrite Forall_forall in B. exact (B a Ia). }
  cbn in Id. destruct Id as [<-|[<-|[]]].
  - unfold parse_else. destruct (whitespace_keeps r1 (proj1 K1)) as (r2 & q & E2 & K2 & M2). rewrite E2. cbn [pbind bind].
    rewrite M1, lstrip_twice in M2. rewrite (Z r2 K2 M2).
    assert (Lr : sp_len r2 < sp_len (block_span b)).
    { rewrite <- (span_marks_len r2 (proj1 K2)), <- (span_marks_len _ WS), M2. destruct Kw as (wd & -> & Q). rewrite app_length.
      destruct wd as [|? wd]; [cbn in I; destruct I as [<-|[<-|[]]]; discriminate Q|]. cbn [List.length].
      destruct (lstrip_suffix fst u) as (pre & El & _). rewrite El at 2. rewrite app_length. lia. }
    assert (G2 : gspan r2). { split; [apply K2|]. destruct K2 as (_ & _ & _ & -> & _). apply Gr. }
    pose proof (conditional_fuel_safe (sp_len (block_span b)) r2 G2 Lr) as Sc.
    unfold return_error. destruct (conditional_line_fuel (sp_len (block_span b)) r2) as [[r3 c|ks|ks]| |]; cbn in Sc; try contradiction; cbn [bind pbind].
    + destruct c; cbn; exact Logic.I.
    + cbn. exact Logic.I.
    + cbn. exact Logic.I.
    + cbn. exact Logic.I.
  - assert (Z2 : (0 <? sp_len r1) = true).
    { apply Nat.ltb_lt. rewrite <- (span_marks_len r1 (proj1 K1)), M1. destruct (lstrip fst u) eqn:Q; [|cbn; lia].
      exfalso. apply NB. destruct (lstrip_suffix fst u) as (pre & El & B). rewrite Q, app_nil_r in El. rewrite El. intros a Ia. rewrite Forall_forall in B. exact (B a Ia). }
    rewrite Z2. cbn. exact Logic.I.
Qed.

Lemma unmatched_stops : forall fs st s w i t l e, sim st s w -> at_text i t -> line_is st t l ->
  conditional_line (m_defs st) l e -> enter (m_conds st) e = None -> stops_at fs s w i.
Proof.
  intros fs st s w i t l e SI A LI CL EN. destruct (line_stop fs st s w i t l SI A LI) as (r & b & W & F & M & WS & MS & E).
  exists 0. intros fuel _. rewrite E. destruct LI as (_ & _ & _ & S).
  destruct CL as [l rest0 x y m n Kw T X Y|l rest0 x y m n Kw T X Y|l rest0 Kw B|l rest0 Kw B]; try discriminate EN; rewrite <- MS in S, Kw.
  - destruct (else_line _ _ WS S Kw B) as (j & P). rewrite P. cbn [bind run_parser handle_conditional].
    pose proof (sim_conds _ _ _ SI) as C. unfold stack in C.
    destruct (ps_conds s) as [|[ex seen] pcs]; cbn in C; [exact Logic.I|].
    rewrite <- C in EN. cbn in EN. destruct seen; [exact Logic.I|discriminate EN].
  - destruct (endif_line _ _ WS S Kw B) as (j & P). rewrite P. cbn [bind run_parser handle_conditional].
    pose proof (sim_conds _ _ _ SI) as C. unfold stack in C.
    destruct (ps_conds s) as [|[ex seen] pcs]; cbn in C; [exact Logic.I|].
    rewrite <- C in EN. cbn in EN. discriminate EN.
Qed.

(** * Assignments *)
Definition assigned_to (mods : modifiers) (r : res (world * presult variable_action)) : Prop :=
  match r with Panic => True | Ok (_, POk _ va) => va_mods va = mods | _ => False end.

Lemma assignment_outcome : forall fs D w s name nm k v mods, wf_span s -> tidy s -> world_good w -> env_rep D (world_env w) ->
  assigns (span_marks s) name k v -> stands_for D name nm -> storable D k v ->
  exists enough, forall fuel, enough <= fuel -> assigned_to mods (parse_variable_assignment (eval_fuel fs fuel) mods w s) /\
    (k = AsSimple -> v = [] -> parse_variable_assignment (eval_fuel fs fuel) mods w s = Panic).
Proof.
  intros fs D w s name nm k v mods W F G R AS SN ST.
  destruct (assignment_parts s name k v W F AS) as (r & ns & P & (Kn & Mn) & (Kr & Mr)).
  destruct (whitespace_keeps r (proj1 Kr)) as (r2 & q & P2 & K2 & M2). rewrite Mr in M2.
  assert (Z : lstrip fst v = v). { destruct AS as (? & ? & post & _ & _ & _ & _ & ->). apply lstrip_twice. }
  rewrite Z in M2. clear Z.
  rewrite <- Mn in SN.
  destruct (text_evaluates fs D w ns nm (proj1 G) R (proj1 Kn) (proj1 (proj2 (proj2 Kn)) F) SN) as (rn & an & Pn & _ & _ & An & w1 & b1 & e1 & E1 & M1 & I1 & S1 & _).
  destruct (world_intern_variable w1 (trim (chars nm))) as [w2 id] eqn:EI. destruct (intern_world _ _ _ _ EI) as (S2 & N2).
  assert (S12 : same_but_names w w2) by exact (sbn_trans _ _ _ S1 S2).
  assert (F2 : tidy r2) by exact (proj1 (proj2 (proj2 K2)) (proj1 (proj2 (proj2 Kr)) F)).
  assert (k = AsSimple \/ k <> AsSimple) as [->|NK] by (destruct k; auto; right; discriminate).
  - destruct ST as (m & Sv). rewrite <- M2 in Sv.
    assert (R2 : env_rep D (world_env w2)). { eapply env_rep_ext; [exact R|]. apply sbn_env; [exact S12|exact (proj1 G)]. }
    destruct (text_evaluates fs D w2 r2 m (sbn_ok _ _ S12 (proj1 G)) R2 (proj1 K2) F2 Sv) as (rv & av & Pv & _ & _ & Av & w3 & b3 & e3 & E3 & M3 & I3 & S3 & _).
    pose proof (location_cases r2 (proj1 K2)) as LC. rewrite M2 in LC.
    exists (Nat.max e1 e3). intros fuel L.
    assert (Q : parse_variable_assignment (eval_fuel fs fuel) mods w s =
      (let* loc := span_location r2 in let* loc := unwrap loc in Ok (w3, POk rv (VariableAction id mods (assignment_action AsSimple (APre loc b3)))))).
    { unfold parse_variable_assignment, wbind. rewrite P. cbn [bind]. rewrite P2. cbn [bind].
      rewrite Pn. cbn [bind]. rewrite Pv. cbn [bind]. rewrite E1 by lia. cbn [bind]. rewrite I1. cbn [bind]. rewrite EI.
      rewrite E3 by lia. cbn [bind]. destruct (span_location r2) as [[x|]| |]; reflexivity. }
    rewrite Q. destruct (span_location r2) as [lo| |] eqn:EL; [| |contradiction].
    + cbn [bind]. split; [destruct lo; cbn; auto|]. intros _ ->. rewrite LC. reflexivity.
    + cbn. auto.
  - assert (X : expression v) by (destruct k; [congruence|exact ST..]). rewrite <- M2 in X.
    destruct (parse_at r2 (proj1 K2) F2 X) as (rv & av & Pv & Rv & _ & Av). rewrite M2 in Rv.
    exists e1. intros fuel L. split; [|congruence].
    unfold parse_variable_assignment, wbind. rewrite P. cbn [bind]. rewrite P2. cbn [bind].
    rewrite Pn. cbn [bind]. rewrite Pv. cbn [bind]. rewrite E1 by lia. cbn [bind]. rewrite I1. cbn [bind]. rewrite EI.
    destruct k; try contradiction; reflexivity.
Qed.

Lemma empty_storable : forall D k, storable D k [].
Proof. intros D []; cbn; [exists []; constructor|..]; exists a_empty; constructor. Qed.

Lemma no_value_stops : forall fs st s w i t l name nm, sim st s w -> world_good w -> at_text i t -> acting_line st t l ->
  assigns l name AsSimple [] -> stands_for (m_defs st) name nm -> stops_at fs s w i.
Proof.
  intros fs st s w i t l name nm SI G A AL AS SN. destruct (active_stop fs st s w i t l SI A AL) as (r & b & W & F & M & WS & MS & E).
  destruct AL as ((_ & _ & _ & S) & _). assert (Fs : tidy (block_span b)) by exact F.
  destruct (whitespace_keeps _ WS) as (s0 & q0 & E0 & K0 & M0). rewrite MS, (solid_strip _ S) in M0. rewrite <- M0 in AS.
  destruct (assignment_outcome fs (m_defs st) w s0 name nm AsSimple [] no_modifiers (proj1 K0) (proj1 (proj2 (proj2 K0)) Fs) G (sim_env _ _ _ SI) AS SN (empty_storable _ _))
    as (en & H).
  exists en. intros fuel L. rewrite E. unfold parse_active_line, variable_parse_line, wbind. rewrite E0. cbn [bind].
  assert (Z : sp_len s0 <> 0). { rewrite <- (span_marks_len s0 (proj1 K0)), M0. destruct S as (c & u' & -> & _). discriminate. }
  apply Nat.eqb_neq in Z. rewrite Z. cbn [variable_loop]. destruct (H fuel L) as (_ & ->); auto. exact Logic.I.
Qed.

(** * Modifiers *)
Lemma modified_start : forall b l k x u, tidy_block b -> wf_span (block_span b) -> span_marks (block_span b) = l -> solid l -> no_assignment l ->
  In (k, x) modifier_table -> keyword k l u ->
  exists s2, wf_span s2 /\ tidy s2 /\ span_marks s2 = lstrip fst u /\ sp_len s2 < sp_len (block_span b) /\
    forall ev w, variable_parse_line ev w (block_span b) =
      (let f := sp_len (block_span b) in match x with
       | MExport => variable_loop ev f (Modifiers true false false false false) w s2
       | MOverride => variable_loop ev f (Modifiers false true false false false) w s2
       | MPrivate => variable_loop ev f (Modifiers false false true false false) w s2
       | MDefine => parse_define_header ev (Modifiers false false false true false) w s2
       | MUndefine => Panic end).
Proof.
  intros b l k x u F WS MS S NA I Kw. assert (Fs : tidy (block_span b)) by exact F.
  destruct (whitespace_keeps _ WS) as (s0 & q0 & E0 & K0 & M0). rewrite MS, (solid_strip _ S) in M0.
  pose proof (proj1 K0) as W0. assert (F0 : tidy s0) by exact (proj1 (proj2 (proj2 K0)) Fs).
  pose proof NA as NA'. rewrite <- M0 in NA'. destruct (no_assignment_at s0 W0 NA') as (ea & Ea & Ka).
  pose proof Kw as Kw'. rewrite <- M0 in Kw'.
  destruct (words_pick modifier_table s0 k x u W0 modifier_lower modifier_apart I Kw') as (s1 & E1 & K1 & M1).
  destruct (whitespace_keeps s1 (proj1 K1)) as (s2 & q2 & E2 & K2 & M2). rewrite M1 in M2.
  assert (EM : modifier_keyword s0 = Ok (POk s2 x)).
  { assert (Q : modifier_keyword = terminated (words_parser modifier_table) makefile_whitespace) by reflexivity. rewrite Q. unfold terminated.
    rewrite E1. cbn [pbind bind]. rewrite E2. reflexivity. }
  assert (L0 : sp_len s0 = sp_len (block_span b)) by (rewrite <- (span_marks_len s0 W0), <- (span_marks_len _ WS), M0, MS; reflexivity).
  exists s2. split; [exact (proj1 K2)|]. split; [exact (proj1 (proj2 (proj2 K2)) (proj1 (proj2 (proj2 K1)) F0))|]. split; [exact M2|]. split.
  { rewrite <- (span_marks_len s2 (proj1 K2)), <- (span_marks_len _ WS), M2, MS. destruct Kw as (wd & -> & Q). rewrite app_length.
    destruct wd as [|? wd]; [cbn in I; repeat (destruct I as [I|I]; [injection I as <- _; discriminate Q|]); destruct I|]. cbn [List.length].
    destruct (lstrip_suffix fst u) as (pre & El & _). rewrite El at 2. rewrite app_length. lia. }
  intros ev w. unfold variable_parse_line, wbind. rewrite E0. cbn [bind]. rewrite L0.
  assert (Z : sp_len (block_span b) <> 0). { rewrite <- (span_marks_len _ WS), MS. destruct S as (c & u' & -> & _). discriminate. }
  apply Nat.eqb_neq in Z. rewrite Z. cbn [variable_loop]. unfold parse_variable_assignment at 1, wbind. rewrite Ea. cbn [bind].
  rewrite Ka. cbn [is_unterminated]. rewrite EM. cbn [bind no_modifiers m_export m_override m_private m_undefine EngineModel.m_define].
  destruct x; reflexivity.
Qed.

Lemma string_fuel : forall b, block_into_string b <> OutOfFuel.
Proof. intros b. unfold block_into_string, st_collect. destruct (fold_right _ _ _) as [x []]; discriminate. Qed.
Lemma targets_fuel : forall p dn ts n rules, protorule_targets p dn n rules ts <> OutOfFuel.
Proof.
  intros p dn. induction ts as [|t ts IH]; intros n rules; cbn [protorule_targets]; [discriminate|].
  pose proof (string_fuel t) as H. destruct (block_into_string t) as [x| |]; cbn [bind]; [|discriminate|congruence].
  destruct (intern_file_name n x) as [n' i]. apply IH.
Qed.
Lemma deps_fuel : forall ds n acc, intern_deps n ds acc <> OutOfFuel.
Proof.
  induction ds as [|d ds IH]; intros n acc; cbn [intern_deps]; [discriminate|].
  pose proof (string_fuel d) as H. destruct (block_into_string d) as [x| |]; cbn [bind]; [|discriminate|congruence].
  destruct (intern_file_name n x) as [n' i]. apply IH.
Qed.
Lemma close_fuel : forall s w, close_rule s w <> OutOfFuel.
Proof.
  intros s w. unfold close_rule. destruct (ps_rule s) as [r|]; [|discriminate]. unfold from_protorule.
  pose proof (deps_fuel (pr_deps r) (w_names w) []) as H. destruct (intern_deps (w_names w) (pr_deps r) []) as [[n dn]| |]; cbn [bind]; [|discriminate|congruence].
  pose proof (targets_fuel r dn (pr_targets r) n (db_rules (w_db w))) as H2.
  destruct (protorule_targets r dn n (db_rules (w_db w)) (pr_targets r)) as [[n' ru]| |]; cbn [bind]; [discriminate|discriminate|congruence].
Qed.

Definition refused (m : modifiers) : bool := m_export m || m_override m || m_private m || m_undefine m.
Lemma refused_stops : forall s r (x : res (world * presult variable_action)) mods (next : world -> unit -> line_result), assigned_to mods x -> refused mods = true ->
  rejects (let* '(w, r0) := x in
    run_parser s w r r0 (fun va => let* '(s, w) := close_rule s w in handle_global_variable_action s w va) (next w)).
Proof.
  intros s r x mods next A R. destruct x as [[w' [j va|ks|ks]]| |]; try contradiction; [|exact Logic.I]. cbn [bind run_parser] in *. cbn in A.
  pose proof (close_fuel s w') as C. destruct (close_rule s w') as [[s2 w2]| |]; cbn [bind]; [|exact Logic.I|congruence].
  unfold handle_global_variable_action. rewrite A. unfold refused in R. rewrite R. exact Logic.I.
Qed.

Lemma modified_stops : forall fs st s w i t l k u name nm op v, sim st s w -> world_good w -> at_text i t -> acting_line st t l -> no_assignment l ->
  In k ["export"; "override"; "private"]%string -> keyword k l u ->
  assigns (lstrip fst u) name op v -> stands_for (m_defs st) name nm -> storable (m_defs st) op v -> stops_at fs s w i.
Proof.
  intros fs st s w i t l k u name nm op v SI G A AL NA I Kw AS SN ST. destruct (active_stop fs st s w i t l SI A AL) as (r & b & W & F & M & WS & MS & E).
  destruct AL as ((_ & _ & _ & S) & _).
  assert (exists x mods, In (k, x) modifier_table /\ In (x, mods) [(MExport, Modifiers true false false false false); (MOverride, Modifiers false true false false false); (MPrivate, Modifiers false false true false false)]) as (x & mods & Ix & Im).
  { cbn in I. destruct I as [<-|[<-|[<-|[]]]]; eexists _, _; cbn; eauto 10. }
  destruct (modified_start b l k x u F WS MS S NA Ix Kw) as (s2 & W2 & F2 & M2 & L2 & V). rewrite <- M2 in AS.
  destruct (assignment_outcome fs (m_defs st) w s2 name nm op v mods W2 F2 G (sim_env _ _ _ SI) AS SN ST) as (en & H).
  exists en. intros fuel Lf. rewrite E. unfold parse_active_line. rewrite V.
  destruct (sp_len (block_span b)) as [|f]; [lia|]. cbn zeta.
  destruct (H fuel Lf) as (H1 & _).
  assert (Q : variable_loop (eval_fuel fs fuel) (Datatypes.S f) mods w s2 = parse_variable_assignment (eval_fuel fs fuel) mods w s2).
  { cbn [variable_loop]. destruct (parse_variable_assignment (eval_fuel fs fuel) mods w s2) as [[w' [j va|ks|ks]]| |]; try contradiction; reflexivity. }
  assert (Rf : refused mods = true). { cbn in Im. destruct Im as [Im|[Im|[Im|[]]]]; injection Im as _ <-; reflexivity. }
  assert (X : match x with
    | MExport => variable_loop (eval_fuel fs fuel) (Datatypes.S f) (Modifiers true false false false false) w s2
    | MOverride => variable_loop (eval_fuel fs fuel) (Datatypes.S f) (Modifiers false true false false false) w s2
    | MPrivate => variable_loop (eval_fuel fs fuel) (Datatypes.S f) (Modifiers false false true false false) w s2
    | MDefine => parse_define_header (eval_fuel fs fuel) (Modifiers false false false true false) w s2
    | MUndefine => Panic end = parse_variable_assignment (eval_fuel fs fuel) mods w s2).
  { rewrite <- Q. cbn in Im. destruct Im as [Im|[Im|[Im|[]]]]; injection Im as <- <-; reflexivity. }
  rewrite X. apply (refused_stops s r _ mods (fun w _ => _) H1 Rf).
Qed.

Lemma undefine_stops : forall fs st s w i t l u, sim st s w -> at_text i t -> acting_line st t l -> no_assignment l ->
  keyword "undefine" l u -> stops_at fs s w i.
Proof.
  intros fs st s w i t l u SI A AL NA Kw. destruct (active_stop fs st s w i t l SI A AL) as (r & b & W & F & M & WS & MS & E).
  destruct AL as ((_ & _ & _ & S) & _). assert (Ix : In ("undefine"%string, MUndefine) modifier_table) by (cbn; auto 10).
  destruct (modified_start b l _ _ u F WS MS S NA Ix Kw) as (s2 & W2 & F2 & M2 & L2 & V).
  exists 0. intros fuel _. rewrite E. unfold parse_active_line. rewrite V. exact Logic.I.
Qed.
