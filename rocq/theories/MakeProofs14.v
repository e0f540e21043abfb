(** Text-level makefile semantics: evaluated text. *)
From Coq Require Import String.
From Verif Require Import Base LocModel EvdModel NomModel AstModel ParseModel AstParseModel EngineModel
  EvdSpec DbSpec ParseSpec EvalSpec AstParseSpec EngineSpec MakeSpec
  EvdProofs EvdProofs3 ParseProofs ParseProofs2 ParseProofs4 ParseProofs5 EvalProofs EvalProofs2 EvalProofs3 EvalProofs4 FuelProofs
  DbProofs EvdProofs2 AstParseProofs AstParseProofs2 AstParseProofs3 SafeProofs SafeProofs2 SafeProofs3 SafeProofs4
  EngineProofs EngineProofs2 EngineProofs3 MakeProofs MakeProofs2 MakeProofs3 MakeProofs4 MakeProofs6 MakeProofs7 MakeProofs8 MakeProofs9 MakeProofs13.
Local Open Scope nat_scope.

(** * Expressions whose value is in one piece *)

Inductive sole (e : env) : ast -> Prop :=
| SL_empty : forall l, sole e (AEmpty l)
| SL_none : forall l, sole e (AConcat l [])
| SL_const : forall l s, sole e (AConst l s)
| SL_pre : forall l b, flat_block b -> List.length (b_content b) <= 1 -> sole e (APre l b)
| SL_undefined : forall l nm m d, expands e nm m d -> plain m -> e (chars m) = None -> sole e (AVar l nm)
| SL_var : forall l nm m d v, expands e nm m d -> plain m -> e (chars m) = Some v -> sole e v -> sole e (AVar l nm).

Lemma wrapped_piece : forall n b, node_block n = Some b -> flat_block b -> List.length (b_content b) <= 1 -> piece (new_from_node n).
Proof.
  intros n [sens [|c [|c' cs]]] E F L; cbn in L; [|right|lia].
  - left. destruct n; cbn in E; try discriminate; injection E as ->; reflexivity.
  - inversion F as [|x y Lc _]; subst. destruct n; cbn in E; try discriminate; injection E as ->; exact Lc.
Qed.

Section Sole.
  Context (fs : str -> file).
  Lemma sole_pieces : forall e a, sole e a -> exists f0, forall f, f0 <= f -> forall w w' sens cs, world_ok w -> ast_ok a ->
    (forall nm, world_env w nm = e nm) -> eval_internal (eval_fuel fs f) (process_fuel fs f) w a = Ok (w', sens, cs) ->
    Forall piece cs /\ List.length cs <= 1.
  Proof.
    intros e a S. induction S as [l|l|l s|l b F L|l nm m d X P U|l nm m d v X P U S IH].
    - exists 0. intros f _ w w' sens cs _ _ _ E. cbn in E. injection E as _ _ <-. auto.
    - exists 0. intros f _ w w' sens cs _ _ _ E. cbn in E. injection E as _ _ <-. auto.
    - exists 0. intros f _ w w' sens cs _ _ _ E. cbn in E. injection E as _ _ <-. split; [|cbn; lia]. constructor; [right; exact Logic.I|constructor].
    - exists 0. intros f _ w w' sens cs _ _ _ E. cbn in E. injection E as _ _ <-. split; [|exact L]. eapply Forall_impl; [|exact F]. intros c H. right. exact H.
    - destruct X as (ps & X & ->). destruct (pieces_good fs e nm ps d X) as (f0 & G). exists f0. intros f Lf w w' sens cs Wok Aok En E. cbn [eval_internal] in E.
      destruct (name_ok fs f e nm ps d (G f Lf) w Wok Aok En) as (w1 & s1 & c1 & b & Ev & Eb & Wb & Mb & Sb & R & Ok1 & E1 & _).
      rewrite Ev in E. cbn [bind] in E. rewrite Eb in E. cbn [bind] in E.
      destruct (colon_find_plain (block_span b)) as (ks & Ec); [apply block_span_wf; auto|rewrite block_span_marks, Mb; auto|].
      rewrite Ec in E. cbn [bind] in E. rewrite (block_into_string_ok b Wb) in E. cbn [bind] in E.
      rewrite <- block_marks_text, Mb in E. fold (chars (concat ps)) in E.
      pose proof (deref_ok fs f e (chars (concat ps)) w1 (b_sens b) d Ok1 E1 R) as D. rewrite U in D. destruct D as (w2 & s2 & D & _).
      rewrite D in E. cbn [bind] in E. injection E as _ _ <-. split; [|cbn; lia]. constructor; [left; reflexivity|constructor].
    - destruct X as (ps & X & ->). destruct (pieces_good fs e nm ps d X) as (f0 & G). destruct IH as (f1 & IH). exists (Datatypes.S (f0 + f1)). intros f Lf w w' sens cs Wok Aok En E. cbn [eval_internal] in E.
      destruct (name_ok fs f e nm ps d (G f ltac:(lia)) w Wok Aok En) as (w1 & s1 & c1 & b & Ev & Eb & Wb & Mb & Sb & R & Ok1 & E1 & _).
      rewrite Ev in E. cbn [bind] in E. rewrite Eb in E. cbn [bind] in E.
      destruct (colon_find_plain (block_span b)) as (ks & Ec); [apply block_span_wf; auto|rewrite block_span_marks, Mb; auto|].
      rewrite Ec in E. cbn [bind] in E. rewrite (block_into_string_ok b Wb) in E. cbn [bind] in E.
      rewrite <- block_marks_text, Mb in E. fold (chars (concat ps)) in E. unfold deref_variable in E.
      destruct (world_intern_variable w1 (chars (concat ps))) as [w2 id] eqn:I. apply intern_world in I as (Sb2 & V2).
      assert (Env := sbn_env w1 w2 Sb2 Ok1). assert (Ok2 := sbn_ok _ _ Sb2 Ok1).
      assert (L := env_lookup w2 (chars (concat ps)) id V2). rewrite Env, E1, U in L.
      destruct (get_variable (w_db w2) id) as [vp|] eqn:Gv; [|discriminate]. cbn in L. injection L as L. subst v.
      destruct f as [|g]; [lia|]. cbn [eval_fuel] in E. unfold eval_step in E.
      destruct (eval_internal (eval_fuel fs g) (process_fuel fs g) w2 (v_ast vp)) as [[[w3 s3] cs3]| |] eqn:E3; cbn [bind] in E; try discriminate.
      destruct (IH g ltac:(lia) w2 w3 s3 cs3 Ok2 (proj2 (Ok2 id vp Gv))) as (F3 & L3); [intros x; rewrite Env; apply E1|exact E3|].
      destruct (block_new s3 cs3) as [b3| |] eqn:B3; cbn [bind] in E; try discriminate. injection E as _ _ <-.
      destruct (block_new_flat _ _ _ F3 B3) as (Fb & Lb). split; [|cbn; lia]. constructor; [|constructor].
      apply (wrapped_piece (NVar b b3) b3 eq_refl Fb). lia.
  Qed.
End Sole.

Lemma entire_sole : forall D e, env_rep D e ->
  (forall t, entire D t -> forall a, reads_ast True t a -> sole e a) /\
  (forall v, entire_value D v -> forall a, rep v a -> sole e a).
Proof.
  intros D e R. apply (entire_both D (fun t _ => forall a, reads_ast True t a -> sole e a) (fun v _ => forall a, rep v a -> sole e a)).
  - intros t N U a RA. destruct (reads_plain_const t a N U RA) as [->|(g & ->)]; constructor.
  - intros x c X C _ IH a RA. inversion RA as [|? ? ns R' E1 E2]; subst. apply reads_dollar_inv in R'; [|exact X].
    destruct R' as [(E & _)|[(c' & u & ns' & E & Q & _)|[(c' & u & ns' & E & Q & Ru & ->)|[(b & o & cc & u & i & re & a & ns' & E & O & _)|(b & o & cc & u & i & re & a & E & O & _)]]]];
      try discriminate; injection E as <- <-.
    + exfalso. apply C. rewrite Q. cbn. auto.
    + apply reads_nil in Ru as ->. cbn. assert (EX : expands e (a_constant (Located (snd c) [fst c])) [c] []).
      { replace [c] with (located_marks (Located (snd c) [fst c])) by (destruct c; reflexivity). apply E_const. }
      pose proof (R [fst c]) as Rc. pose proof (single_plain c) as Pc. destruct (D [fst c]) as [v|] eqn:Dc, (e [fst c]) as [av|] eqn:Ec; try contradiction.
      * eapply SL_var; [exact EX|exact Pc|exact Ec|]. exact (IH v eq_refl av Rc).
      * eapply SL_undefined; [exact EX|exact Pc|exact Ec].
    + exfalso. apply C. inversion O; cbn; auto.
    + exfalso. apply C. inversion O; cbn; auto.
  - intros x b u inner nm X B G K SF P _ IH a RA. inversion RA as [|? ? ns R' E1 E2]; subst. apply reads_dollar_inv in R'; [|exact X].
    destruct R' as [(E & _)|[(c' & v & ns' & E & Q & _)|[(c' & v & ns' & E & Q & Ru & ->)|[(b' & o & cc & v & i & re & a & ns' & E & O & G' & _ & Ra & Rr & ->)|(b' & o & cc & v & i & re & a & E & O & G' & C & _)]]]];
      try discriminate; injection E as <- <-.
    + rewrite B in Q. discriminate.
    + exfalso. apply Q. rewrite B. cbn; auto.
    + rewrite B in O. inversion O; subst. destruct (group_unique open_paren close_paren _ _ _ _ _ ltac:(discriminate) G G') as (<- & <-).
      apply reads_nil in Rr as ->. cbn. destruct (proj1 (stands_means D e R) _ _ SF) as (d & Mm & _).
      pose proof (proj1 (proj2 (reads_means True e)) _ _ Ra _ _ Mm) as EX.
      pose proof (R (chars nm)) as Rc. destruct (D (chars nm)) as [vv|] eqn:Dc, (e (chars nm)) as [av|] eqn:Ec; try contradiction.
      * eapply SL_var; [exact EX|exact P|exact Ec|]. exact (IH vv eq_refl av Rc).
      * eapply SL_undefined; [exact EX|exact P|exact Ec].
    + rewrite B in O. inversion O; subst. destruct (group_unique open_paren close_paren _ _ _ _ _ ltac:(discriminate) G G') as (<- & <-).
      exfalso. apply calls_begins in C as (k & Ik & Bk). exact (K k Ik Bk).
  - intros k t _ IH a RP. inversion RP; subst. auto.
  - intros t m Pd N U a RP. inversion RP as [|t' m' P' l b Mb F|]; subst. destruct (F N U) as (F1 & F2). apply SL_pre; assumption.
  - intros k k' t _ IH a RP. inversion RP as [| |v sp v' l a1 a2 R1 R2]; subst. inversion R1 as [? ? ? RA1| |]; subst. inversion R2 as [? ? ? RA2| |]; subst.
    inversion RA1; subst. unfold append_value, collapsing_concat. cbn [filter a_nonempty a_empty]. specialize (IH a2 RA2).
    destruct (a_nonempty a2); [exact IH|apply SL_none].
Qed.

(** * The text that is processed *)

Lemma eval_aeval : forall fs fuel w l c, eval_internal (eval_fuel fs fuel) (process_fuel fs fuel) w (AEval l c) =
  let* '(w, content) := eval_fuel fs (S fuel) w c in
  let* b := block_new (b_sens content) [new_from_node (NEval content)] in
  let* '(w, r) := process_fuel fs fuel w b in
  match r with MOk => Ok (w, b_sens content, []) | _ => Panic end.
Proof.
  intros fs fuel w l c. cbn [eval_internal eval_fuel]. unfold eval_step.
  destruct (eval_internal (eval_fuel fs fuel) (process_fuel fs fuel) w c) as [[[w1 s1] c1]| |]; cbn [bind]; try reflexivity.
  destruct (block_new s1 c1) as [b| |]; reflexivity.
Qed.

Lemma eval_content : forall fs D w a arg m, ascii_files fs -> world_good w -> env_rep D (world_env w) -> reads_ast True arg a -> ast_ok a ->
  stands_for D arg m -> entire D arg ->
  exists w1 b en, same_but_names w w1 /\ wf_block b /\ at_text (block_span b) m /\
    forall fuel l, en <= fuel -> exists sens, eval_fuel fs (S fuel) w (AEval l a) =
      let* '(w, r) := process_fuel fs fuel w1 b in match r with MOk => Ok (w, Blk sens []) | _ => Panic end.
Proof.
  intros fs D w a arg m FS G R RA A SF EN.
  destruct (reads_evaluates fs D w arg a m (proj1 G) R RA A SF) as (w1 & c & en & E & M & _ & SB & _).
  destruct (sole_pieces fs _ a (proj1 (entire_sole D _ R) _ EN _ RA)) as (f0 & SP).
  assert (WC : wf_block c). { pose proof (proj1 (engine_safe fs FS en) w a G A) as X. rewrite (E en (le_n _)) in X. apply X. }
  assert (FC : flat_block c /\ List.length (b_content c) <= 1).
  { pose proof (E (Datatypes.S (Nat.max f0 en)) ltac:(lia)) as E1. cbn [eval_fuel] in E1. unfold eval_step in E1.
    destruct (eval_internal (eval_fuel fs (Nat.max f0 en)) (process_fuel fs (Nat.max f0 en)) w a) as [[[w2 s2] cs2]| |] eqn:E2; cbn [bind] in E1; try discriminate.
    destruct (SP _ (Nat.le_max_l f0 en) w w2 s2 cs2 (proj1 G) A (fun _ => eq_refl) E2) as (F2 & L2).
    destruct (block_new s2 cs2) as [b2| |] eqn:B2; cbn [bind] in E1; try discriminate. injection E1 as _ <-.
    destruct (block_new_flat _ _ _ F2 B2). split; [assumption|lia]. }
  destruct FC as (FC & LC). destruct (node_cref (NEval c) c eq_refl WC) as (Wc & Mc).
  destruct (block_new_ok (b_sens c) [new_from_node (NEval c)]) as (b & Eb & Wb & Mb & _ & _); [constructor; [exact Wc|constructor]|].
  destruct (block_new_flat _ _ _ (Forall_cons (P := piece) _ (wrapped_piece (NEval c) c eq_refl FC LC) (Forall_nil _)) Eb) as (Fb & Lb).
  exists w1, b, en. split; [exact SB|]. split; [exact Wb|]. split.
  - split; [split; [apply block_span_wf, Wb|exact Wb]|]. split; [split; [exact Lb|exact Fb]|].
    rewrite (block_span_marks b Wb), Mb. unfold crefs_marks. cbn [concat List.map]. rewrite app_nil_r, Mc. exact M.
  - intros fuel l L. exists (b_sens c). change (eval_fuel fs (S fuel) w (AEval l a)) with (eval_step (eval_fuel fs fuel) (process_fuel fs fuel) w (AEval l a)).
    unfold eval_step. rewrite eval_aeval, E by lia. cbn [bind]. rewrite Eb. cbn [bind].
    destruct (process_fuel fs fuel w1 b) as [[w2 [| |]]| |]; reflexivity.
Qed.

(** * The line *)

Lemma call_reads : forall s x b t inner tail arg m D e, env_rep D e -> wf_span s -> tidy s -> span_marks s = x :: b :: t -> fst x = dollar -> fst b = open_paren ->
  group open_paren close_paren t inner tail -> begins "eval" inner arg -> stands_for D (lstrip fst arg) m ->
  exists r a, parse_ast s = Ok (POk r (AEval (snd x) a)) /\ reads_ast True (lstrip fst arg) a /\ ast_ok a.
Proof.
  intros s x b t inner tail arg m D e R W F M X B G BE SF.
  destruct (proj1 (stands_means D e R) _ _ SF) as (d & Mm & _). destruct (means_reads _ _ _ _ _ Mm) as (ns0 & R0). apply reads_reads_ast in R0 as (a0 & R0).
  assert (EX : expression (span_marks s)).
  { exists (AEval (snd x) a0). rewrite M. change (AEval (snd x) a0) with (collapsing_concat (snd x) [AEval (snd x) a0]). apply RA_some.
    apply (R_call False x b open_paren close_paren t inner tail); [exact X|rewrite B; constructor|exact G|]. apply (C_eval False _ _ arg); [exact BE|exact R0]. }
  destruct (parse_at s W F EX) as (r & a & P & RA & _ & A). rewrite M in RA. inversion RA as [|? ? ns R' E1 E2]; subst.
  apply reads_dollar_inv in R'; [|exact X].
  destruct R' as [(E & _)|[(c' & v & ns' & E & Q & _)|[(c' & v & ns' & E & Q & _)|[(b' & o & cc & v & i & re & a' & ns' & E & O & G' & NB & _)|(b' & o & cc & v & i & re & a' & E & O & G' & C & ->)]]]];
    try discriminate; injection E as <- <-.
  - rewrite B in Q. discriminate.
  - exfalso. apply Q. rewrite B. cbn; auto.
  - rewrite B in O. inversion O; subst. destruct (group_unique open_paren close_paren _ _ _ _ _ ltac:(discriminate) G G') as (<- & <-).
    exfalso. apply (NB "eval"%string); [now left|]. exists arg. exact BE.
  - rewrite B in O. inversion O; subst. destruct (group_unique open_paren close_paren _ _ _ _ _ ltac:(discriminate) G G') as (<- & <-).
    assert (O2 : forall k, In k ["strip"; "words"; "word"]%string -> begins_with k inner -> False).
    { intros k I (u & w' & E & Ew). destruct BE as (w & -> & Ew'). destruct w as [|c1 w]; [discriminate|]. cbn in Ew'. injection Ew' as Q _.
      cbn in I. destruct I as [<-|[<-|[<-|[]]]]; (destruct w' as [|c2 w']; [discriminate|]); injection E as -> _; cbn in Ew; injection Ew as Q' _; congruence. }
    inversion C as [l t0 u a1 Bu Ra E1|l t0 u ar a1 Bu|l t0 u ar a1 Bu|l t0 u ar y z ar2 a1 a2 Bu]; subst.
    + assert (u = arg) as ->.
      { destruct Bu as (w1 & E1 & Q1), BE as (w2 & E2 & Q2). rewrite E1 in E2. assert (List.length w1 = List.length w2).
        { apply (f_equal (@List.length _)) in Q1. apply (f_equal (@List.length _)) in Q2. unfold chars in Q1, Q2. rewrite map_length in Q1, Q2. congruence. }
        apply app_inj_len in E2 as (_ & ->); auto. }
      exists r, a1. split; [exact P|]. split; [exact Ra|exact A].
    + exfalso. apply (O2 "strip"%string); [cbn; auto|exists u; exact Bu].
    + exfalso. apply (O2 "words"%string); [cbn; auto|exists u; exact Bu].
    + exfalso. apply (O2 "word"%string); [cbn; auto|exists u; exact Bu].
Qed.

Lemma eval_line_ok : forall fs D w s l u u' m, ascii_files fs -> world_good w -> env_rep D (world_env w) ->
  wf_span s -> single s -> span_marks s = l -> ~ has fst c_hash l -> logical_line fst l [] u u' -> eval_line D u m ->
  exists w1 b rest en, same_but_names w w1 /\ wf_block b /\ at_text (block_span b) m /\
    forall fuel, en <= fuel -> target_parse_line (eval_fuel fs (S fuel)) w s =
      let* '(w, r) := process_fuel fs fuel w1 b in match r with MOk => Ok (w, POk rest TNoAction) | _ => Panic end.
Proof.
  intros fs D w s l u u' m FS G R W S M N L (x & c & t & inner & tail & after & arg & Eu & X & C & Gr & WT & Af & FR & BE & SF & EN).
  destruct (inner_line s l u u' W S M N L) as (r0 & b & E & Wb & Fb & Mb).
  assert (Nu : ~ has fst c_hash u).
  { intros (a & I & Q). apply N. exists a. split; [|exact Q]. inversion L; subst; [exact I|]. apply in_or_app. now left. }
  destruct (command_cut b u u [] Wb Fb Mb Nu eq_refl FR) as (pre & rr & semip & ps & E1 & E2 & E3 & Wp & Fp & Mp & CB).
  assert (WW : word_text (x :: c :: t)) by (eapply WT_ref; eassumption).
  assert (FRw : free [semicolon; c_bslash] (x :: c :: t)). { eapply free_sub; [exact FR|]. intros a Ia. rewrite Eu. apply in_or_app. now left. }
  assert (LS : lstrip fst (span_marks (block_span pre)) = (x :: c :: t) ++ after).
  { rewrite (block_span_marks pre Wp), Mp, Eu. apply word_strips; [exact WW|discriminate|]. intros a Ia J. apply (FRw a Ia). cbn in J |- *. tauto. }
  destruct (mword_any (block_span pre) (x :: c :: t) after (block_span_wf pre Wp) LS WW FRw ltac:(discriminate) Af)
    as (r & cap & reason & En & I & (Kc & Mc) & (Kr & Mr)).
  destruct (call_reads cap x c t inner tail arg m D (world_env w) R (proj1 Kc) (proj1 (proj2 (proj2 Kc)) Fp) Mc X C Gr BE SF) as (r1 & a & P & RA & A).
  destruct (eval_content fs D w a (lstrip fst arg) m FS G R RA A SF EN) as (w1 & eb & en & SB & We & Ae & EV).
  exists w1, eb, r0, en. split; [exact SB|]. split; [exact We|]. split; [exact Ae|].
  intros fuel Lf. unfold target_parse_line, wbind. rewrite E. cbn [bind]. rewrite E1. cbn [bind]. rewrite E2. cbn [bind]. rewrite E3. cbn [bind].
  rewrite En. cbn [bind]. destruct (EV fuel (snd x) Lf) as (sens & EV1).
  assert (TL : target_loop (eval_fuel fs (Datatypes.S fuel)) (Datatypes.S (Datatypes.S (sp_len r))) w r cap ps block_empty =
    let* '(w, res) := process_fuel fs fuel w1 eb in match res with MOk => Ok (w, POk r TsConsumed) | _ => Panic end).
  { remember (Datatypes.S (sp_len r)) as n. cbn [target_loop]. unfold expand_segment, wbind. rewrite P. cbn [bind]. rewrite EV1.
    destruct (process_fuel fs fuel w1 eb) as [[w2 [| |]]| |]; cbn [bind]; try reflexivity.
    destruct ps as [ps|]; [reflexivity|]. reflexivity. }
  cbn in I. destruct I as [<-|[<-|[]]]; rewrite TL; destruct (process_fuel fs fuel w1 eb) as [[w2 [| |]]| |]; reflexivity.
Qed.

Lemma nested_sim : forall st s w w', sim st s w -> world_good w -> same_but_names w w' -> sim (nested st) pstate_new w'.
Proof.
  intros st s w w' SI G SB. destruct (sim_same _ _ _ _ SI (proj1 G) SB) as [E C I R RS D F K Kd]. constructor; cbn; auto.
Qed.

Lemma eval_start : forall fs st s w i t l rest u u' m, ascii_files fs -> sim st s w -> world_good w -> state_ok s w ->
  at_text i t -> ~ is_comment_text t -> directly st t -> plain_line t l rest -> solid l ->
    m_ignoring st = false -> unconditional l -> begins_none (modifier_words ++ directive_words) l -> no_assignment l ->
    logical_line fst l [] u u' -> eval_line (m_defs st) u m ->
  exists r w1 b en, at_text r rest /\ same_but_names w w1 /\ wf_block b /\ at_text (block_span b) m /\
    forall fuel, en <= fuel -> engine_line fs (S fuel) s w i =
      let* '(w, res) := process_fuel fs fuel w1 b in
      match res with MOk => let* '(s, w) := close_rule s w in Ok (s, w, POk r tt) | _ => Panic end.
Proof.
  intros fs st s w i t l rest u u' m FS SI G SO A NC DR P So IG BC BN NA LL EL0.
  pose proof (plain_text _ _ _ P) as LT. destruct (line_at i t l rest A LT) as (rr & b & E & Ar & W & F & M).
  pose proof (line_start_with fs st s w i t rr b SI A NC DR E) as EL.
  pose proof (plain_single i t l rest rr b A P E) as SB. pose proof (block_span_wf b W) as WS.
  assert (MS : span_marks (block_span b) = l) by (rewrite (block_span_marks b W); exact M).
  assert (BM : begins_none modifier_words l) by (intros k v I; apply BN; apply in_or_app; now left).
  assert (BD : begins_none directive_words l) by (intros k v I; apply BN; apply in_or_app; now right).
  destruct (conditional_none (block_span b) WS F) as (kc & Ec); [rewrite MS; exact So|rewrite MS; exact BC|].
  assert (LS : lstrip fst (span_marks (block_span b)) = l) by (rewrite MS; apply solid_strip; exact So).
  destruct (directive_none (block_span b) WS) as (kd & Ed); [rewrite MS; exact BD|].
  assert (EV : forall ev, exists e, variable_parse_line ev w (block_span b) = Ok (w, PError e)).
  { intros ev. apply variable_none; [exact WS|rewrite LS; exact NA|rewrite LS; exact BM]. }
  destruct (eval_line_ok fs (m_defs st) w (block_span b) l u u' m FS G (sim_env _ _ _ SI) WS SB MS (plain_no_hash _ _ _ P) LL EL0)
    as (w1 & eb & r1 & en & S1 & We & Ae & ET).
  exists rr, w1, eb, en. split; [exact Ar|]. split; [exact S1|]. split; [exact We|]. split; [exact Ae|].
  intros fuel Lf. rewrite EL, (block_len_marks b W), M. destruct So as (x & v & El & Bx). rewrite El. cbn [List.length Nat.eqb].
  rewrite Ec. cbn [bind run_parser]. rewrite (sim_ignoring _ _ _ SI), IG. unfold parse_active_line.
  destruct (EV (eval_fuel fs (Datatypes.S fuel))) as (ev & Ev). rewrite Ev. cbn [bind run_parser]. rewrite Ed. cbn [bind run_parser].
  rewrite (first_char_ok _ WS), span_text_marks, MS, El. cbn [List.map hd_error bind]. rewrite (sim_cmd _ _ _ SI).
  assert (Q : (fst x =? c_tab)%N = false).
  { apply N.eqb_neq. intros Q. rewrite Q in Bx. discriminate. }
  rewrite Q, (ET fuel Lf). destruct (process_fuel fs fuel w1 eb) as [[w2 [| |]]| |]; cbn [bind]; try reflexivity.
  cbn [run_parser handle_target_action]. destruct (close_rule s w2) as [[s3 w3]| |]; reflexivity.
Qed.
