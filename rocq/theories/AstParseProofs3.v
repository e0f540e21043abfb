(** Proofs about expression parsing: what the parsed expression means. *)
From Coq Require Import String Lia.
From Verif Require Import Base LocModel EvdModel NomModel AstModel ParseModel AstParseModel EngineModel
  EvdSpec ParseSpec EvalSpec AstParseSpec EvdProofs EvdProofs2 EvdProofs3 ParseProofs ParseProofs2
  EvalProofs EvalProofs2 EvalProofs3 EvalProofs4 AstParseProofs AstParseProofs2.
Local Open Scope nat_scope.

(** * Parsed expressions are well-formed *)

Lemma collapsing_ok : forall l ns, Forall ast_ok ns -> ast_ok (collapsing_concat l ns).
Proof.
  intros l ns H. unfold collapsing_concat. assert (Forall ast_ok (filter a_nonempty ns)) as F.
  { rewrite Forall_forall in *. intros a I. apply filter_In in I. now apply H. }
  destruct (filter a_nonempty ns) as [|a [|b v]]; [exact I|now inversion F|].
  cbn [ast_ok]. now apply fold_and_Forall.
Qed.

Definition ascii_marks (t : list placed) : Prop := asciis (chars t).
Lemma ascii_marks_app : forall t u, ascii_marks (t ++ u) <-> ascii_marks t /\ ascii_marks u.
Proof. intros t u. unfold ascii_marks, chars. rewrite map_app. apply asciis_app. Qed.
Lemma ascii_marks_cons : forall c t, ascii_marks (c :: t) <-> ascii (fst c) /\ ascii_marks t.
Proof. intros c t. unfold ascii_marks, chars, asciis. cbn. split; [intros H; inversion H; auto|intros (A & B); constructor; auto]. Qed.

Lemma spells_ascii : forall cs t, spells cs t -> ascii_marks t -> Forall (fun g => asciis (l_str g)) cs.
Proof.
  intros cs t (E & _). subst t. induction cs as [|g cs IH]; [constructor|]. rewrite segments_marks_cons, ascii_marks_app.
  intros (A & B). constructor; [|auto]. unfold ascii_marks, chars, located_marks in A. now rewrite mark_fst in A.
Qed.

Lemma group_ascii : forall o c t i r, group o c t i r -> ascii_marks t -> ascii_marks i /\ ascii_marks r.
Proof.
  intros o c t i r (_ & _ & x & _ & ->) A. apply ascii_marks_app in A as (A & B). apply ascii_marks_cons in B as (_ & B). auto.
Qed.
Lemma begins_ascii : forall k t u, begins k t u -> ascii_marks t -> ascii_marks (lstrip fst u).
Proof.
  intros k t u (w & -> & _) A. apply ascii_marks_app in A as (_ & A). destruct (lstrip_suffix fst u) as (pre & E & _).
  rewrite E in A. now apply ascii_marks_app in A.
Qed.
Lemma lstrip_ascii : forall u, ascii_marks u -> ascii_marks (lstrip fst u).
Proof. intros u A. destruct (lstrip_suffix fst u) as (pre & E & _). rewrite E in A. now apply ascii_marks_app in A. Qed.
Lemma argument_ascii : forall t a r, argument t a r -> ascii_marks t -> ascii_marks a /\ ascii_marks r.
Proof. intros t a r (-> & _) A. now apply ascii_marks_app in A. Qed.

Lemma reads_ok : forall whole : Prop, (forall t ns, reads whole t ns -> ascii_marks t -> Forall ast_ok ns) /\
  (forall t a, reads_ast whole t a -> ascii_marks t -> ast_ok a) /\
  (forall l t a, calls whole l t a -> ascii_marks t -> ast_ok a).
Proof.
  intros whole. apply reads_all.
  - constructor.
  - intros t cs u ns _ _ S _ _ IH A. apply ascii_marks_app in A as (At & Au). apply Forall_app. split; [|auto].
    apply Forall_map. exact (spells_ascii _ _ S At).
  - intros d _ _. repeat constructor.
  - intros d c u ns _ _ _ IH A. apply ascii_marks_cons in A as (_ & A). apply ascii_marks_cons in A as (_ & A).
    constructor; [repeat constructor|auto].
  - intros d c u ns _ _ _ IH A. apply ascii_marks_cons in A as (_ & A). apply ascii_marks_cons in A as (Ac & A).
    constructor; [cbn; repeat constructor; exact Ac|auto].
  - intros d b o c t i r a ns _ _ G _ _ IH1 _ IH2 A. apply ascii_marks_cons in A as (_ & A). apply ascii_marks_cons in A as (_ & A).
    destruct (group_ascii _ _ _ _ _ G A). constructor; [cbn|]; auto.
  - intros d b o c t i r a _ _ G _ IH A. apply ascii_marks_cons in A as (_ & A). apply ascii_marks_cons in A as (_ & A).
    destruct (group_ascii _ _ _ _ _ G A). constructor; [|constructor]; auto.
  - intros _. exact I.
  - intros m t ns _ IH A. apply collapsing_ok. auto.
  - intros l t u a B _ IH A. cbn. apply IH. eapply begins_ascii; eauto.
  - intros l t u arg a B Ar _ IH A. cbn. apply IH. eapply (argument_ascii _ _ _ Ar), begins_ascii; eauto.
  - intros l t u arg a B Ar _ IH A. cbn. apply IH. eapply (argument_ascii _ _ _ Ar), begins_ascii; eauto.
  - intros l t u arg1 x v arg2 a1 a2 B _ Ar1 _ IH1 Ar2 _ IH2 A. cbn.
    destruct (argument_ascii _ _ _ Ar1 (begins_ascii _ _ _ B A)) as (A1 & A2). split; [auto|]. apply IH2.
    apply ascii_marks_cons in A2 as (_ & A2). apply (argument_ascii _ _ _ Ar2). now apply lstrip_ascii.
Qed.

Lemma span_ascii : forall s, wf_span s -> ascii_marks (span_marks s).
Proof. intros s W. unfold ascii_marks, chars. rewrite span_marks_text. now apply wf_span_ascii. Qed.

(** * Meaning *)

Lemma expands_all_app : forall e a b m1 d1 m2 d2, expands_all e a m1 d1 -> expands_all e b m2 d2 ->
  expands_all e (a ++ b) (m1 ++ m2) (d1 ++ d2).
Proof.
  intros e a. induction a as [|x a IH]; intros b m1 d1 m2 d2 A B; [apply expands_all_nil in A as (-> & ->); exact B|].
  apply expands_all_cons in A as (m3 & d3 & m4 & d4 & -> & -> & X & A).
  cbn [app]. rewrite <- !app_assoc. apply E_cons; auto.
Qed.

Lemma expands_collapsing : forall e l ns m d, expands_all e ns m d -> expands e (collapsing_concat l ns) m d.
Proof. exact collapsing_expands. Qed.

Lemma expands_spells : forall e cs, expands_all e (List.map a_constant cs) (segments_marks cs) [].
Proof.
  intros e. induction cs as [|g cs IH]; [apply E_nil|]. rewrite segments_marks_cons. cbn [List.map].
  change (@nil str) with (@nil str ++ []). apply E_cons; [apply E_const|exact IH].
Qed.

Lemma variable_expands : forall e l nm n d0 m d, expands e nm n d0 -> plain n -> variable_value e (chars n) m d ->
  expands e (AVar l nm) m (d0 ++ d).
Proof.
  intros e l nm n d0 m d E P V. unfold variable_value in V. destruct (e (chars n)) as [v|] eqn:X.
  - destruct V as (d2 & V & ->). eapply E_var; eauto.
  - destruct V as (-> & ->). now apply E_undefined.
Qed.

Lemma means_text : forall (whole : Prop) e t u m d, ~ has fst dollar t -> means whole e (t ++ u) m d -> exists m', m = t ++ m' /\ means whole e u m' d.
Proof.
  intros whole e. induction t as [|c t IH]; intros u m d N M; [now exists m|]. rewrite has_cons in N. cbn in M.
  inversion M; subst; try (exfalso; tauto). destruct (IH u m0 d) as (m' & -> & M'); [tauto|assumption|]. now exists m'.
Qed.

Lemma single_plain : forall c, plain [c].
Proof.
  intros c n k r (x & q & E & _). destruct n as [|? [|]]; cbn in E; injection E as E1 E2; try discriminate;
  destruct k; discriminate.
Qed.

Lemma means_dollar : forall (whole : Prop) e x u m d, fst x = dollar -> means whole e (x :: u) m d ->
  match u with
  | [] => m = [x] /\ d = []
  | c :: t =>
      (fst c = dollar /\ exists m', m = c :: m' /\ means whole e t m' d) \/
      (~ In (fst c) [dollar; open_paren; close_brace] /\ exists m1 d1 m2 d2, m = m1 ++ m2 /\ d = d1 ++ d2 /\
         variable_value e [fst c] m1 d1 /\ means whole e t m2 d2) \/
      (fst c = open_paren /\ exists inner rest d0 m1 m2 d2, m = m1 ++ m2 /\ d = d0 ++ d2 /\
         group open_paren close_paren t inner rest /\ (forall k, In k function_names -> ~ begins_with k inner) /\
         ((exists nm d1 d2, d0 = d1 ++ d2 /\ means whole e inner nm d1 /\ plain nm /\ variable_value e (chars nm) m1 d2) \/
          (whole /\ ~ has fst dollar inner /\ unbroken inner /\ exists n k r, is_subst inner n k r /\ subst_value e (chars n) k r m1 d0)) /\
         means whole e rest m2 d2)
  end.
Proof.
  intros whole e x u m d X M. inversion M; subst; try contradiction.
  - auto.
  - left. split; [assumption|]. eexists. split; [reflexivity|assumption].
  - right. left. split; [assumption|]. exists m1, d1, m2, d2. auto.
  - right. right. split; [assumption|]. exists inner, rest, (d0 ++ d1), m1, m2, d2. repeat (split; [solve [auto]|]). split; [|assumption].
    left. exists nm, d0, d1. auto.
  - right. right. split; [assumption|]. exists inner, rest, d1, m1, m2, d2. repeat (split; [solve [auto]|]). split; [|assumption].
    right. repeat (split; [assumption|]). exists n, k, r. auto.
Qed.

(** Text written in one go is read as one constant. *)
Lemma spells_whole : forall cs t, t <> [] -> spells cs t -> unbroken t -> parted located_marks cs -> exists g, cs = [g].
Proof.
  intros cs t N (E & F) U P. destruct cs as [|g [|h cs]]; [cbn in E; congruence|now exists g|]. exfalso.
  inversion F as [|? ? Ng F2]; inversion F2 as [|? ? Nh F3]; subst. unfold segments_marks in *. cbn [List.map concat] in *.
  assert (L : forall g, l_str g <> [] -> located_marks g <> []).
  { intros [l [|c s]] H; [now contradiction H|discriminate]. }
  destruct (exists_last (L g Ng)) as (u & x & Eg). destruct (located_marks h) as [|y v] eqn:Eh; [now apply (L h Nh)|].
  apply (P [g] (h :: cs) u x y (v ++ concat (List.map located_marks cs))); [reflexivity|cbn; now rewrite app_nil_r|cbn; now rewrite Eh|].
  apply (U u x y (v ++ concat (List.map located_marks cs))). rewrite Eg, <- app_assoc. reflexivity.
Qed.

Lemma reads_nil : forall (whole : Prop) ns, reads whole [] ns -> ns = [].
Proof.
  intros whole ns R. inversion R as [|t cs u ns' Nt|  | | | |]; subst; [reflexivity|].
  destruct t; [now contradiction Nt|discriminate].
Qed.

Lemma reads_plain_whole : forall (whole : Prop) t a, whole -> ~ has fst dollar t -> unbroken t -> reads_ast whole t a ->
  one_piece a /\ forall e, expands e a t [].
Proof.
  intros whole t a w N U R. inversion R as [|m t' ns R' E1 E2]; subst.
  - split; [exact Logic.I|]. intros e. apply E_empty.
  - assert (exists g, ns = [a_constant g] /\ located_marks g = m :: t') as (g & -> & Eg).
    { inversion R' as [|t cs u ns' Nt Nd Sp Wh Ru E3 E4| | | | |]; subst; try (exfalso; apply N; apply has_cons; auto; fail).
      destruct (Wh w) as (P & B). assert (u = []) as ->.
      { destruct u as [|c u]; [reflexivity|]. exfalso. apply N. rewrite <- E3. apply has_app. right. apply has_cons. left. eapply B. reflexivity. }
      rewrite app_nil_r in *. apply reads_nil in Ru as ->. subst t. destruct (spells_whole _ _ Nt Sp U P) as (g & ->). exists g. split; [reflexivity|].
      destruct Sp as (Sp & _). cbn in Sp. now rewrite app_nil_r in Sp. }
    rewrite <- Eg. split.
    + unfold collapsing_concat. cbn. exact Logic.I.
    + intros e. apply expands_collapsing. replace (located_marks g) with (segments_marks [g]) by apply app_nil_r.
      apply (expands_spells e [g]).
Qed.

Lemma subst_expands : forall e l nm i n k r m d, expands e nm i [] -> one_piece nm -> is_subst i n k r -> subst_value e (chars n) k r m d ->
  expands e (AVar l nm) m d.
Proof.
  intros e l nm i n k r m d E O S V. unfold subst_value in V. destruct (e (chars n)) as [v|] eqn:X.
  - destruct V as (p2 & d2 & V & Sb & ->). destruct E as (ps & E & ->). exists [m]. split; [|cbn; now rewrite app_nil_r].
    change (chars n :: d2) with ([] ++ chars n :: d2). eapply X_subst; eauto using one_piece_in.
  - destruct V as (-> & ->). change [chars n] with ([] ++ [chars n]). eapply E_subst_undefined; eauto.
Qed.

Lemma reads_means : forall (whole : Prop) e, (forall t ns, reads whole t ns -> forall m d, means whole e t m d -> expands_all e ns m d) /\
  (forall t a, reads_ast whole t a -> forall m d, means whole e t m d -> expands e a m d) /\
  (forall l t a, calls whole l t a -> True).
Proof.
  intros whole e. apply reads_all; try (intros; exact Logic.I).
  - intros m d M. inversion M; subst. apply E_nil.
  - intros t cs u ns _ N (Sp & _) _ _ IH m d M. apply means_text in M as (m' & -> & M); [|exact N].
    rewrite <- Sp. change d with ([] ++ d). apply expands_all_app; [apply expands_spells|auto].
  - intros x X m d M. apply means_dollar in M as (-> & ->); [|exact X]. destruct x as (c, l). cbn in *. subst c.
    change (expands_all e [a_constant (Located l [dollar])] ([(dollar, l)] ++ []) ([] ++ [])).
    apply E_cons; [apply (E_const e l (Located l [dollar]))|apply E_nil].
  - intros x c u ns X C _ IH m d M.
    apply means_dollar in M as [(_ & m' & -> & M)|[(N & _)|(O & _)]]; [| | |exact X].
    + change d with ([] ++ d). change (c :: m') with ([c] ++ m'). apply E_cons; [|auto].
      destruct c as (c, l). cbn in *. subst c. apply (E_const e l (Located l [dollar])).
    + exfalso. apply N. rewrite C. cbn. auto.
    + exfalso. rewrite C in O. discriminate.
  - intros x c u ns X C _ IH m d M.
    apply means_dollar in M as [(D & _)|[(_ & m1 & d1 & m2 & d2 & -> & -> & V & M)|(O & _)]]; [| | |exact X].
    + exfalso. apply C. rewrite D. cbn. auto.
    + apply E_cons; [|auto]. change d1 with ([] ++ d1).
      apply (variable_expands e (snd x) (a_constant (Located (snd c) [fst c])) [c] [] m1 d1); [|apply single_plain|exact V].
      destruct c as (c, l). apply (E_const e l (Located l [c])).
    + exfalso. apply C. rewrite O. cbn. auto.
  - intros x b o c t i r a ns X Op G Nk Ra IH1 _ IH2 m d M.
    apply means_dollar in M as [(D & _)|[(N & _)|(O & i' & r' & d0 & m1 & m2 & d2 & -> & -> & G' & _ & Mi & Mr)]];
      [| | |exact X].
    + exfalso. rewrite D in Op. inversion Op.
    + exfalso. apply N. inversion Op; cbn; auto.
    + rewrite O in Op. inversion Op; subst.
      destruct (group_unique open_paren close_paren _ _ _ _ _ ltac:(discriminate) G G') as (<- & <-).
      apply E_cons; [|auto]. destruct Mi as [(nm & da & db & -> & Mi & P & V)|(w & Nd & U & n & k & rr & S & V)].
      * eapply variable_expands; eauto.
      * destruct (reads_plain_whole _ _ _ w Nd U Ra) as (Op1 & Ex). eapply subst_expands; eauto.
  - intros x b o c t i r a X Op G C _ m d M. exfalso. apply calls_begins in C as (k & Ik & Bk).
    apply means_dollar in M as [(D & _)|[(N & _)|(O & i' & r' & d0 & m1 & m2 & d2 & _ & _ & G' & Nk & _)]];
      [| | |exact X].
    + rewrite D in Op. inversion Op.
    + apply N. inversion Op; cbn; auto.
    + rewrite O in Op. inversion Op; subst.
      destruct (group_unique open_paren close_paren _ _ _ _ _ ltac:(discriminate) G G') as (<- & <-). eapply Nk; eauto.
  - intros m d M. inversion M; subst. apply E_empty.
  - intros x t ns _ IH m d M. apply expands_collapsing. auto.
Qed.

Lemma reads_reads_ast : forall (whole : Prop) t ns, reads whole t ns -> exists a, reads_ast whole t a.
Proof. intros whole [|m t] ns R; eexists; econstructor. exact R. Qed.

Lemma reads_false_plain : forall t, ~ has fst dollar t -> exists ns, reads False t ns.
Proof.
  intros t N. destruct (spells_exists t) as (cs & S). exists (List.map a_constant cs ++ []). rewrite <- (app_nil_r t).
  apply reads_text; [exact N|exact S|tauto|constructor].
Qed.

Lemma means_reads : forall (whole : Prop) e t m d, means whole e t m d -> exists ns, reads False t ns.
Proof.
  intros whole e t m d M. induction M.
  - exists []. constructor.
  - destruct IHM as (ns & R). eexists. apply (R_text False [c] [Located (snd c) [fst c]]); [discriminate| |apply spells_one|tauto|exact R].
    intros (x & [<-|[]] & E). contradiction.
  - eexists. now constructor.
  - destruct IHM as (ns & R). eexists. eapply R_dollar; eauto.
  - destruct IHM as (ns & R). eexists. eapply R_char; eauto.
  - destruct IHM1 as (ns1 & R1). destruct IHM2 as (ns2 & R2). apply reads_reads_ast in R1 as (a & Ra).
    eexists. eapply R_var; eauto. rewrite H0. constructor.
  - destruct IHM as (ns2 & R2). destruct (reads_false_plain inner) as (ns1 & R1); [assumption|]. apply reads_reads_ast in R1 as (a & Ra).
    eexists. eapply R_var; eauto. rewrite H1. constructor.
Qed.

Lemma parse_means : forall s e m d, wf_span s -> flat s -> means (tidy s) e (span_marks s) m d ->
  exists r a, parse_ast s = Ok (POk r a) /\ sp_len r = 0 /\ ast_ok a /\ expands e a m d.
Proof.
  intros s e m d W F M. pose proof (parse_ast_good s W) as G. destruct (means_reads _ _ _ _ _ M) as (ns & R).
  apply reads_reads_ast in R as (a0 & R). destruct (parse_ast s) as [[r a|ks|ks]| |]; cbn in G.
  - destruct G as (_ & Z & Ra). exists r, a. split; [reflexivity|]. split; [exact Z|]. split.
    + apply (proj1 (proj2 (reads_ok _)) _ _ Ra). now apply span_ascii.
    + now apply (proj1 (proj2 (reads_means _ e)) _ _ Ra).
  - contradiction.
  - exfalso. now apply (proj2 G a0).
  - contradiction.
  - contradiction.
Qed.

Lemma parse_evaluates : forall fs s w m d, wf_span s -> flat s -> world_ok w -> means (tidy s) (world_env w) (span_marks s) m d ->
  exists r a, parse_ast s = Ok (POk r a) /\ sp_len r = 0 /\ evaluates fs w a m d.
Proof.
  intros fs s w m d W F Wo M. destruct (parse_means _ _ _ _ W F M) as (r & a & E & Z & O & X).
  exists r, a. split; [exact E|]. split; [exact Z|]. now apply expands_evaluates.
Qed.

Lemma means_plain : forall (whole : Prop) e t, ~ has fst dollar t -> means whole e t t [].
Proof.
  intros whole e. induction t as [|c t IH]; intros N; [constructor|]. rewrite has_cons in N. constructor; tauto.
Qed.

Lemma means_before : forall (whole : Prop) e t u m d, ~ has fst dollar t -> means whole e u m d -> means whole e (t ++ u) (t ++ m) d.
Proof.
  intros whole e. induction t as [|c t IH]; intros u m d N M; [exact M|]. rewrite has_cons in N. cbn. constructor; [tauto|].
  apply IH; tauto.
Qed.

(** * Names *)

Lemma count_none : forall c t, ~ has fst c t -> count c t = 0.
Proof.
  intros c. induction t as [|a t IH]; intros H; [reflexivity|]. rewrite has_cons in H. rewrite count_cons.
  destruct (N.eqb_spec (fst a) c); [tauto|]. rewrite IH; tauto.
Qed.

Lemma bare_group : forall o c t x r, ~ has fst o t -> ~ has fst c t -> fst x = c -> group o c (t ++ x :: r) t r.
Proof.
  intros o c t x r No Nc X. split; [|split].
  - intros p q ->. rewrite has_app in No, Nc. rewrite !count_none by tauto. lia.
  - unfold all_closed. now rewrite !count_none.
  - now exists x.
Qed.

(** `$(name)` with a name that contains no brackets or references. *)
Lemma parse_variable : forall fs s w x b n y m d, wf_span s -> flat s -> world_ok w ->
  span_marks s = x :: b :: n ++ [y] -> fst x = dollar -> fst b = open_paren -> fst y = close_paren ->
  ~ has fst dollar n -> ~ has fst open_paren n -> ~ has fst close_paren n -> plain n ->
  (forall k, In k function_names -> ~ begins_with k n) ->
  variable_value (world_env w) (chars n) m d ->
  exists r a, parse_ast s = Ok (POk r a) /\ sp_len r = 0 /\ evaluates fs w a m d.
Proof.
  intros fs s w x b n y m d W F Wo E X B Y N1 N2 N3 P K V. apply parse_evaluates; auto. rewrite E.
  replace m with (m ++ []) by apply app_nil_r. replace d with (([] ++ d) ++ []) by apply app_nil_r.
  eapply M_var; eauto; [|now apply means_plain|constructor].
  rewrite <- Y. apply bare_group; auto. now rewrite Y.
Qed.

(** `$(name:key=replacement)` *)
Lemma parse_subst_reference : forall fs s w x b t y n k r m d, wf_span s -> tidy s -> world_ok w ->
  span_marks s = x :: b :: t ++ [y] -> fst x = dollar -> fst b = open_paren -> fst y = close_paren ->
  ~ has fst dollar t -> ~ has fst open_paren t -> ~ has fst close_paren t -> unbroken t -> is_subst t n k r ->
  (forall f, In f function_names -> ~ begins_with f t) ->
  subst_value (world_env w) (chars n) k r m d ->
  exists r a, parse_ast s = Ok (POk r a) /\ sp_len r = 0 /\ evaluates fs w a m d.
Proof.
  intros fs s w x b t y n k r m d W F Wo E X B Y N1 N2 N3 U S K V. apply parse_evaluates; [exact W|exact (proj1 F)|exact Wo|]. rewrite E.
  rewrite <- (app_nil_r m), <- (app_nil_r d).
  apply (M_subst (tidy s) (world_env w) x b (t ++ [y]) t [] n k r m d [] []); try assumption; [|apply M_nil].
  rewrite <- Y. apply bare_group; [exact N2| |reflexivity]. rewrite Y. exact N3.
Qed.

(** `$c` *)
Lemma parse_short_variable : forall fs s w x c u m d m2 d2, wf_span s -> flat s -> world_ok w ->
  span_marks s = x :: c :: u -> fst x = dollar -> ~ In (fst c) [dollar; open_paren; close_brace] ->
  variable_value (world_env w) [fst c] m d -> means (tidy s) (world_env w) u m2 d2 ->
  exists r a, parse_ast s = Ok (POk r a) /\ sp_len r = 0 /\ evaluates fs w a (m ++ m2) (d ++ d2).
Proof.
  intros fs s w x c u m d m2 d2 W F Wo E X C V M. apply parse_evaluates; auto. rewrite E. now apply M_char.
Qed.

Lemma filter_none_call : forall l a, (forall k, call_of k a -> True) -> a_nonempty a = true -> collapsing_concat l [a] = a.
Proof. intros l a _ H. unfold collapsing_concat. cbn. now rewrite H. Qed.

Lemma calls_word : forall (whole : Prop) k l t a, In k function_names -> begins_with k t -> calls whole l t a ->
  call_of k a \/ (k = "word"%string /\ call_of "words" a).
Proof.
  intros whole k l t a I B C. apply begins_starts in B. inversion C; subst;
  match goal with H : begins ?q t _ |- _ => assert (begins_with q t) as B' by (eexists; eauto); apply begins_starts in B' end;
  apply starts_with_iff in B as (p1 & E1); apply starts_with_iff in B' as (p2 & E2);
  cbn in I; destruct I as [<-|[<-|[<-|[<-|[]]]]]; try (left; exact Logic.I); try (right; split; [reflexivity|exact Logic.I]);
  try (exfalso; rewrite E1 in E2; discriminate).
  exfalso. apply H0. apply begins_starts. apply starts_with_iff. now exists p1.
Qed.

Lemma reads_call : forall (whole : Prop) k x b n y r a, In k function_names -> fst x = dollar -> fst b = open_paren -> fst y = close_paren ->
  ~ has fst open_paren n -> ~ has fst close_paren n -> begins_with k n ->
  reads_ast whole (x :: b :: n ++ y :: r) a -> call_of k a \/ (k = "word"%string /\ call_of "words" a).
Proof.
  intros whole k x b n y r a I X B Y N1 N2 Bk R. inversion R as [|m t ns R' E1 E2]; subst. clear R.
  assert (G : group open_paren close_paren (n ++ y :: r) n r) by (apply bare_group; auto; now rewrite Y).
  apply reads_dollar_inv in R'; [|exact X].
  destruct R' as [(E & _)|[(c & u & ns' & E & D & _)|[(c & u & ns' & E & D & _)|
    [(b0 & o & c & u & i & rr & a0 & ns' & E & O & G' & K & _)|(b0 & o & c & u & i & rr & a0 & E & O & G' & C & ->)]]]].
  - discriminate.
  - injection E as <- <-. congruence.
  - injection E as <- <-. exfalso. apply D. rewrite B. cbn. auto.
  - injection E as <- <-. rewrite B in O. inversion O; subst.
    destruct (group_unique open_paren close_paren _ _ _ _ _ ltac:(discriminate) G G') as (<- & <-).
    exfalso. eapply K; eauto.
  - injection E as <- <-. rewrite B in O. inversion O; subst.
    destruct (group_unique open_paren close_paren _ _ _ _ _ ltac:(discriminate) G G') as (<- & <-).
    rewrite filter_none_call; [|auto|inversion C; reflexivity]. eapply calls_word; eauto.
Qed.

Lemma parse_call : forall k s x b n y rest r a, wf_span s -> In k function_names ->
  span_marks s = x :: b :: n ++ y :: rest -> fst x = dollar -> fst b = open_paren -> fst y = close_paren ->
  ~ has fst open_paren n -> ~ has fst close_paren n -> begins_with k n ->
  parse_ast s = Ok (POk r a) -> call_of k a \/ (k = "word"%string /\ call_of "words" a).
Proof.
  intros k s x b n y rest r a W I E X B Y N1 N2 Bk P. pose proof (parse_ast_good s W) as G. rewrite P in G. destruct G as (_ & _ & R).
  rewrite E in R. eapply reads_call; eauto.
Qed.

Lemma parse_outcome_ok : forall s, wf_span s ->
  match parse_ast s with
  | Ok (POk r a) => sp_len r = 0 /\ reads_ast (tidy s) (span_marks s) a
  | Ok (PFailure _) => forall a, ~ reads_ast False (span_marks s) a
  | Ok (PError _) | OutOfFuel => False
  | Panic => ~ flat s
  end.
Proof.
  intros s W. pose proof (parse_ast_good s W) as G. destruct (parse_ast s) as [[r a|ks|ks]| |]; cbn in G; tauto.
Qed.

Lemma parse_dollar : forall fs s w t x y u, wf_span s -> flat s -> world_ok w -> span_marks s = t ++ x :: y :: u ->
  ~ has fst dollar t -> fst x = dollar -> fst y = dollar -> ~ has fst dollar u ->
  exists r a, parse_ast s = Ok (POk r a) /\ sp_len r = 0 /\ evaluates fs w a (t ++ y :: u) [].
Proof.
  intros fs s w t x y u W F O E N X Y Nu. apply parse_evaluates; auto. rewrite E. apply means_before; [exact N|].
  apply M_dollar; auto. now apply means_plain.
Qed.

Lemma parse_braces : forall fs s w x b u m d, wf_span s -> flat s -> world_ok w ->
  span_marks s = x :: b :: u -> fst x = dollar -> fst b = open_brace -> ~ has fst dollar u ->
  variable_value (world_env w) [open_brace] m d ->
  exists r a, parse_ast s = Ok (POk r a) /\ sp_len r = 0 /\ evaluates fs w a (m ++ u) d.
Proof.
  intros fs s w x b u m d W F O E X B N V. replace d with (d ++ []) by apply app_nil_r.
  eapply parse_short_variable; eauto.
  - rewrite B. cbn. intuition discriminate.
  - now rewrite B.
  - now apply means_plain.
Qed.

Lemma call_drops_rest : forall (whole : Prop) k x b n y r a, In k function_names ->
  fst x = dollar -> fst b = open_paren -> fst y = close_paren -> ~ has fst open_paren n -> ~ has fst close_paren n -> begins_with k n ->
  reads_ast whole (x :: b :: n ++ y :: r) a -> forall r', reads_ast whole (x :: b :: n ++ y :: r') a.
Proof.
  intros whole k x b n y r a I X B Y N1 N2 Bk R r'. inversion R as [|m t ns R' E1 E2]; subst. clear R.
  assert (G : forall r, group open_paren close_paren (n ++ y :: r) n r) by (intros q; apply bare_group; auto; now rewrite Y).
  apply reads_dollar_inv in R'; [|exact X].
  destruct R' as [(E & _)|[(c & u & ns' & E & D & _)|[(c & u & ns' & E & D & _)|
    [(b0 & o & c & u & i & rr & a0 & ns' & E & O & G' & K & _)|(b0 & o & c & u & i & rr & a0 & E & O & G' & C & ->)]]]].
  - discriminate.
  - injection E as <- <-. congruence.
  - injection E as <- <-. exfalso. apply D. rewrite B. cbn. auto.
  - injection E as <- <-. rewrite B in O. inversion O; subst.
    destruct (group_unique open_paren close_paren _ _ _ _ _ ltac:(discriminate) (G _) G') as (<- & <-).
    exfalso. eapply K; eauto.
  - injection E as <- <-. pose proof O as O'. rewrite B in O'. inversion O'; subst.
    destruct (group_unique open_paren close_paren _ _ _ _ _ ltac:(discriminate) (G _) G') as (<- & <-).
    constructor. eapply R_call; eauto.
Qed.

(** Less strict readings. *)
Lemma reads_mono : forall (w w' : Prop), (w' -> w) -> (forall t ns, reads w t ns -> reads w' t ns) /\
  (forall t a, reads_ast w t a -> reads_ast w' t a) /\ (forall l t a, calls w l t a -> calls w' l t a).
Proof.
  intros w w' H. apply reads_all; intros; econstructor; eauto.
Qed.
Lemma means_mono : forall (w w' : Prop) e, (w -> w') -> forall t m d, means w e t m d -> means w' e t m d.
Proof.
  intros w w' e H t m d M. induction M; [apply M_nil|apply M_plain|apply M_last|apply M_dollar|apply M_char|eapply M_var|eapply M_subst]; eauto.
Qed.
