(** Makefiles that end the program: conditions whose arguments are not well-formed. *)
From Coq Require Import String ZArith.
From Verif Require Import Base LocModel EvdModel NomModel AstModel ParseModel AstParseModel EngineModel
  EvdSpec DbSpec ParseSpec EvalSpec AstParseSpec EngineSpec MakeSpec CrashSpec
  EvdProofs EvdProofs3 ParseProofs ParseProofs2 ParseProofs3 ParseProofs4 ParseProofs5 EvalProofs2 EvalProofs3 EvalProofs4 FuelProofs
  DbProofs EvdProofs2 AstParseProofs AstParseProofs2 AstParseProofs3 SubstProofs SafeProofs SafeProofs2 SafeProofs3 SafeProofs4
  EngineProofs EngineProofs2 EngineProofs3 MakeProofs MakeProofs2 MakeProofs3 MakeProofs4 MakeProofs6 MakeProofs7 MakeProofs8 MakeProofs9 MakeProofs10 MakeProofs11 MakeProofs12 MakeProofs13 MakeProofs14 MakeProofs5 CrashProofs CrashProofs2 UnclosedProofs.
Local Open Scope nat_scope.

Lemma first_fails : forall s a, wf_span s -> tidy s -> first_argument (span_marks s) a -> ~ expression a -> exists ks, parse_ifeq s = Ok (PFailure ks).
Proof.
  intros s a W F T X. remember (span_marks s) as t eqn:M. symmetry in M. unfold parse_ifeq. rewrite opening_is. unfold pmap at 1. fold quotes_parser.
  destruct T as [o t a u O C|o a q u O N Q].
  - destruct (pchar_at s c_lparen o t W eq_refl M O) as (s1 & E1 & K1 & M1). rewrite E1. cbn [pbind bind pok].
    destruct C as (x & Et & Cx & Cl & Nc). rewrite Et in M1.
    destruct (terminator_paren s1 comma a x u (proj1 K1) M1 eq_refl eq_refl Cx) as (s2 & g & E2 & (K2 & M2) & (Kg & Mg)).
    { apply (find_comma a 0 0 x u Cx); [lia|]. intros p y q Ep Y. specialize (Nc p y q Ep Y). lia. }
    change c_comma with comma. rewrite E2. cbn [pbind bind pok].
    destruct (not_expression g) as (ks & P); [exact (proj1 Kg)|apply Kg, K1, F|rewrite Mg; exact X|]. rewrite P. cbn [pbind bind]. eauto.
  - assert (O' : fst o <> open_paren) by (cbn in O; destruct O as [O|[O|[]]]; rewrite <- O; discriminate).
    rewrite (pchar_not s c_lparen W eq_refl) by (intros x v Qm; rewrite M in Qm; injection Qm as <- <-; exact O'). cbn [pbind bind].
    destruct (quotes_at s W) as [(x & w & s1 & M' & Ix & E & K1 & M1)|(Z & _)]; [|exfalso; apply (Z o (a ++ q :: u) M); exact O].
    rewrite E. cbn [pbind bind]. rewrite M in M'. injection M' as <- <-.
    destruct (terminator_quote s1 (fst o) a q u (proj1 K1) M1 Ix N Q) as (s2 & g & E2 & (K2 & M2) & (Kg & Mg)). rewrite E2. cbn [pbind bind pok].
    destruct (not_expression g) as (ks & P); [exact (proj1 Kg)|apply Kg, K1, F|rewrite Mg; exact X|]. rewrite P. cbn [pbind bind]. eauto.
Qed.

Lemma second_fails : forall s a b, wf_span s -> tidy s -> two_arguments (span_marks s) a b -> expression a -> ~ expression b -> exists ks, parse_ifeq s = Ok (PFailure ks).
Proof.
  intros s a b W F T Ea X. remember (span_marks s) as t eqn:M. symmetry in M. unfold parse_ifeq. rewrite opening_is. unfold pmap at 1. fold quotes_parser.
  destruct T as [o t a u b v O C G|o a q u o' b q' v O N Q O' N' Q' U].
  - destruct (pchar_at s c_lparen o t W eq_refl M O) as (s1 & E1 & K1 & M1). rewrite E1. cbn [pbind bind pok].
    destruct C as (x & Et & Cx & Cl & Nc). rewrite Et in M1.
    destruct (terminator_paren s1 comma a x u (proj1 K1) M1 eq_refl eq_refl Cx) as (s2 & g & E2 & (K2 & M2) & (Kg & Mg)).
    { apply (find_comma a 0 0 x u Cx); [lia|]. intros p y q Ep Y. specialize (Nc p y q Ep Y). lia. }
    change c_comma with comma. rewrite E2. cbn [pbind bind pok].
    destruct (parse_at g) as (j1 & a1 & P1 & _); [exact (proj1 Kg)|apply Kg, K1, F|rewrite Mg; exact Ea|]. rewrite P1. cbn [pbind bind pok].
    destruct (whitespace_keeps s2 (proj1 K2)) as (s3 & q & E3 & K3 & M3). rewrite E3. cbn [pbind bind pok].
    change ((comma =? comma)%N) with true. cbn [pbind bind pok].
    rewrite M2 in M3. destruct G as (Op2 & Cl2 & z & Z & Eu). rewrite Eu in M3.
    destruct (terminator_paren s3 close_paren b z v (proj1 K3) M3 eq_refl eq_refl Z) as (s4 & g2 & E4 & (K4 & M4) & (Kg2 & Mg2)).
    { apply (find_close b 0 0 z v Z); auto. }
    change c_rparen with close_paren. rewrite E4. cbn [pbind bind pok].
    destruct (not_expression g2) as (ks & P); [exact (proj1 Kg2)|apply Kg2, K3, K2, K1, F|rewrite Mg2; exact X|]. rewrite P. cbn [pbind bind]. eauto.
  - assert (Oo : fst o <> open_paren) by (cbn in O; destruct O as [O|[O|[]]]; rewrite <- O; discriminate).
    rewrite (pchar_not s c_lparen W eq_refl) by (intros x w Qm; rewrite M in Qm; injection Qm as <- <-; exact Oo). cbn [pbind bind].
    destruct (quotes_at s W) as [(x & w & s1 & M' & Ix & E & K1 & M1)|(Z & _)]; [|exfalso; apply (Z o (a ++ q :: u) M); exact O].
    rewrite E. cbn [pbind bind]. rewrite M in M'. injection M' as <- <-.
    destruct (terminator_quote s1 (fst o) a q u (proj1 K1) M1 Ix N Q) as (s2 & g & E2 & (K2 & M2) & (Kg & Mg)). rewrite E2. cbn [pbind bind pok].
    destruct (parse_at g) as (j1 & a1 & P1 & _); [exact (proj1 Kg)|apply Kg, K1, F|rewrite Mg; exact Ea|]. rewrite P1. cbn [pbind bind pok].
    destruct (whitespace_keeps s2 (proj1 K2)) as (s3 & q0 & E3 & K3 & M3). rewrite E3. cbn [pbind bind pok].
    assert (Z : (fst o =? c_comma)%N = false) by (cbn in Ix; destruct Ix as [Ix|[Ix|[]]]; rewrite <- Ix; reflexivity). rewrite Z.
    rewrite M2, U in M3.
    destruct (quotes_at s3 (proj1 K3)) as [(x & w & s4 & M' & Io & E4 & K4 & M4)|(Z' & _)]; [|exfalso; apply (Z' o' (b ++ q' :: v) M3); exact O'].
    rewrite E4. cbn [pbind bind]. rewrite M3 in M'. injection M' as <- <-.
    destruct (terminator_quote s4 (fst o') b q' v (proj1 K4) M4 Io N' Q') as (s5 & g2 & E5 & _ & (Kg2 & Mg2)). rewrite E5. cbn [pbind bind pok].
    destruct (not_expression g2) as (ks & P); [exact (proj1 Kg2)|apply Kg2, K4, K3, K2, K1, F|rewrite Mg2; exact X|]. rewrite P. cbn [pbind bind]. eauto.
Qed.

Lemma condition_stops : forall fs st s w i t l k u, sim st s w -> at_text i t -> line_is st t l -> In k ["ifeq"; "ifneq"]%string -> keyword k l u ->
  (exists a, first_argument (lstrip fst u) a /\ ~ expression a) \/ (exists a b, two_arguments (lstrip fst u) a b /\ expression a /\ ~ expression b) ->
  stops_at fs s w i.
Proof.
  intros fs st s w i t l k u SI A LI I Kw H. destruct (line_stop fs st s w i t l SI A LI) as (r & b & W & F & M & WS & MS & E).
  exists 0. intros fuel _. rewrite E. unfold conditional_parse_line. cbn [conditional_line_fuel].
  destruct LI as (_ & _ & _ & S). rewrite <- MS in S, Kw.
  assert (exists ct, In (k, ct) conditional_table /\ In ct [CtIfEq; CtIfNEq]) as (ct & Ic & Id).
  { cbn in I. destruct I as [<-|[<-|[]]]; eexists; cbn; eauto 10. }
  destruct (conditional_keyword_pick (block_span b) _ _ u WS S Ic Kw) as (r1 & E1 & K1 & M1). clear Ic.
  rewrite E1. cbn [pbind bind]. assert (F1 : tidy r1) by (apply K1; exact F).
  assert (exists ks, parse_ifeq r1 = Ok (PFailure ks)) as (ks & P).
  { rewrite <- M1 in H. destruct H as [(a & T & X)|(a & b' & T & X & Y)]; [eapply first_fails|eapply second_fails]; eauto; apply K1. }
  cbn in Id. destruct Id as [<-|[<-|[]]]; rewrite P; cbn; exact Logic.I.
Qed.
