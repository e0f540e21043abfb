(** Text-level makefile semantics: conditional directives. *)
From Coq Require Import String ZArith.
From Verif Require Import Base LocModel EvdModel NomModel AstModel ParseModel AstParseModel EngineModel
  EvdSpec DbSpec ParseSpec EvalSpec AstParseSpec EngineSpec MakeSpec
  EvdProofs EvdProofs3 ParseProofs ParseProofs2 ParseProofs4 ParseProofs5 EvalProofs2 EvalProofs3 EvalProofs4 FuelProofs
  DbProofs EvdProofs2 AstParseProofs AstParseProofs2 AstParseProofs3 SafeProofs SafeProofs2 SafeProofs3 SafeProofs4
  EngineProofs EngineProofs2 EngineProofs3 MakeProofs MakeProofs2.
Local Open Scope nat_scope.

(** * Finding the end of an argument *)
Lemma count_cons : forall c x t, count c (x :: t) = (if (fst x =? c)%N then 1 else 0) + count c t.
Proof. intros c x t. unfold count. cbn. destruct (fst x =? c)%N; reflexivity. Qed.

Lemma find_comma : forall a k h x rest, fst x = comma ->
  (k + Z.of_nat (count open_paren a) <= Z.of_nat (count close_paren a))%Z ->
  (forall p y q, a = p ++ y :: q -> fst y = comma -> (Z.of_nat (count close_paren p) < k + Z.of_nat (count open_paren p))%Z) ->
  find_terminator comma k (combine (seq h (List.length (a ++ x :: rest))) (List.map fst (a ++ x :: rest))) false
    = Ok (Some (h + List.length a)).
Proof.
  induction a as [|y a IH]; intros k h x rest X C N.
  - change (count open_paren []) with 0 in C. change (count close_paren []) with 0 in C. cbn. rewrite X. cbn.
    replace (k <=? 0)%Z with true by (symmetry; apply Z.leb_le; lia). rewrite Nat.add_0_r. reflexivity.
  - cbn [List.length app seq List.map combine find_terminator].
    assert (Step : forall k', (k' = k + (if (fst y =? open_paren)%N then 1 else 0) - (if (fst y =? close_paren)%N then 1 else 0))%Z ->
      find_terminator comma k' (combine (seq (Datatypes.S h) (List.length (a ++ x :: rest))) (List.map fst (a ++ x :: rest))) false
        = Ok (Some (h + Datatypes.S (List.length a)))).
    { intros k' ->. rewrite IH; [f_equal; f_equal; lia|assumption| |].
      - rewrite !count_cons in C. destruct (fst y =? open_paren)%N, (fst y =? close_paren)%N; lia.
      - intros p z q -> Z. specialize (N (y :: p) z q eq_refl Z). rewrite !count_cons in N. destruct (fst y =? open_paren)%N, (fst y =? close_paren)%N; lia. }
    destruct (N.eqb_spec (fst y) c_lparen) as [E|E].
    { apply Step. rewrite E. cbn. lia. }
    destruct (N.eqb_spec (fst y) c_rparen) as [E2|E2].
    { rewrite E2. change ((c_rparen =? comma)%N) with false. cbn [andb]. apply Step. rewrite E2. cbn. lia. }
    assert (Z1 : (fst y =? close_paren)%N = false) by (apply N.eqb_neq; exact E2).
    assert (Z2 : (fst y =? open_paren)%N = false) by (apply N.eqb_neq; exact E).
    rewrite Z1, Z2 in Step.
    destruct (N.eqb_spec (fst y) comma) as [E3|E3]; cbn [andb].
    + pose proof (N [] y a eq_refl E3) as N1. change (count open_paren []) with 0 in N1. change (count close_paren []) with 0 in N1.
      replace ((k <=? 0)%Z) with false by (symmetry; apply Z.leb_gt; lia). apply Step. lia.
    + apply Step. lia.
Qed.

(** Either there is one, or none is found. *)
Lemma find_comma_total : forall t k h,
  (exists a x u, t = a ++ x :: u /\ fst x = comma /\ (k + Z.of_nat (count open_paren a) <= Z.of_nat (count close_paren a))%Z /\
    (forall p y q, a = p ++ y :: q -> fst y = comma -> (Z.of_nat (count close_paren p) < k + Z.of_nat (count open_paren p))%Z)) \/
  find_terminator comma k (combine (seq h (List.length t)) (List.map fst t)) false = Ok None.
Proof.
  induction t as [|y t IH]; intros k h; [right; reflexivity|]. cbn [List.length seq List.map combine find_terminator].
  assert (Step : forall k', (k' = k + (if (fst y =? open_paren)%N then 1 else 0) - (if (fst y =? close_paren)%N then 1 else 0))%Z -> (fst y = comma -> 0 < k)%Z ->
    (exists a x u, y :: t = a ++ x :: u /\ fst x = comma /\ (k + Z.of_nat (count open_paren a) <= Z.of_nat (count close_paren a))%Z /\
      (forall p y q, a = p ++ y :: q -> fst y = comma -> (Z.of_nat (count close_paren p) < k + Z.of_nat (count open_paren p))%Z)) \/
    find_terminator comma k' (combine (seq (Datatypes.S h) (List.length t)) (List.map fst t)) false = Ok None).
  { intros k' -> P. destruct (IH (k + (if (fst y =? open_paren)%N then 1 else 0) - (if (fst y =? close_paren)%N then 1 else 0))%Z (Datatypes.S h)) as [(a & x & u & -> & X & C & N)|E]; [left|right; exact E].
    exists (y :: a), x, u. split; [reflexivity|]. split; [exact X|]. split.
    - rewrite !count_cons. destruct (fst y =? open_paren)%N, (fst y =? close_paren)%N; lia.
    - intros [|z p] w q Q W; cbn in Q; injection Q as <- Q.
      + change (count open_paren []) with 0. change (count close_paren []) with 0. apply P in W. lia.
      + specialize (N p w q Q W). rewrite !count_cons. destruct (fst y =? open_paren)%N, (fst y =? close_paren)%N; lia. }
  destruct (N.eqb_spec (fst y) c_lparen) as [E|E].
  { apply Step; rewrite E; [cbn; lia|discriminate]. }
  destruct (N.eqb_spec (fst y) c_rparen) as [E2|E2].
  { rewrite E2. change ((c_rparen =? comma)%N) with false. cbn [andb]. apply Step; rewrite E2; [cbn; lia|discriminate]. }
  assert (Z1 : (fst y =? close_paren)%N = false) by (apply N.eqb_neq; exact E2).
  assert (Z2 : (fst y =? open_paren)%N = false) by (apply N.eqb_neq; exact E).
  rewrite Z1, Z2 in Step.
  destruct (N.eqb_spec (fst y) comma) as [E3|E3]; cbn [andb].
  - destruct (Z.leb_spec k 0) as [L|L]; [|apply Step; lia]. left. exists [], y, t. split; [reflexivity|]. split; [exact E3|]. split; [cbn; lia|].
    intros p z q Q. destruct p; discriminate Q.
  - apply Step; [lia|]. intros Q. contradiction.
Qed.

Lemma find_close : forall a k h x rest, fst x = close_paren ->
  (forall p q, a = p ++ q -> count close_paren p <= k + count open_paren p) ->
  k + count open_paren a = count close_paren a ->
  find_terminator close_paren (Z.of_nat k) (combine (seq h (List.length (a ++ x :: rest))) (List.map fst (a ++ x :: rest))) false
    = Ok (Some (h + List.length a)).
Proof.
  induction a as [|y a IH]; intros k h x rest X O C.
  - cbn in C |- *. rewrite X. cbn. assert (k = 0) by lia. subst k. rewrite Nat.add_0_r. reflexivity.
  - cbn [List.length app seq List.map combine find_terminator].
    assert (Step : forall k', (if (fst y =? close_paren)%N then 1 else 0) + k' = k + (if (fst y =? open_paren)%N then 1 else 0) ->
      find_terminator close_paren (Z.of_nat k') (combine (seq (Datatypes.S h) (List.length (a ++ x :: rest))) (List.map fst (a ++ x :: rest))) false
        = Ok (Some (h + Datatypes.S (List.length a)))).
    { intros k' K. rewrite IH; [f_equal; f_equal; lia|assumption| |].
      - intros p q ->. specialize (O (y :: p) q eq_refl). rewrite !count_cons in O. lia.
      - rewrite !count_cons in C. lia. }
    destruct (N.eqb_spec (fst y) c_lparen) as [E|E].
    { replace (Z.of_nat k + 1)%Z with (Z.of_nat (Datatypes.S k)) by lia. apply Step. rewrite E. cbn. lia. }
    destruct (N.eqb_spec (fst y) c_rparen) as [E2|E2].
    { rewrite E2. change ((c_rparen =? close_paren)%N) with true. cbn [andb].
      pose proof (O [y] a eq_refl) as O1. rewrite !count_cons, E2 in O1. cbn in O1.
      destruct k as [|k]; [lia|].
      replace (Z.of_nat (Datatypes.S k) - 1)%Z with (Z.of_nat k) by lia.
      replace ((Z.of_nat k <? 0)%Z) with false by (symmetry; apply Z.ltb_ge; lia). apply Step. rewrite E2. cbn. lia. }
    assert (Z1 : (fst y =? close_paren)%N = false) by (apply N.eqb_neq; exact E2).
    assert (Z2 : (fst y =? open_paren)%N = false) by (apply N.eqb_neq; exact E).
    rewrite Z1, Z2 in Step. rewrite Z1. cbn [andb]. apply Step. lia.
Qed.

Lemma find_close_total : forall t k h,
  (exists a x u, t = a ++ x :: u /\ fst x = close_paren /\ (forall p q, a = p ++ q -> count close_paren p <= k + count open_paren p) /\
    k + count open_paren a = count close_paren a) \/
  find_terminator close_paren (Z.of_nat k) (combine (seq h (List.length t)) (List.map fst t)) false = Ok None.
Proof.
  induction t as [|y t IH]; intros k h; [right; reflexivity|]. cbn [List.length seq List.map combine find_terminator].
  assert (Step : forall k', (if (fst y =? close_paren)%N then 1 else 0) + k' = k + (if (fst y =? open_paren)%N then 1 else 0) ->
    (exists a x u, y :: t = a ++ x :: u /\ fst x = close_paren /\ (forall p q, a = p ++ q -> count close_paren p <= k + count open_paren p) /\
      k + count open_paren a = count close_paren a) \/
    find_terminator close_paren (Z.of_nat k') (combine (seq (Datatypes.S h) (List.length t)) (List.map fst t)) false = Ok None).
  { intros k' K. destruct (IH k' (Datatypes.S h)) as [(a & x & u & -> & X & O & C)|E]; [left|right; exact E].
    exists (y :: a), x, u. split; [reflexivity|]. split; [exact X|]. split.
    - intros [|z p] q Q; [cbn; lia|]. cbn in Q. injection Q as <- Q. specialize (O p q Q). rewrite !count_cons. lia.
    - rewrite !count_cons. lia. }
  destruct (N.eqb_spec (fst y) c_lparen) as [E|E].
  { replace (Z.of_nat k + 1)%Z with (Z.of_nat (Datatypes.S k)) by lia. apply Step. rewrite E. cbn. lia. }
  destruct (N.eqb_spec (fst y) c_rparen) as [E2|E2].
  { rewrite E2. change ((c_rparen =? close_paren)%N) with true. cbn [andb]. destruct k as [|k].
    - left. exists [], y, t. split; [reflexivity|]. split; [exact E2|]. split; [|reflexivity]. intros p q Q. destruct p; [cbn; lia|discriminate].
    - replace (Z.of_nat (Datatypes.S k) - 1)%Z with (Z.of_nat k) by lia.
      replace ((Z.of_nat k <? 0)%Z) with false by (symmetry; apply Z.ltb_ge; lia). apply Step. rewrite E2. cbn. lia. }
  assert (Z1 : (fst y =? close_paren)%N = false) by (apply N.eqb_neq; exact E2).
  assert (Z2 : (fst y =? open_paren)%N = false) by (apply N.eqb_neq; exact E).
  rewrite Z1, Z2 in Step. rewrite Z1. cbn [andb]. apply Step. lia.
Qed.

(** * Parsing on marks *)

(** [s] at [t] goes on to [r] at [u]. *)
Definition moves (s : span) (r : span) (u : text) : Prop := keeps s r /\ span_marks r = u.

Lemma pchar_at : forall s c x t, wf_span s -> ascii c -> span_marks s = x :: t -> fst x = c ->
  exists r, pchar c s = Ok (POk r c) /\ moves s r t.
Proof.
  intros s c x t W A M E. pose proof (pchar_ok s c W A) as P. rewrite span_text_marks, M in P. cbn [List.map] in P.
  rewrite E, N.eqb_refl in P. destruct P as (r & P & S & _). exists r. split; [exact P|]. split; [exact (sub_keeps _ _ _ _ S)|].
  rewrite (sub_end _ _ _ W S), M. reflexivity.
Qed.

Lemma pchar_not : forall s c, wf_span s -> ascii c -> (forall x t, span_marks s = x :: t -> fst x <> c) ->
  pchar c s = Ok (PError [KNom]).
Proof.
  intros s c W A N. pose proof (pchar_ok s c W A) as P. rewrite span_text_marks in P.
  destruct (span_marks s) as [|x t]; cbn [List.map] in P; [exact P|]. specialize (N x t eq_refl).
  apply N.eqb_neq in N. rewrite N in P. exact P.
Qed.

Lemma split_marks : forall s i, wf_span s -> i <= sp_len s ->
  moves s (slice_to s i) (firstn i (span_marks s)) /\
  exists r, slice_from s i = Ok r /\ moves s r (skipn i (span_marks s)).
Proof.
  intros s i W L. split.
  - split; [exact (sub_keeps _ _ _ _ (slice_to_sub s i W L))|]. pose proof (sub_marks_firstn _ _ _ _ (slice_to_sub s i W L)) as M. exact M.
  - destruct (slice_from_sub s i W L) as (r & E & S). exists r. split; [exact E|]. split; [exact (sub_keeps _ _ _ _ S)|exact (sub_end _ _ _ W S)].
Qed.

Lemma terminator_paren : forall s term a x rest, wf_span s -> span_marks s = a ++ x :: rest -> ascii term ->
  ((term =? comma) || (term =? close_paren))%N = true -> fst x = term ->
  find_terminator term 0 (combine (seq 0 (List.length (a ++ x :: rest))) (List.map fst (a ++ x :: rest))) false = Ok (Some (List.length a)) ->
  exists r arg, take_till_terminator term s = Ok (POk r arg) /\ moves s r rest /\ moves s arg a.
Proof.
  intros s term a x rest W M A T X F. unfold take_till_terminator.
  change ((term =? c_comma) || (term =? c_rparen))%N with ((term =? comma) || (term =? close_paren))%N. rewrite T.
  rewrite (indices_marks s W), M, F. cbn [bind].
  assert (L : List.length a <= sp_len s). { rewrite <- (span_marks_len s W), M, app_length. lia. }
  destruct (split_marks s (List.length a) W L) as ((K1 & M1) & r & E & K2 & M2). rewrite E. cbn [bind].
  rewrite M, firstn_app, firstn_all, Nat.sub_diag, app_nil_r in M1. rewrite M, skipn_app, skipn_all, Nat.sub_diag in M2. cbn in M2.
  destruct (pchar_at r term x rest (proj1 K2) A M2 X) as (r' & E' & K3 & M3). rewrite E'. cbn [pbind bind].
  exists r', (slice_to s (List.length a)). split; [reflexivity|]. split; split; auto. exact (keeps_trans _ _ _ K2 K3).
Qed.

Lemma terminator_quote : forall s term a x rest, wf_span s -> span_marks s = a ++ x :: rest -> In term [34; 39]%N ->
  ~ has fst term a -> fst x = term ->
  exists r arg, take_till_terminator term s = Ok (POk r arg) /\ moves s r rest /\ moves s arg a.
Proof.
  intros s term a x rest W M I N X. unfold take_till_terminator.
  assert (A : ascii term /\ ((term =? c_comma) || (term =? c_rparen))%N = false).
  { cbn in I. destruct I as [<-|[<-|[]]]; split; reflexivity. }
  destruct A as (A & ->). unfold terminated.
  destruct (take_till_ok s (fun c => (c =? term)%N) W) as (r & q & E & S1 & S2). rewrite E. cbn [pbind bind].
  assert (R : run_of (fun c => (c =? term)%N) (span_text s) = List.length a).
  { rewrite span_text_marks, M. clear - N X. induction a as [|y a IH]; cbn.
    - unfold run_of. cbn. rewrite X, N.eqb_refl. reflexivity.
    - assert (Q : (fst y =? term)%N = false) by (apply N.eqb_neq; intros Q; apply N; exists y; cbn; auto).
      unfold run_of in *. cbn. rewrite Q. rewrite <- IH.
      + destruct (index_of _ _); reflexivity.
      + intros (z & Iz & Ez). apply N. exists z. cbn. auto. }
  rewrite R in S1, S2.
  assert (M1 := sub_end _ _ _ W S1). rewrite M, skipn_app, skipn_all, Nat.sub_diag in M1. cbn in M1.
  assert (M2 := sub_marks_firstn _ _ _ _ S2). rewrite M in M2. cbn in M2. rewrite firstn_app, firstn_all, Nat.sub_diag, app_nil_r in M2.
  destruct (pchar_at r term x rest (sub_wf _ _ _ _ S1) A M1 X) as (r' & E' & K3 & M3). rewrite E'. cbn [pbind bind].
  exists r', q. split; [reflexivity|]. split; split; auto; [|exact (sub_keeps _ _ _ _ S2)].
  exact (keeps_trans _ _ _ (sub_keeps _ _ _ _ S1) K3).
Qed.

Lemma parse_at : forall s, wf_span s -> tidy s -> expression (span_marks s) ->
  exists r a, parse_ast s = Ok (POk r a) /\ reads_ast True (span_marks s) a /\ sp_len r = 0 /\ ast_ok a.
Proof.
  intros s W F (a0 & R0). pose proof (parse_outcome_ok s W) as O. pose proof (tidy_flat s F) as Fl.
  destruct (parse_ast s) as [[r a|ks|ks]| |]; try contradiction.
  - destruct O as (L & R). exists r, a. split; [reflexivity|]. split; [exact (proj1 (proj2 (reads_mono _ _ (fun _ => F))) _ _ R)|]. split; [exact L|].
    apply (proj1 (proj2 (reads_ok _)) _ _ R). apply span_ascii, W.
  - exfalso. exact (O a0 R0).
Qed.

Lemma ifeq_at : forall s a b, wf_span s -> tidy s -> two_arguments (span_marks s) a b -> expression a -> expression b ->
  exists r x y, parse_ifeq s = Ok (POk r (x, y)) /\ reads_ast True a x /\ reads_ast True b y /\ ast_ok x /\ ast_ok y.
Proof.
  intros s a b W F T Ea Eb. remember (span_marks s) as t eqn:M. symmetry in M. destruct T as [o t a u b v O C G|o a q u o' b q' v O N Q O' N' Q' U].
  - unfold parse_ifeq. cbn [palt]. unfold pmap at 1.
    destruct (pchar_at s c_lparen o t W eq_refl M O) as (s1 & E1 & K1 & M1). rewrite E1. cbn [pbind bind pok].
    destruct C as (x & Et & X & Cl & Nc). rewrite Et in M1.
    destruct (terminator_paren s1 comma a x u (proj1 K1) M1 eq_refl eq_refl X) as (s2 & g & E2 & (K2 & M2) & (Kg & Mg)).
    { apply (find_comma a 0 0 x u X); [lia|]. intros p y q Ep Y. specialize (Nc p y q Ep Y). lia. }
    change c_comma with comma. rewrite E2. cbn [pbind bind pok]. 
    destruct (parse_at g) as (j1 & a1 & P1 & R1 & _ & A1); [exact (proj1 Kg)|exact (proj1 (proj2 (proj2 Kg)) (proj1 (proj2 (proj2 K1)) F))|rewrite Mg; exact Ea|].
    rewrite P1. cbn [pbind bind pok].
    destruct (whitespace_keeps s2 (proj1 K2)) as (s3 & q & E3 & K3 & M3). rewrite E3. cbn [pbind bind pok].
    change ((comma =? comma)%N) with true. cbn [pbind bind pok].
    rewrite M2 in M3. destruct G as (Op2 & Cl2 & z & Z & Eu). rewrite Eu in M3.
    destruct (terminator_paren s3 close_paren b z v (proj1 K3) M3 eq_refl eq_refl Z) as (s4 & g2 & E4 & (K4 & M4) & (Kg2 & Mg2)).
    { apply (find_close b 0 0 z v Z); auto. }
    change c_rparen with close_paren. rewrite E4. cbn [pbind bind pok].
    destruct (parse_at g2) as (j2 & a2 & P2 & R2 & _ & A2); [exact (proj1 Kg2)| |rewrite Mg2; exact Eb|].
    { apply Kg2, K3, K2, K1, F. }
    rewrite P2. cbn [pbind bind pok]. rewrite Mg in R1. rewrite Mg2 in R2. exists s4, a1, a2. auto.
  - assert (Alt : forall i x w c, wf_span i -> span_marks i = x :: w -> In (fst x) [34; 39]%N -> fst x = c ->
      exists r, palt [pmap (fun _ => c_dquote) (pchar c_dquote); pmap (fun _ => c_squote) (pchar c_squote)] i = Ok (POk r c) /\ moves i r w).
    { intros i x w c Wi Mi Ix <-. cbn [palt]. unfold pmap. cbn in Ix. destruct Ix as [Ix|[Ix|[]]]; rewrite <- Ix.
      - destruct (pchar_at i c_dquote x w Wi eq_refl Mi (eq_sym Ix)) as (r & E & Mv). rewrite E. cbn [pbind bind pok]. exists r. auto.
      - rewrite (pchar_not i c_dquote Wi eq_refl); [|intros x' t' Mx; rewrite Mi in Mx; inversion Mx; subst; rewrite <- Ix; discriminate].
        cbn [pbind bind pok]. destruct (pchar_at i c_squote x w Wi eq_refl Mi (eq_sym Ix)) as (r & E & Mv). rewrite E. cbn [pbind bind pok]. exists r. auto. }
    assert (Al3 : exists r, palt [pmap (fun _ => c_comma) (pchar c_lparen); pmap (fun _ => c_dquote) (pchar c_dquote);
        pmap (fun _ => c_squote) (pchar c_squote)] s = Ok (POk r (fst o)) /\ moves s r (a ++ q :: u)).
    { destruct (Alt s o _ _ W M O eq_refl) as (r & E & Mv). exists r. split; [|exact Mv]. cbn [palt]. unfold pmap at 1.
      rewrite (pchar_not s c_lparen W eq_refl).
      - cbn [pbind bind]. exact E.
      - intros x' t' Mx. rewrite M in Mx. inversion Mx; subst. cbn in O. destruct O as [O|[O|[]]]; rewrite <- O; discriminate. }
    unfold parse_ifeq. destruct Al3 as (s1 & E1 & K1 & M1). rewrite E1. cbn [pbind bind pok].
    destruct (terminator_quote s1 (fst o) a q u (proj1 K1) M1 O N Q) as (s2 & g & E2 & (K2 & M2) & (Kg & Mg)). rewrite E2. cbn [pbind bind pok].
    destruct (parse_at g) as (j1 & a1 & P1 & R1 & _ & A1); [exact (proj1 Kg)|apply Kg, K1, F|rewrite Mg; exact Ea|].
    rewrite P1. cbn [pbind bind pok].
    destruct (whitespace_keeps s2 (proj1 K2)) as (s3 & q0 & E3 & K3 & M3). rewrite E3. cbn [pbind bind pok].
    assert (Z : (fst o =? c_comma)%N = false) by (cbn in O; destruct O as [O|[O|[]]]; rewrite <- O; reflexivity). rewrite Z.
    rewrite M2, U in M3. destruct (Alt s3 o' _ _ (proj1 K3) M3 O' eq_refl) as (s4 & E4 & K4 & M4). rewrite E4. cbn [pbind bind pok].
    destruct (terminator_quote s4 (fst o') b q' v (proj1 K4) M4 O' N' Q') as (s5 & g2 & E5 & (K5 & M5) & (Kg2 & Mg2)). rewrite E5. cbn [pbind bind pok].
    destruct (parse_at g2) as (j2 & a2 & P2 & R2 & _ & A2); [exact (proj1 Kg2)|apply Kg2, K4, K3, K2, K1, F|rewrite Mg2; exact Eb|].
    rewrite P2. cbn [pbind bind pok]. rewrite Mg in R1. rewrite Mg2 in R2. exists s5, a1, a2. auto.
Qed.

(** Without two arguments parsing fails, but not for good. *)
Definition quotes_parser : parser char := palt [pmap (fun _ => c_dquote) (pchar c_dquote); pmap (fun _ => c_squote) (pchar c_squote)].
Lemma quotes_at : forall i, wf_span i ->
  (exists x w r, span_marks i = x :: w /\ In (fst x) [34; 39]%N /\ quotes_parser i = Ok (POk r (fst x)) /\ moves i r w) \/
  ((forall x w, span_marks i = x :: w -> ~ In (fst x) [34; 39]%N) /\ exists ks, quotes_parser i = Ok (PError ks)).
Proof.
  intros i Wi. unfold quotes_parser. destruct (span_marks i) as [|x w] eqn:M.
  - right. split; [discriminate|]. cbn [palt]. unfold pmap.
    rewrite (pchar_not i c_dquote Wi eq_refl) by (intros x t Q; rewrite M in Q; discriminate). cbn [pbind bind].
    rewrite (pchar_not i c_squote Wi eq_refl) by (intros x t Q; rewrite M in Q; discriminate). cbn [pbind bind]. eexists; reflexivity.
  - destruct (N.eqb_spec (fst x) 34) as [E|E]; [|destruct (N.eqb_spec (fst x) 39) as [E2|E2]].
    + left. exists x, w. destruct (pchar_at i c_dquote x w Wi eq_refl M E) as (r & P & Mv). exists r. split; [reflexivity|].
      split; [rewrite E; cbn; auto|]. split; [|exact Mv]. cbn [palt]. unfold pmap. rewrite P. cbn [pbind bind pok]. rewrite E. reflexivity.
    + left. exists x, w. destruct (pchar_at i c_squote x w Wi eq_refl M E2) as (r & P & Mv). exists r. split; [reflexivity|].
      split; [rewrite E2; cbn; auto|]. split; [|exact Mv]. cbn [palt]. unfold pmap.
      rewrite (pchar_not i c_dquote Wi eq_refl) by (intros x' t' Q; rewrite M in Q; injection Q as <- <-; exact E). cbn [pbind bind].
      rewrite P. cbn [pbind bind pok]. rewrite E2. reflexivity.
    + right. split; [intros x' w' Q; injection Q as <- <-; cbn; intros [Q|[Q|[]]]; congruence|]. cbn [palt]. unfold pmap.
      rewrite (pchar_not i c_dquote Wi eq_refl) by (intros x' t' Q; rewrite M in Q; injection Q as <- <-; exact E). cbn [pbind bind].
      rewrite (pchar_not i c_squote Wi eq_refl) by (intros x' t' Q; rewrite M in Q; injection Q as <- <-; exact E2). cbn [pbind bind]. eexists; reflexivity.
Qed.

Lemma opening_is : forall s, palt [pmap (fun _ => c_comma) (pchar c_lparen); pmap (fun _ => c_dquote) (pchar c_dquote); pmap (fun _ => c_squote) (pchar c_squote)] s =
  (let* r := pmap (fun _ => c_comma) (pchar c_lparen) s in match r with PError _ => quotes_parser s | _ => Ok r end).
Proof. reflexivity. Qed.

Lemma has_dec : forall c (t : text), (exists a q u, t = a ++ q :: u /\ ~ has fst c a /\ fst q = c) \/ ~ has fst c t.
Proof.
  intros c. induction t as [|y t [(a & q & u & -> & N & Q)|N]]; [right; intros (x & [] & _)| |].
  - destruct (N.eq_dec (fst y) c) as [E|E]; left.
    + exists [], y, (a ++ q :: u). split; [reflexivity|]. split; [intros (x & [] & _)|exact E].
    + exists (y :: a), q, u. split; [reflexivity|]. split; [|exact Q]. intros (x & [<-|I] & X); [exact (E X)|apply N; exists x; auto].
  - destruct (N.eq_dec (fst y) c) as [E|E].
    + left. exists [], y, t. split; [reflexivity|]. split; [intros (x & [] & _)|exact E].
    + right. intros (x & [<-|I] & X); [exact (E X)|apply N; exists x; auto].
Qed.

Lemma terminator_no_quote : forall s term, wf_span s -> In term [34; 39]%N -> ~ has fst term (span_marks s) ->
  exists ks, take_till_terminator term s = Ok (PError ks).
Proof.
  intros s term W I N. unfold take_till_terminator.
  assert (A : ascii term /\ ((term =? c_comma) || (term =? c_rparen))%N = false).
  { cbn in I. destruct I as [<-|[<-|[]]]; split; reflexivity. }
  destruct A as (A & ->). unfold terminated.
  destruct (take_till_ok s (fun c => (c =? term)%N) W) as (r & q & E & S1 & S2). rewrite E. cbn [pbind bind].
  assert (M1 := sub_end _ _ _ W S1). rewrite (pchar_not r term (sub_wf _ _ _ _ S1) A); [cbn [pbind bind]; eauto|].
  intros x t M X. apply N. exists x. split; [|exact X]. rewrite M1 in M. rewrite <- (firstn_skipn (run_of (fun c => (c =? term)%N) (span_text s)) (span_marks s)). apply in_or_app. right.
  rewrite M. left. reflexivity.
Qed.

Lemma ifeq_not : forall s, wf_span s -> tidy s -> (forall a b, ~ two_arguments (span_marks s) a b) -> (forall a, first_argument (span_marks s) a -> expression a) ->
  exists ks, parse_ifeq s = Ok (PError ks).
Proof.
  intros s W F T A. unfold parse_ifeq. rewrite opening_is. unfold pmap at 1. fold quotes_parser.
  destruct (span_marks s) as [|o t] eqn:M; [|destruct (N.eqb_spec (fst o) open_paren) as [O|O]].
  - rewrite (pchar_not s c_lparen W eq_refl) by (intros x u Q; rewrite M in Q; discriminate). cbn [pbind bind].
    destruct (quotes_at s W) as [(x & w & r & M' & _)|(_ & ks & E)]; [rewrite M in M'; discriminate|]. rewrite E. cbn [pbind bind]. eauto.
  - destruct (pchar_at s c_lparen o t W eq_refl M O) as (s1 & E1 & K1 & M1). rewrite E1. cbn [pbind bind pok].
    destruct (find_comma_total t 0 0) as [(a & x & u & Et & X & Cl & Nc)|N].
    2:{ unfold take_till_terminator at 1. change ((c_comma =? c_comma) || (c_comma =? c_rparen))%N with true. cbn match.
        rewrite (indices_marks s1 (proj1 K1)), M1. change c_comma with comma. rewrite N. cbn [bind]. unfold error_out. cbn [pbind bind]. eauto. }
    assert (BC : before_comma t a u).
    { exists x. split; [exact Et|]. split; [exact X|]. split; [lia|]. intros p y q Ep Y. specialize (Nc p y q Ep Y). lia. }
    rewrite Et in M1.
    destruct (terminator_paren s1 comma a x u (proj1 K1) M1 eq_refl eq_refl X) as (s2 & g & E2 & (K2 & M2) & (Kg & Mg)).
    { apply (find_comma a 0 0 x u X); auto. }
    change c_comma with comma. rewrite E2. cbn [pbind bind pok].
    destruct (parse_at g) as (j1 & a1 & P1 & R1 & _ & A1); [exact (proj1 Kg)|apply Kg, K1, F|rewrite Mg; apply A; eapply FI_parens; eauto|].
    rewrite P1. cbn [pbind bind pok].
    destruct (whitespace_keeps s2 (proj1 K2)) as (s3 & q & E3 & K3 & M3). rewrite E3. cbn [pbind bind pok].
    change ((comma =? comma)%N) with true. cbn [pbind bind pok]. rewrite M2 in M3.
    destruct (find_close_total (lstrip fst u) 0 0) as [(b & z & v & Eu & Z & Op & Cl2)|N].
    + exfalso. apply (T a b). eapply TA_parens; [exact O|exact BC|]. split; [exact Op|]. split; [exact Cl2|]. exists z. split; [exact Z|exact Eu].
    + unfold take_till_terminator at 1. change ((c_rparen =? c_comma) || (c_rparen =? c_rparen))%N with true. cbn match.
      rewrite (indices_marks s3 (proj1 K3)), M3. change c_rparen with close_paren. change 0%Z with (Z.of_nat 0). rewrite N. cbn [bind]. unfold error_out. cbn [pbind bind]. eauto.
  - rewrite (pchar_not s c_lparen W eq_refl) by (intros x u Q; rewrite M in Q; injection Q as <- <-; exact O). cbn [pbind bind].
    destruct (quotes_at s W) as [(x & w & s1 & M' & Ix & E & K1 & M1)|(_ & ks & E)]; rewrite E; cbn [pbind bind]; [|eauto].
    rewrite M in M'. injection M' as <- <-.
    destruct (has_dec (fst o) t) as [(a & q & u & Et & Na & Q)|N].
    2:{ rewrite <- M1 in N. destruct (terminator_no_quote s1 (fst o) (proj1 K1) Ix N) as (ks & E2). rewrite E2. cbn [pbind bind]. eauto. }
    rewrite Et in M1.
    destruct (terminator_quote s1 (fst o) a q u (proj1 K1) M1 Ix Na Q) as (s2 & g & E2 & (K2 & M2) & (Kg & Mg)). rewrite E2. cbn [pbind bind pok].
    destruct (parse_at g) as (j1 & a1 & P1 & R1 & _ & A1); [exact (proj1 Kg)|apply Kg, K1, F|rewrite Mg; apply A; rewrite Et; eapply FI_quotes; eauto|].
    rewrite P1. cbn [pbind bind pok].
    destruct (whitespace_keeps s2 (proj1 K2)) as (s3 & q0 & E3 & K3 & M3). rewrite E3. cbn [pbind bind pok].
    assert (Z : (fst o =? c_comma)%N = false) by (cbn in Ix; destruct Ix as [Ix|[Ix|[]]]; rewrite <- Ix; reflexivity). rewrite Z.
    rewrite M2 in M3.
    destruct (quotes_at s3 (proj1 K3)) as [(o' & w & s4 & M' & Io & E4 & K4 & M4)|(_ & ks & E4)]; rewrite E4; cbn [pbind bind]; [|eauto].
    destruct (has_dec (fst o') w) as [(b & q' & v & Ew & Nb & Q')|N].
    2:{ rewrite <- M4 in N. destruct (terminator_no_quote s4 (fst o') (proj1 K4) Io N) as (ks & E5). rewrite E5. cbn [pbind bind]. eauto. }
    exfalso. apply (T a b). rewrite Et. eapply TA_quotes; eauto. rewrite <- M3, M', Ew. reflexivity.
Qed.

(** * The keyword *)
Definition conditional_table : list (string * conditional_type) :=
  [("ifdef", CtIfDef); ("ifndef", CtIfNDef); ("ifeq", CtIfEq); ("ifneq", CtIfNEq); ("else", CtElse); ("endif", CtEndIf)]%string.

(** The line does not begin with a blank. *)
Lemma keyword_excl : forall k k' t r r', keyword k t r -> keyword k' t r' ->
  starts_with (lit k) (lit k') = true \/ starts_with (lit k') (lit k) = true.
Proof.
  intros k k' t r r' K K'.
  assert (X := proj1 (keyword_starts k t) (ex_intro _ r K)). assert (X' := proj1 (keyword_starts k' t) (ex_intro _ r' K')).
  apply starts_with_iff in X, X'. destruct X as (p & X), X' as (p' & X'). rewrite X in X'. clear X K K'.
  revert X'. generalize (lit k) (lit k'). clear. intros a. induction a as [|x a IH]; intros b E; [left; reflexivity|].
  destruct b as [|y b]; [right; reflexivity|]. cbn in E. injection E as -> E. cbn. rewrite N.eqb_refl. apply IH, E.
Qed.

Lemma solid_strip : forall l, solid l -> lstrip fst l = l.
Proof. intros l (c & u & -> & B). unfold lstrip. cbn. rewrite B. reflexivity. Qed.

Definition words_parser {T} (table : list (string * T)) : parser T :=
  palt (List.map (fun kt => pmap (fun _ => snd kt) (tag_no_case (lit (fst kt)))) table).

Lemma words_at : forall {T} (table : list (string * T)) s, wf_span s -> Forall (fun kt => lowercase (fst kt)) table ->
  (exists k x rest r, In (k, x) table /\ keyword k (span_marks s) rest /\ words_parser table s = Ok (POk r x) /\ moves s r rest) \/
  (begins_none (List.map fst table) (span_marks s) /\ words_parser table s = Ok (PError [KNom])).
Proof.
  intros T table s W F. unfold words_parser. induction F as [|[k x] table L F IH]; cbn [List.map palt].
  - right. split; [intros k rest []|reflexivity].
  - cbn [fst snd] in *. unfold pmap at 1 3.
    destruct (tag_no_case_at s k W L) as [(rest & Kw & r & p & E & Sb & M)|(N & E)]; rewrite E; cbn [pbind bind pok].
    + left. exists k, x, rest, r. split; [left; reflexivity|]. split; [exact Kw|]. split; [reflexivity|].
      split; [exact (sub_keeps _ _ _ _ Sb)|exact M].
    + destruct IH as [(k' & x' & rest & r & I & Kw & P & Mv)|(N' & P)].
      * left. exists k', x', rest, r. split; [right; exact I|]. auto.
      * right. split; [|exact P]. intros k' rest [<-|I]; [apply N|apply N', I].
Qed.

(** No word of the table begins with another. *)
Definition apart {T} (table : list (string * T)) : Prop := forall k x k' x', In (k, x) table -> In (k', x') table ->
  starts_with (lit k) (lit k') = true -> k = k' /\ x = x'.

Lemma words_pick : forall {T} (table : list (string * T)) s k x rest, wf_span s -> Forall (fun kt => lowercase (fst kt)) table -> apart table ->
  In (k, x) table -> keyword k (span_marks s) rest -> exists r, words_parser table s = Ok (POk r x) /\ moves s r rest.
Proof.
  intros T table s k x rest W F A I Kw. destruct (words_at table s W F) as [(k' & x' & rest' & r & I' & Kw' & P & Mv)|(N & _)].
  - destruct (keyword_excl _ _ _ _ _ Kw Kw') as [X|X].
    + destruct (A _ _ _ _ I I' X) as (<- & <-). exists r. split; [exact P|]. rewrite (keyword_skip _ _ _ Kw), <- (keyword_skip _ _ _ Kw'). exact Mv.
    + destruct (A _ _ _ _ I' I X) as (-> & ->). exists r. split; [exact P|]. rewrite (keyword_skip _ _ _ Kw), <- (keyword_skip _ _ _ Kw'). exact Mv.
  - exfalso. exact (N k rest (in_map fst _ _ I) Kw).
Qed.

Ltac table_apart := let k := fresh in let x := fresh in let k' := fresh in let x' := fresh in let I := fresh in let J := fresh in
  intros k x k' x' I J; cbn in I, J;
  repeat (destruct I as [I|I]; [injection I as <- <-|]); try contradiction;
  repeat (destruct J as [J|J]; [injection J as <- <-|]); try contradiction;
  first [intros _; split; reflexivity|let Q := fresh in intros Q; vm_compute in Q; discriminate Q].
Ltac table_lower := repeat (constructor; [split; [reflexivity|apply lit_ascii; reflexivity]|]); constructor.

Lemma conditional_apart : apart conditional_table.
Proof. table_apart. Qed.
Lemma conditional_lower : Forall (fun kt : string * conditional_type => lowercase (fst kt)) conditional_table.
Proof. table_lower. Qed.

Lemma conditional_keyword_is : forall s, wf_span s -> solid (span_marks s) -> exists s0, keeps s s0 /\ span_marks s0 = span_marks s /\
  conditional_keyword s = add_return_error ConditionalExpected (terminated (words_parser conditional_table) makefile_whitespace) s0.
Proof.
  intros s W S. unfold conditional_keyword, preceded.
  destruct (whitespace_keeps s W) as (s0 & q0 & E0 & K0 & M0). rewrite E0. cbn [pbind bind]. rewrite (solid_strip _ S) in M0.
  exists s0. split; [exact K0|]. split; [exact M0|reflexivity].
Qed.

Lemma conditional_keyword_pick : forall s k ct rest, wf_span s -> solid (span_marks s) -> In (k, ct) conditional_table ->
  keyword k (span_marks s) rest -> exists r, conditional_keyword s = Ok (POk r ct) /\ moves s r (lstrip fst rest).
Proof.
  intros s k ct rest W S I Kw. destruct (conditional_keyword_is s W S) as (s0 & K0 & M0 & E). rewrite E. rewrite <- M0 in Kw.
  destruct (words_pick conditional_table s0 k ct rest (proj1 K0) conditional_lower conditional_apart I Kw) as (r & P & K & M).
  unfold add_return_error, terminated. rewrite P. cbn [pbind bind].
  destruct (whitespace_keeps r (proj1 K)) as (r2 & q & E2 & K2 & M2). rewrite E2. cbn [pbind bind pok].
  exists r2. split; [reflexivity|]. split; [|rewrite M2, M; reflexivity].
  eapply keeps_trans; [exact K0|]. eapply keeps_trans; [exact K|exact K2].
Qed.

Lemma conditional_none : forall s, wf_span s -> tidy s -> solid (span_marks s) -> unconditional (span_marks s) ->
  exists ks, conditional_parse_line s = Ok (PError ks).
Proof.
  intros s W F S (N & B).
  assert (Ifeq : forall (eq : bool) rest, keyword (if eq then "ifeq" else "ifneq") (span_marks s) rest -> exists ks, conditional_parse_line s = Ok (PError ks)).
  { intros eq rest Kw. destruct (B (if eq then "ifeq" else "ifneq")%string rest ltac:(destruct eq; cbn; auto) Kw) as (T & A).
    assert (I : In ((if eq then "ifeq" else "ifneq")%string, if eq then CtIfEq else CtIfNEq) conditional_table) by (destruct eq; cbn; auto).
    destruct (conditional_keyword_pick s _ _ rest W S I Kw) as (r & E & K & M). clear I.
    unfold conditional_parse_line. cbn [conditional_line_fuel]. rewrite E. cbn [pbind bind]. rewrite <- M in T, A.
    destruct (ifeq_not r (proj1 K) (proj1 (proj2 (proj2 K)) F) T A) as (ks & E2). destruct eq; rewrite E2; cbn [pbind bind]; eauto. }
  unfold conditional_parse_line in *. cbn [conditional_line_fuel] in *.
  destruct (conditional_keyword_is s W S) as (s0 & K0 & M0 & E).
  destruct (words_at conditional_table s0 (proj1 K0) conditional_lower) as [(k & x & rest & r & I & Kw & _)|(_ & P)].
  - rewrite M0 in Kw. cbn in I.
    destruct I as [I|[I|[I|[I|[I|[I|[]]]]]]]; injection I as <- <-; try (exfalso; eapply N; [|exact Kw]; cbn; tauto);
      [exact (Ifeq true rest Kw)|exact (Ifeq false rest Kw)].
  - rewrite E. unfold add_return_error, terminated. rewrite P. cbn [pbind bind]. eauto.
Qed.

(** * Conditional directives *)

Lemma blank_strip : forall l : text, all_blank fst l -> lstrip fst l = [].
Proof.
  induction l as [|c l IH]; intros B; [reflexivity|]. unfold lstrip in *. cbn. rewrite (B c (or_introl eq_refl)).
  apply IH. intros a I. apply B. right. exact I.
Qed.

Lemma keeps_len0 : forall s r, keeps s r -> span_marks r = [] -> sp_len r = 0.
Proof. intros s r K M. rewrite <- (span_marks_len r (proj1 K)), M. reflexivity. Qed.

Lemma ifeq_line : forall s (eq : bool) rest a b, wf_span s -> tidy s -> solid (span_marks s) ->
  keyword (if eq then "ifeq" else "ifneq") (span_marks s) rest -> two_arguments (lstrip fst rest) a b -> expression a -> expression b ->
  exists r x y, conditional_parse_line s = Ok (POk r (if eq then CIfEq x y else CIfNEq x y)) /\
    reads_ast True a x /\ reads_ast True b y /\ ast_ok x /\ ast_ok y.
Proof.
  intros s eq rest a b W F S Kw T Ea Eb. unfold conditional_parse_line. cbn [conditional_line_fuel].
  assert (I : In ((if eq then "ifeq" else "ifneq")%string, if eq then CtIfEq else CtIfNEq) conditional_table)
    by (destruct eq; cbn; auto).
  destruct (conditional_keyword_pick s _ _ rest W S I Kw) as (r & E & K & M). clear I.
  rewrite E. cbn [pbind bind]. rewrite <- M in T.
  destruct (ifeq_at r a b (proj1 K) (proj1 (proj2 (proj2 K)) F) T Ea Eb) as (r2 & x & y & E2 & R).
  exists r2, x, y. split; [|exact R]. destruct eq; rewrite E2; reflexivity.
Qed.

Lemma else_line : forall s rest, wf_span s -> solid (span_marks s) -> keyword "else" (span_marks s) rest -> all_blank fst rest ->
  exists r, conditional_parse_line s = Ok (POk r (CElse None)).
Proof.
  intros s rest W S Kw B. unfold conditional_parse_line. cbn [conditional_line_fuel].
  assert (I : In ("else"%string, CtElse) conditional_table) by (cbn; auto 7).
  destruct (conditional_keyword_pick s _ _ rest W S I Kw) as (r & E & K & M). clear I.
  rewrite E. cbn [pbind bind]. unfold parse_else.
  destruct (whitespace_keeps r (proj1 K)) as (r2 & q & E2 & K2 & M2). rewrite E2. cbn [pbind bind pok].
  rewrite M, (blank_strip _ B) in M2. rewrite (keeps_len0 _ _ K2 M2). exists r2. reflexivity.
Qed.

Lemma endif_line : forall s rest, wf_span s -> solid (span_marks s) -> keyword "endif" (span_marks s) rest -> all_blank fst rest ->
  exists r, conditional_parse_line s = Ok (POk r CEndIf).
Proof.
  intros s rest W S Kw B. unfold conditional_parse_line. cbn [conditional_line_fuel].
  assert (I : In ("endif"%string, CtEndIf) conditional_table) by (cbn; auto 8).
  destruct (conditional_keyword_pick s _ _ rest W S I Kw) as (r & E & K & M). clear I.
  rewrite E. cbn [pbind bind].
  rewrite (blank_strip _ B) in M. rewrite (keeps_len0 _ _ K M). exists r. reflexivity.
Qed.
