(** Proofs about makefiles written out from statements: definitions of several lines,
    conditionals, and the whole. *)
From Coq Require Import String.
From Verif Require Import Base LocModel EvdModel AstModel EngineModel EvdSpec DbSpec ParseModel ParseSpec EvalSpec AstParseSpec EngineSpec MakeSpec
  ParseProofs EvalProofs4 MakeRun WriteSpec WriteProofs WriteProofs2 WriteProofs3.
Local Open Scope nat_scope.

Lemma prefix_in : forall (s k r r' : str) c, s ++ c :: r = k ++ r' -> ~ In c k -> exists r'', s = k ++ r''.
Proof.
  intros s k. revert s. induction k as [|a k IH]; intros s r r' c E N; [exists s; reflexivity|]. destruct s as [|b s]; cbn in E; injection E as E1 E2.
  - destruct N. left. symmetry. exact E1.
  - destruct (IH s r r' c E2) as [r'' ->]; [intros I; apply N; now right|]. exists r''. subst. reflexivity.
Qed.
Lemma lstrip_end : forall (t : text) n, fst n = c_nl -> lstrip fst (t ++ [n]) = lstrip fst t ++ [n].
Proof.
  induction t as [|a t IH]; intros n F; unfold lstrip in *; cbn [app drop_while].
  - rewrite F. reflexivity.
  - destruct (blank (fst a)); [apply IH; exact F|reflexivity].
Qed.

Lemma strip_chars : forall t : text, chars (lstrip fst t) = unindented (chars t).
Proof.
  induction t as [|a t IH]; [reflexivity|]. unfold unindented, lstrip in *. cbn [drop_while chars List.map]. destruct (blank (fst a)); [exact IH|reflexivity].
Qed.

Section Run.
Variable fs : str -> file.

(** * Definitions of several lines *)
Lemma body_run : forall n body, nested n body -> forall s st x v (t : text) u, rel (assign_to s x v) st -> m_rule st = None -> ~ has fst c_hash t -> unbroken t ->
  chars t = concat (List.map (fun e => show e ++ nl) body) ++ u ->
  exists st' t', leads fs (with_define st (Some (x, n))) t (with_define st' (Some (x, 1))) t' /\
    rel (assign_to s x (fold_left (fun v e => Plus v false (Later (e ++ [Txt nl]))) body v)) st' /\ m_rule st' = None /\
    m_conds st' = m_conds st /\ chars t' = u /\ ~ has fst c_hash t'.
Proof.
  assert (G : forall n n' e body, n' <> 0 -> made_of line_char e ->
    (forall (l : text) b, fst b = c_nl -> chars (lstrip fst (l ++ [b])) = unindented (show e) ++ nl -> deeper n (l ++ [b]) n') ->
    (forall s st x v (t : text) u, rel (assign_to s x v) st -> m_rule st = None -> ~ has fst c_hash t -> unbroken t ->
      chars t = concat (List.map (fun e => show e ++ nl) body) ++ u ->
      exists st' t', leads fs (with_define st (Some (x, n'))) t (with_define st' (Some (x, 1))) t' /\
        rel (assign_to s x (fold_left (fun v e => Plus v false (Later (e ++ [Txt nl]))) body v)) st' /\ m_rule st' = None /\
        m_conds st' = m_conds st /\ chars t' = u /\ ~ has fst c_hash t') ->
    forall s st x v (t : text) u, rel (assign_to s x v) st -> m_rule st = None -> ~ has fst c_hash t -> unbroken t ->
      chars t = concat (List.map (fun e => show e ++ nl) (e :: body)) ++ u ->
      exists st' t', leads fs (with_define st (Some (x, n))) t (with_define st' (Some (x, 1))) t' /\
        rel (assign_to s x (fold_left (fun v e => Plus v false (Later (e ++ [Txt nl]))) (e :: body) v)) st' /\ m_rule st' = None /\
        m_conds st' = m_conds st /\ chars t' = u /\ ~ has fst c_hash t').
  { intros n n' e body Nz M Dp IH s st x v t u R Mr H U E. cbn [List.map concat] in E. rewrite <- !app_assoc in E.
    apply chars_split in E as (l & t1 & -> & El & E). cbn [nl app] in E. apply chars_cons in E as (b & t2 & -> & Fn & E).
    assert (Pl : Forall inked (chars l)) by (rewrite El; apply show_inked; exact M).
    assert (exists old, m_defs st x = Some old /\ val_rel v old) as (old & Ox & Ro).
    { pose proof (re_env _ _ R x) as Q. cbn in Q. unfold set in Q. destruct (list_eq_dec N.eq_dec x x) as [_|]; [|contradiction]. destruct (m_defs st x); [eauto|destruct Q]. }
    set (D' := set (m_defs st) x (Appended old false (Deferred FlRecursive (l ++ [b])))).
    assert (Oe : expr_ok (e ++ [Txt nl])).
    { apply Forall_app. split; [apply line_ok; exact M|]. constructor; [|constructor]. constructor; [discriminate|constructor]. }
    assert (Es : chars (l ++ [b]) = show (e ++ [Txt nl])).
    { rewrite chars_app, El. unfold show. rewrite map_app, concat_app. cbn. rewrite Fn. reflexivity. }
    assert (St : step (with_define st (Some (x, n))) (l ++ b :: t2) (with_define (with_defs st D') (Some (x, n'))) t2).
    { change (step (with_define st (Some (x, n))) (l ++ b :: t2) (with_define (with_defs (with_define st (Some (x, n)))
        (set (m_defs (with_define st (Some (x, n)))) x (Appended old false (Deferred FlRecursive (l ++ [b]))))) (Some (x, n'))) t2).
      eapply ST_body; [apply no_comment; exact H|exact Mr|reflexivity|apply BL_line; [exact H| |exact Fn]|eapply show_expression; eauto| |exact Nz|exact Ox].
      - apply not_has. eapply Forall_impl; [|exact Pl]. intros c Q. unfold inked, c_nl in *. lia.
      - apply Dp; [exact Fn|]. rewrite lstrip_end by exact Fn. rewrite chars_app, strip_chars, El. cbn. rewrite Fn. reflexivity. }
    destruct (IH s (with_defs st D') x (Plus v false (Later (e ++ [Txt nl]))) t2 u) as (st' & t' & L & R' & A & B & E' & H'); auto.
    + destruct R as [R1 R2 R3 R4 R5]. constructor; cbn; auto. intros y. specialize (R1 y). cbn in R1. unfold D', set in *. destruct (list_eq_dec N.eq_dec x y); [|exact R1].
      constructor; [exact Ro|constructor; auto]. change (l ++ b :: t2) with (l ++ [b] ++ t2) in U. rewrite app_assoc in U. exact (unbroken_app _ _ U).
    + intros (a & I & Q). apply H. exists a. split; [apply in_or_app; right; right; exact I|exact Q].
    + exact (unbroken_tail _ _ (unbroken_after _ _ U)).
    + exists st', t'. split; [|auto 10]. eapply leads_trans; [|exact L]. apply leads_line; [|exact St].
      intros Q. apply app_eq_nil in Q as [_ Q]. discriminate. }
  assert (Pos : forall n body, nested n body -> n <> 0) by (induction 1; lia).
  induction 1 as [|n e es M N1 N2 Ne IH|n e es r M Ed Ne IH|n e es r M Ed Sp Ne IH].
  - intros s st x v t u R Mr H U E. exists st, t. split; [apply leads_refl|]. auto 10.
  - apply (G n n); auto; [eapply Pos; exact Ne|]. intros l b Fb Cs. apply DE_other; intros z Q; rewrite Cs in Q; apply prefix_in in Q as (r' & Q).
    + exact (N1 _ Q).
    + unfold c_nl; cbn; lia.
    + exact (N2 _ Q).
    + unfold c_nl; cbn; lia.
  - apply (G (S n) (S (S n))); auto. intros l b Fb Cs. apply (DE_define (S n) _ (r ++ nl)). rewrite Cs, Ed, <- app_assoc. reflexivity.
  - apply (G (S (S n)) (S n)); auto. intros l b Fb Cs. apply (DE_endef (S n) _ (r ++ nl)); [rewrite Cs, Ed, <- app_assoc; reflexivity|].
    intros c I. apply in_app_or in I as [I|[<-|[]]]; [|reflexivity]. rewrite Forall_forall in Sp. exact (Sp c I).
Qed.

Lemma define_opens : forall s st (t : text) u x body, rel s st -> w_deaf s = false -> ~ has fst c_hash t -> unbroken t ->
  chars t = lit "define " ++ x ++ nl ++ concat (List.map (fun e => show e ++ nl) body) ++ u -> name x -> nested 1 body ->
  exists st' t', leads fs st t (with_define st' (Some (x, 1))) t' /\ rel (assign_to (finish s) x (body_val body)) st' /\ m_rule st' = None /\
    m_conds st' = m_conds st /\ chars t' = u /\ ~ has fst c_hash t'.
Proof.
  intros s st t u x body R Ig H U E N F.
  rewrite <- (re_deaf _ _ R) in Ig. set (rest := concat (List.map (fun e => show e ++ nl) body) ++ u) in *.
  assert (E' : chars t = (100%N :: lit "efine " ++ x) ++ nl ++ rest) by (rewrite E; reflexivity).
  destruct (take_line t 100%N (lit "efine " ++ x) rest E') as (tl & t1 & E1 & E2 & [L P Lo Co Hh] & So); auto; [|discriminate|].
  { change (100%N :: lit "efine " ++ x) with (lit "define " ++ x). apply Forall_app. split; [|apply name_printable; exact N].
    cbn. repeat (apply Forall_cons; [unfold printable; lia|]). apply Forall_nil. }
  change (100%N :: lit "efine " ++ x) with (lit "define" ++ c_space :: x) in E1.
  destruct (chars_split _ _ _ E1) as (w & r & -> & Ew & Er). destruct (chars_cons _ _ _ Er) as (b & tx & -> & Fb & Ex).
  destruct (first_printable _ N) as (c & l & Ec & Wc & _).
  assert (Sx : lstrip fst (b :: tx) = tx).
  { unfold lstrip. cbn [drop_while]. rewrite Fb. change (blank c_space) with true. cbn match.
    apply (lstrip_solid tx c l); [rewrite Ex; exact Ec|apply word_facts; exact Wc]. }
  assert (NoEq : no_assignment (w ++ b :: tx)).
  { apply no_equals. rewrite E1. rewrite in_app_iff. intros [I|[I|I]]; [cbn in I; lia|discriminate|]. revert I. not_in N. }
  set (st1 := with_o st x (Deferred FlRecursive [])).
  assert (St : step st t (with_define st1 (Some (x, 1))) t1).
  { eapply ST_define; [exact Co|eapply direct; [exact R|exact E'|discriminate]|exact L|exact So|exact Ig| |exact NoEq| |].
    - apply none_unconditional. intros k z I (w' & Q & K). apply (f_equal chars) in Q. rewrite E1, chars_app in Q.
      apply (f_equal (List.map ascii_lower)) in Q. rewrite !map_app, K in Q. cbn in I. repeat (destruct I as [<-|I]; [cbn in Q; discriminate|]). destruct I.
    - exists w. split; [reflexivity|]. rewrite Ew. reflexivity.
    - rewrite Sx. replace x with (trim (chars tx)) by (rewrite Ex; apply trim_name; exact N). apply DH_name.
      intros n k A. destruct A as (bl & op & post & Q & A). 
      assert (G : no_assignment tx) by (apply no_equals; rewrite Ex; not_in N). eapply (G n k). exists bl, op, post. split; [exact Q|exact A]. }
  assert (R1 : rel (assign_to (finish s) x (Later [])) st1) by (apply assign_rel; [exact R|constructor; [constructor|reflexivity|]; intros p x0 y0 z0 Q; destruct p; discriminate Q]).
  destruct (finish_rel _ _ R) as (_ & C1 & _ & _ & _ & _ & C6).
  destruct (body_run 1 body F (finish s) st1 x (Later []) t1 u R1) as (st2 & t2 & L2 & R2 & Mr2 & D1 & E3 & H3); auto; [exact (unbroken_left _ _ (plain_left _ _ _ P) U)|].
  exists st2, t2. split; [|split; [exact R2|split; [exact Mr2|split; [rewrite D1; exact C1|auto]]]].
  eapply leads_trans; [eapply leads_step; [exact E'|exact St]|exact L2].
Qed.
Lemma define_run : forall s st (t : text) u x body, rel s st -> w_deaf s = false -> ~ has fst c_hash t -> unbroken t ->
  chars t = show_stmt (SDefine x body) ++ u -> name x -> nested 1 body ->
  exists st' t', leads fs st t st' t' /\ rel (assign_to (finish s) x (body_val body)) st' /\ m_conds st' = m_conds st /\ chars t' = u /\ ~ has fst c_hash t'.
Proof.
  intros s st t u x body R Ig H U E N F. cbn [show_stmt] in E. rewrite <- !app_assoc in E.
  destruct (define_opens s st t _ x body R Ig H U E N F) as (st2 & t2 & L2 & R2 & Mr2 & D1 & E3 & H3).
  destruct (chars_split _ _ _ E3) as (le & t3 & -> & Ee & E4). cbn [nl app] in E4. apply chars_cons in E4 as (n & t4 & -> & Fn & E4).
  assert (H4 : ~ has fst c_hash t4) by (intros (a & I & Q); apply H3; exists a; split; [apply in_or_app; right; right; exact I|exact Q]).
  exists (with_define st2 None), t4. split; [|split; [|split; [|auto]]].
  - eapply leads_trans; [exact L2|]. eapply leads_step; [exact E3|]. change (with_define st2 None) with (with_define (with_define st2 (Some (x, 1))) None).
    assert (Nn : ~ has fst c_nl le) by (apply not_has; rewrite Ee; cbn; repeat (apply Forall_cons; [discriminate|]); apply Forall_nil).
    eapply ST_endef; [apply no_comment; exact H3|exact Mr2|reflexivity|apply BL_line; [exact H3|exact Nn|exact Fn]| |].
    + apply (show_expression [Txt (lit "endef" ++ nl)]); [|rewrite chars_app, Ee; cbn; rewrite Fn; reflexivity].
      constructor; [|constructor]. cbn. repeat (apply Forall_cons; [discriminate|]). apply Forall_nil.
    + apply (DE_endef 0 _ nl); [|intros c' [<-|[]]; reflexivity]. rewrite (lstrip_solid (le ++ [n]) 101%N (lit "ndef" ++ nl)); [|rewrite chars_app, Ee; cbn; rewrite Fn; reflexivity|reflexivity].
      rewrite chars_app, Ee. cbn. rewrite Fn. reflexivity.
  - destruct R2 as [Q1 Q2 Q3 Q4 Q5]. constructor; cbn; auto.
  - cbn. exact D1.
Qed.
End Run.
