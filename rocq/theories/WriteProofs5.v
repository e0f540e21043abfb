(** Proofs about makefiles written out from statements: conditionals, and the whole. *)
From Coq Require Import String.
From Verif Require Import Base LocModel EvdModel AstModel EngineModel EvdSpec DbSpec ParseModel ParseSpec EvalSpec AstParseSpec EngineSpec MakeSpec
  EvdProofs2 ParseProofs EvalProofs4 MakeProofs5 MakeRun WriteSpec WriteProofs WriteProofs2 WriteLong WriteProofs3 WriteProofs4.
Local Open Scope nat_scope.

(** * Arguments *)
Lemma opened_app : forall a b : text, opened_first open_paren close_paren a -> all_closed open_paren close_paren a ->
  opened_first open_paren close_paren b -> opened_first open_paren close_paren (a ++ b).
Proof.
  intros a b A C B p q E.
  assert (X : (exists r, a = p ++ r) \/ (exists r, p = a ++ r /\ b = r ++ q)).
  { revert p E. induction a as [|x a IH]; intros p E.
    - right. exists p. auto.
    - destruct p as [|y p]; [left; exists (x :: a); reflexivity|]. cbn in E. injection E as <- E.
      assert (Y : (exists r, a = p ++ r) \/ (exists r, p = a ++ r /\ b = r ++ q)).
      { clear - E. revert p E. induction a as [|x a IH]; intros p E; [right; exists p; auto|]. destruct p as [|y p]; [left; exists (x :: a); reflexivity|].
        cbn in E. injection E as <- E. destruct (IH p E) as [[r ->]|(r & -> & ->)]; [left; exists r|right; exists r]; auto. }
      destruct Y as [[r ->]|(r & -> & ->)]; [left; exists r|right; exists r]; auto. }
  destruct X as [[r ->]|(r & -> & ->)]; [apply (A p r); reflexivity|]. rewrite !count_app. unfold all_closed in C. specialize (B r q eq_refl). lia.
Qed.
Lemma closed_app : forall a b : text, all_closed open_paren close_paren a -> all_closed open_paren close_paren b -> all_closed open_paren close_paren (a ++ b).
Proof. intros a b A B. unfold all_closed in *. rewrite !count_app. lia. Qed.

Definition argument_char (c : char) : Prop := ordinary c /\ ~ In c [40; 41; 44]%N.
Lemma show_balanced : forall e (t : text), made_of argument_char e -> chars t = show e ->
  opened_first open_paren close_paren t /\ all_closed open_paren close_paren t.
Proof.
  assert (Grp : forall d b (inner : text) c u, fst d = dollar -> fst b = open_paren -> fst c = close_paren -> ~ In open_paren (chars inner) -> ~ In close_paren (chars inner) ->
    opened_first open_paren close_paren u -> all_closed open_paren close_paren u ->
    opened_first open_paren close_paren (d :: b :: inner ++ c :: u) /\ all_closed open_paren close_paren (d :: b :: inner ++ c :: u)).
  { intros d b inner c u F1 F2 F3 Z1 Z2 O C.
    replace (d :: b :: inner ++ c :: u) with ((d :: b :: inner ++ [c]) ++ u) by (cbn; rewrite <- app_assoc; reflexivity).
    assert (K : forall o, count o (d :: b :: inner ++ [c]) = (if is o d then 1 else 0) + ((if is o b then 1 else 0) + (count o inner + (if is o c then 1 else 0)))).
    { intros o. rewrite !count_cons, count_app, count_cons. cbn. lia. }
    assert (I1 : is open_paren d = false /\ is close_paren d = false /\ is open_paren b = true /\ is close_paren b = false /\ is open_paren c = false /\ is close_paren c = true)
      by (unfold is; rewrite F1, F2, F3; auto 10).
    destruct I1 as (I1 & I2 & I3 & I4 & I5 & I6).
    assert (Ca : all_closed open_paren close_paren (d :: b :: inner ++ [c])).
    { unfold all_closed. rewrite !K, I1, I2, I3, I4, I5, I6, !count_none; auto. }
    split; [apply opened_app; auto|apply closed_app; auto].
    intros p q Q. destruct p as [|d' [|b' p]].
    * cbn. lia.
    * cbn in Q. injection Q as <- Q. rewrite !count_cons, I1, I2. cbn. lia.
    * cbn in Q. injection Q as <- <- Q. rewrite !count_cons, I1, I2, I3, I4.
      assert (T : count close_paren (inner ++ [c]) = 1) by (rewrite count_app, count_none, count_cons, I6 by exact Z2; reflexivity).
      rewrite Q, count_app in T. lia. }
  induction e as [|p e IH]; intros t M E.
  - apply chars_nil in E as ->. split; [|reflexivity]. intros p q Q. symmetry in Q. apply app_eq_nil in Q as [-> _]. cbn. lia.
  - inversion M as [|? ? Mp Me]; subst. destruct p as [s|x| |x k r]; cbn [show List.map concat show_part] in E.
    + apply chars_split in E as (a & b & -> & E1 & E2). destruct (IH b Me E2) as [O C].
      assert (Z : ~ In open_paren (chars a) /\ ~ In close_paren (chars a)).
      { rewrite E1. rewrite Forall_forall in Mp. split; intros I; destruct (Mp _ I) as [_ Q]; apply Q; cbn; tauto. }
      destruct Z as [Z1 Z2]. assert (Ca : all_closed open_paren close_paren a) by (unfold all_closed; rewrite !count_none; auto).
      split; [apply opened_app; auto|apply closed_app; auto].
      intros p q ->. rewrite chars_app, in_app_iff in Z2. rewrite (count_none close_paren); [lia|tauto].
    + destruct (ref_text _ _ _ E) as (d & b & inner & c & u & -> & F1 & F2 & F3 & E1 & E2). subst x. destruct (IH u Me E2) as [O C].
      apply Grp; auto; not_in Mp.
    + change (lit "$$" ++ concat (List.map show_part e)) with ([dollar; dollar] ++ show e) in E. apply chars_split in E as (a & b & -> & E1 & E2). destruct (IH b Me E2) as [O C].
      assert (Z1 : ~ In open_paren (chars a)) by (rewrite E1; cbn; lia). assert (Z2 : ~ In close_paren (chars a)) by (rewrite E1; cbn; lia).
      assert (Ca : all_closed open_paren close_paren a) by (unfold all_closed; rewrite !count_none; auto).
      split; [apply opened_app; auto|apply closed_app; auto].
      intros p q ->. rewrite chars_app, in_app_iff in Z2. rewrite (count_none close_paren); [lia|tauto].
    + destruct (ref_text _ _ _ E) as (d & b & inner & c & u & -> & F1 & F2 & F3 & E1 & E2). destruct (IH u Me E2) as [O C].
      destruct Mp as (N & K & Rr & _). destruct (sub_inner x k r inner N K Rr E1) as (_ & A & _). apply Grp; auto; apply A; cbn; tauto.
Qed.

Lemma cmd_printable : forall cmd, Forall command_expr (commands cmd) -> Forall printable (show_cmd cmd).
Proof. intros [e|] Vc; [|constructor]. inversion Vc as [|? ? [Me _] _]; subst. constructor; [unfold printable; lia|apply show_printable; exact Me]. Qed.
Lemma condition_show : forall e, condition_expr e -> Forall printable (show e) /\ ~ In comma (show e) /\ expr_ok e.
Proof.
  intros e [M _]. split; [|split].
  - apply show_printable. eapply made_impl; [|exact M]. intros c [O _]. exact O.
  - assert (F : Forall (fun c => c <> comma) (show e)).
    { eapply show_forall; [exact M| | | | |]; try discriminate; [intros c [_ N] ->; apply N; cbn; tauto|intros c W ->; unfold word_char in W; lia]. }
    rewrite Forall_forall in F. intros I. exact (F _ I eq_refl).
  - apply ordinary_ok. eapply made_impl; [|exact M]. intros c [O _]. exact O.
Qed.

Lemma arguments_of : forall (t : text) a b, condition_expr a -> condition_expr b -> chars t = open_paren :: show a ++ comma :: show b ++ [close_paren] ->
  exists ta tb, two_arguments t ta tb /\ chars ta = show a /\ chars tb = show b /\ (unbroken t -> unbroken ta /\ unbroken tb).
Proof.
  intros t a b Ca Cb E. apply chars_cons in E as (o & t1 & -> & Fo & E). apply chars_split in E as (ta & t2 & -> & Ea & E).
  apply chars_cons in E as (x & t3 & -> & Fx & E). apply chars_split in E as (tb & t4 & -> & Eb & E). apply chars_cons in E as (c & t5 & -> & Fc & E).
  exists ta, tb. split; [|split; [exact Ea|split; [exact Eb|]]]; cycle 1.
  { intros U. apply unbroken_tail in U. split; [exact (unbroken_app _ _ U)|]. exact (unbroken_app _ _ (unbroken_tail _ _ (unbroken_after _ _ U))). }
  destruct (condition_show _ Ca) as (Pa & Na & _), (condition_show _ Cb) as (Pb & Nb & _).
  assert (S : lstrip fst (tb ++ c :: t5) = tb ++ c :: t5).
  { destruct tb as [|y tb]; unfold lstrip; cbn [app drop_while].
    - rewrite Fc. reflexivity.
    - destruct Cb as [_ Cb]. rewrite <- Eb in Cb, Pb. cbn in Cb. inversion Pb; subst. rewrite printable_blank by assumption.
      destruct (fst y =? c_space)%N eqn:Q; [apply N.eqb_eq in Q; contradiction|reflexivity]. }
  destruct (show_balanced a ta) as [O1 C1]; [apply Ca|exact Ea|]. destruct (show_balanced b tb) as [O2 C2]; [apply Cb|exact Eb|].
  eapply TA_parens; [exact Fo| |rewrite S; split; [exact O2|split; [exact C2|exists c; auto]]].
  exists x. split; [reflexivity|]. split; [exact Fx|]. split; [unfold all_closed in C1; lia|].
  intros p y q Q Fy. exfalso. apply Na. rewrite <- Ea, Q, chars_app. apply in_or_app. right. left. exact Fy.
Qed.

Lemma quoted_show : forall q e, quoted_expr q e -> Forall printable (show e) /\ Forall (fun c => ~ In c (quote q)) (show e) /\ expr_ok e.
Proof.
  intros q e M. split; [|split].
  - apply show_printable. eapply made_impl; [|exact M]. intros c [O _]. exact O.
  - eapply show_forall; [exact M|intros c [_ N]; exact N|intros c W; unfold word_char in W; destruct q; cbn; lia|..]; destruct q; cbn; lia.
  - apply ordinary_ok. eapply made_impl; [|exact M]. intros c [O _]. exact O.
Qed.
Lemma quoted_arguments : forall (t : text) q q' a b, quoted_expr q a -> quoted_expr q' b ->
  chars t = quote q ++ show a ++ quote q ++ lit " " ++ quote q' ++ show b ++ quote q' ->
  exists ta tb, two_arguments t ta tb /\ chars ta = show a /\ chars tb = show b /\ (unbroken t -> unbroken ta /\ unbroken tb).
Proof.
  intros t q q' a b Ca Cb E.
  assert (Q : forall q, exists c, quote q = [c] /\ In c [34; 39]%N) by (intros []; eexists; (split; [reflexivity|]); cbn; tauto).
  destruct (quoted_show _ _ Ca) as (_ & Na & _), (quoted_show _ _ Cb) as (_ & Nb & _).
  destruct (Q q) as (c & Eq & Ic), (Q q') as (c' & Eq' & Ic'). rewrite Eq in *. rewrite Eq' in *. cbn [app] in E.
  apply chars_cons in E as (o & t1 & -> & Fo & E). apply chars_split in E as (ta & t2 & -> & Ea & E).
  apply chars_cons in E as (x & t3 & -> & Fx & E). apply chars_cons in E as (sp & t4 & -> & Fs & E). apply chars_cons in E as (o' & t5 & -> & Fo' & E).
  apply chars_split in E as (tb & t6 & -> & Eb & E). apply chars_cons in E as (x' & t7 & -> & Fx' & E).
  exists ta, tb. split; [|split; [exact Ea|split; [exact Eb|]]]; cycle 1.
  { intros U. apply unbroken_tail in U. split; [exact (unbroken_app _ _ U)|].
    exact (unbroken_app _ _ (unbroken_tail _ _ (unbroken_tail _ _ (unbroken_tail _ _ (unbroken_after _ _ U))))). }
  assert (No : forall c (u : text) s, chars u = s -> Forall (fun d => ~ In d [c]) s -> ~ has fst c u).
  { intros d u s <- F. apply not_has. eapply Forall_impl; [|exact F]. intros y Ny ->. apply Ny. cbn. tauto. }
  assert (So : blank c' = false) by (cbn in Ic'; destruct Ic' as [<-|[<-|[]]]; reflexivity).
  eapply TA_quotes with (o' := o') (q' := x') (v := t7); [rewrite Fo; exact Ic|rewrite Fo; eapply No; [exact Ea|exact Na]|congruence|rewrite Fo'; exact Ic'|rewrite Fo'; eapply No; [exact Eb|exact Nb]|congruence|].
  unfold lstrip. cbn [drop_while]. rewrite Fs. change (blank c_space) with true. cbn match. rewrite Fo', So. reflexivity.
Qed.

Lemma conditions_ordinary : forall k a b, conditions k a b -> made_of ordinary a /\ made_of ordinary b.
Proof. intros [n|n q q'] a b [A B]; [destruct A as [A _], B as [B _]|]; split; (eapply made_impl; [|eassumption]); intros c H; apply H. Qed.

Lemma evaluable_line : forall c, evaluable c -> exists l, show_stmt c = l ++ nl /\ removelast (show_stmt c) = l /\ Forall printable l /\ ~ In open_paren l /\ ~ In close_paren l /\
  ~ In semicolon l /\ ~ In dollar l.
Proof.
  assert (G : forall P : char -> Prop, forall l, Forall P l -> (forall c, P c -> ~ In c [36; 40; 41; 59]%N) -> ~ In open_paren l /\ ~ In close_paren l /\ ~ In semicolon l /\ ~ In dollar l).
  { intros P l F H. rewrite Forall_forall in F. repeat split; intros I; apply F in I; apply H in I; apply I; cbn; tauto. }
  intros c W. destruct c as [|x o e| | | |ts double deps recipe| | | | |]; try destruct W.
  - destruct e as [|[v| | |] [|? ?]]; try destruct W. destruct H0 as [H0 H1].
    exists (x ++ show_op o ++ v). cbn [show_stmt]. change (show [Txt v]) with (v ++ []). rewrite app_nil_r.
    split; [rewrite <- !app_assoc; reflexivity|]. split; [rewrite !app_assoc; apply removelast_last|].
    assert (F : Forall (fun c => printable c /\ ~ In c [36; 40; 41; 59]%N) (x ++ show_op o ++ v)).
    { rewrite !Forall_app. split; [|split].
      - destruct H as (_ & F & _). eapply Forall_impl; [|exact F]. intros a Wa. split; [apply word_printable; exact Wa|]. unfold word_char in Wa. cbn. lia.
      - destruct o; cbn; repeat (apply Forall_cons; [split; [unfold printable; lia|cbn; lia]|]); apply Forall_nil.
      - eapply Forall_impl; [|exact H0]. cbn beta. intros a [Oa Na]. split; [apply ordinary_printable; exact Oa|]. destruct Oa as [_ Oa]. cbn in *. lia. }
    split; [eapply Forall_impl; [|exact F]; intros a Q; apply Q|]. eapply G; [exact F|]. intros a Q. apply Q.
  - destruct deps as [|[d| | |] [|? ?]]; try destruct W. destruct recipe; try destruct W. destruct H0 as [H0 H1].
    exists (join c_space ts ++ lit (if double then ":: " else ": ") ++ d). cbn [show_stmt]. change (show [Txt d]) with (d ++ []). cbn [List.map concat]. rewrite !app_nil_r.
    split; [rewrite <- !app_assoc; reflexivity|]. split; [rewrite !app_assoc; apply removelast_last|].
    assert (F : Forall (fun c => printable c /\ ~ In c [36; 40; 41; 59]%N) (join c_space ts ++ lit (if double then ":: " else ": ") ++ d)).
    { rewrite !Forall_app. assert (Wd : forall a, word_char a -> printable a /\ ~ In a [36; 40; 41; 59]%N) by (intros a Wa; split; [apply word_printable; exact Wa|unfold word_char in Wa; cbn; lia]).
      split; [|split].
      - apply join_forall; [split; [unfold printable, c_space; lia|cbn; unfold c_space; lia]|exact Wd|exact H0].
      - destruct double; cbn; repeat (apply Forall_cons; [split; [unfold printable; lia|cbn; lia]|]); apply Forall_nil.
      - destruct H1 as [M _]. inversion M as [|? ? Md _]; subst. eapply Forall_impl; [|exact Md]. intros a [Wa| ->]; [auto|split; [unfold printable, c_space; lia|cbn; unfold c_space; lia]]. }
    split; [eapply Forall_impl; [|exact F]; intros a Q; apply Q|]. eapply G; [exact F|]. intros a Q. apply Q.
Qed.
Lemma evaluable_printable : forall c, evaluable c -> Forall printable (removelast (show_stmt c)).
Proof. intros c W. destruct (evaluable_line c W) as (l & _ & -> & P & _). exact P. Qed.

Section Run.
Variable fs : str -> file.

(** * Conditional lines *)
Lemma if_line : forall s st (t : text) u n a b m m', rel s st -> ~ has fst c_hash t -> unbroken t -> conditions n a b ->
  says (w_env s) a m -> says (w_env s) b m' -> chars t = if_text n a b ++ u ->
  exists t', leads fs st t (with_conds st ((holds n m m', false) :: m_conds st) (not_taken ((holds n m m', false) :: m_conds st))) t' /\
    chars t' = u /\ ~ has fst c_hash t'.
Proof.
  intros s st t u n a b m m' R H U C Sa Sb E.
  set (neg := match n with Parens n | Quotes n _ _ => n end).
  set (kw := lit (if neg then "ifneq" else "ifeq")).
  assert (Ar : exists c args, if_text n a b = kw ++ c_space :: (c :: args) ++ nl /\ blank c = false /\ Forall printable (c :: args) /\ expr_ok a /\ expr_ok b /\
    forall t : text, chars t = c :: args -> exists ta tb, two_arguments t ta tb /\ chars ta = show a /\ chars tb = show b /\ (unbroken t -> unbroken ta /\ unbroken tb)).
  { destruct n as [n|n q q'].
    - destruct C as [Ca Cb]. destruct (condition_show _ Ca) as (Pa & Na & Oa), (condition_show _ Cb) as (Pb & Nb & Ob).
      exists open_paren, (show a ++ comma :: show b ++ [close_paren]).
      split; [unfold if_text, kw, neg; destruct n; cbn; rewrite <- !app_assoc; cbn; rewrite <- !app_assoc; reflexivity|]. split; [reflexivity|].
      split; [|split; [exact Oa|split; [exact Ob|intros t0; apply arguments_of; assumption]]].
      constructor; [unfold printable; lia|]. apply Forall_app. split; [exact Pa|]. constructor; [unfold printable; lia|].
      apply Forall_app. split; [exact Pb|]. constructor; [unfold printable; lia|constructor].
    - destruct C as [Ca Cb]. destruct (quoted_show _ _ Ca) as (Pa & _ & Oa), (quoted_show _ _ Cb) as (Pb & _ & Ob).
      assert (Q : forall q, exists c, quote q = [c] /\ blank c = false /\ printable c) by (intros []; [exists 39%N|exists 34%N]; (split; [reflexivity|split; [reflexivity|unfold printable; lia]])).
      pose proof (quoted_arguments) as QA. specialize (fun t => QA t q q' a b Ca Cb).
      destruct (Q q) as (c & Eq & Bc & Pc), (Q q') as (c' & Eq' & Bc' & Pc').
      exists c, (show a ++ c :: c_space :: c' :: show b ++ [c']).
      split; [unfold if_text, kw, neg; rewrite Eq, Eq'; destruct n; cbn; rewrite <- !app_assoc; cbn; rewrite <- !app_assoc; reflexivity|]. split; [exact Bc|].
      split; [|split; [exact Oa|split; [exact Ob|intros t0 E0; apply QA; rewrite E0, Eq, Eq'; reflexivity]]].
      constructor; [exact Pc|]. apply Forall_app. split; [exact Pa|]. constructor; [exact Pc|]. constructor; [unfold printable, c_space; lia|]. constructor; [exact Pc'|].
      apply Forall_app. split; [exact Pb|]. constructor; [exact Pc'|constructor]. }
  destruct Ar as (ca & args' & Ei & Bc & Pargs & Oa & Ob & Args). set (args := ca :: args') in *.
  assert (Ek : exists k, kw = 105%N :: k /\ Forall printable (105%N :: k)).
  { exists (List.tl kw). subst kw. destruct neg; (split; [reflexivity|]); cbn; repeat (apply Forall_cons; [unfold printable; lia|]); apply Forall_nil. }
  destruct Ek as (k & Ek & Pk).
  assert (E' : chars t = (105%N :: k ++ c_space :: args) ++ nl ++ u).
  { change (105%N :: k ++ c_space :: args) with ((105%N :: k) ++ c_space :: args). rewrite <- Ek, E, Ei. rewrite <- !app_assoc. cbn [app]. rewrite <- !app_assoc. reflexivity. }
  destruct (take_line t 105%N (k ++ c_space :: args) u E') as (tl & t' & E1 & E2 & [L P Lo Co Hh] & So); auto; [|discriminate|].
  { change (105%N :: k ++ c_space :: args) with ((105%N :: k) ++ c_space :: args). apply Forall_app. split; [exact Pk|].
    constructor; [unfold printable, c_space; lia|exact Pargs]. }
  change (105%N :: k ++ c_space :: args) with ((105%N :: k) ++ c_space :: args) in E1. rewrite <- Ek in E1.
  apply chars_split in E1 as (w & r & -> & Ew & Er). apply chars_cons in Er as (sp & ar & -> & Fs & Ea).
  assert (Sr : lstrip fst (sp :: ar) = ar).
  { unfold lstrip. cbn [drop_while]. rewrite Fs. change (blank c_space) with true. cbn match. apply (lstrip_solid ar ca args'); [exact Ea|exact Bc]. }
  destruct (Args ar Ea) as (ta & tb & T & Ta & Tb & Ub). rewrite <- Sr in T.
  destruct Ub as [Ua Ub]; [exact (unbroken_tail _ _ (unbroken_after _ _ (plain_unbroken _ _ _ P U)))|].
  destruct (says_both _ _ (re_env _ _ R)) as [SB _]. destruct (SB _ _ Sa Oa ta Ta Ua) as (ma & Sa' & Cma), (SB _ _ Sb Ob tb Tb Ub) as (mb & Sb' & Cmb).
  assert (CL : conditional_line (m_defs st) (w ++ sp :: ar) (EvIf (holds n m m'))).
  { unfold holds. fold neg. subst m m'. unfold kw in Ew. destruct neg.
    - replace (xorb true (if list_eq_dec N.eq_dec (trim (chars ma)) (trim (chars mb)) then true else false)) with (if list_eq_dec N.eq_dec (trim (chars ma)) (trim (chars mb)) then false else true)
        by (destruct (list_eq_dec N.eq_dec (trim (chars ma)) (trim (chars mb))); reflexivity).
      eapply CL_ifneq; [exists w; split; [reflexivity|rewrite Ew; reflexivity]|exact T|exact Sa'|exact Sb'].
    - rewrite xorb_false_l.
      eapply CL_ifeq; [exists w; split; [reflexivity|rewrite Ew; reflexivity]|exact T|exact Sa'|exact Sb']. }
  exists t'. split; [|auto]. eapply leads_step; [exact E'|].
  apply (ST_conditional st t (w ++ sp :: ar) t' (EvIf (holds n m m')) ((holds n m m', false) :: m_conds st)); auto. eapply direct; [exact R|exact E'|discriminate].
Qed.

Lemma bare_line : forall s st (t : text) u (k : string) c l e, rel s st -> ~ has fst c_hash t -> lit k = c :: l -> c <> c_space -> c <> c_tab ->
  Forall printable (lit k) -> List.map ascii_lower (lit k) = lit k -> (forall D l, keyword k l [] -> conditional_line D l e) ->
  chars t = lit k ++ nl ++ u -> forall conds, enter (m_conds st) e = Some conds ->
  exists t', leads fs st t (with_conds st conds (ignoring_after (m_ignoring st) e conds)) t' /\ chars t' = u /\ ~ has fst c_hash t'.
Proof.
  intros s st t u k c l e R H Ek Ns Nt Pk Lk Cl E conds En. rewrite Ek in E, Pk.
  destruct (take_line t c l u E Pk Ns H) as (tl & t' & E1 & E2 & [L P Lo Co Hh] & So).
  exists t'. split; [|auto]. eapply leads_step; [exact E|].
  eapply ST_conditional; [exact Co|eapply direct; [exact R|exact E|exact Nt]|exact L|exact So| |exact En].
  apply Cl. exists tl. split; [symmetry; apply app_nil_r|]. rewrite E1, <- Ek. exact Lk.
Qed.
Ltac printables := cbn; repeat (apply Forall_cons; [unfold printable; lia|]); apply Forall_nil.
Lemma else_line : forall s st (t : text) u b conds, rel s st -> ~ has fst c_hash t -> m_conds st = (b, false) :: conds -> chars t = lit "else" ++ nl ++ u ->
  exists t', leads fs st t (with_conds st ((negb b, true) :: conds) (not_taken ((negb b, true) :: conds))) t' /\ chars t' = u /\ ~ has fst c_hash t'.
Proof.
  intros s st t u b conds R H C E.
  destruct (bare_line s st t u "else" 101%N (lit "lse") EvElse) with (conds := (negb b, true) :: conds) as (t' & A); auto; try discriminate; [printables| | |].
  - intros D l K. eapply CL_else; [exact K|]. intros a [].
  - rewrite C. reflexivity.
  - exists t'. exact A.
Qed.
Lemma endif_line : forall s st (t : text) u x conds, rel s st -> ~ has fst c_hash t -> m_conds st = x :: conds -> chars t = lit "endif" ++ nl ++ u ->
  exists t', leads fs st t (with_conds st conds (m_ignoring st)) t' /\ chars t' = u /\ ~ has fst c_hash t'.
Proof.
  intros s st t u x conds R H C E.
  destruct (bare_line s st t u "endif" 101%N (lit "ndif") EvEndif) with (conds := conds) as (t' & A); auto; try discriminate; [printables| | |].
  - intros D l K. eapply CL_endif; [exact K|]. intros a [].
  - rewrite C. destruct x as [? []]; reflexivity.
  - exists t'. exact A.
Qed.
Lemma rel_conds : forall s st c i t, rel s st -> i = negb t -> rel (heard s t) (with_conds st c i).
Proof. intros s st c i t [A B C D E] ->. constructor; auto. Qed.
Lemma rel_endif : forall s st c, rel s st -> rel s (with_conds st c (m_ignoring st)).
Proof. intros s st c [A B C D E]. constructor; auto. Qed.

(** * Ignored statements *)
Lemma strip_cases : forall t : text, lstrip fst t = [] \/ solid (lstrip fst t).
Proof.
  induction t as [|a t IH]; [left; reflexivity|]. unfold lstrip in *. cbn [drop_while]. destruct (blank (fst a)) eqn:B; [exact IH|right].
  exists a, t. auto.
Qed.
Lemma mute_line : forall s st (t : text) l u, rel s st -> w_deaf s = true -> ~ has fst c_hash t -> chars t = l ++ nl ++ u ->
  Forall (fun c => c <> c_nl) l -> whole l -> (forall r, l = c_tab :: r -> w_open s = None) -> (forall tl : text, chars tl = l -> unconditional (lstrip fst tl)) ->
  exists t', leads fs st t st t' /\ chars t' = u /\ ~ has fst c_hash t'.
Proof.
  intros s st t l u R Df H E F Wl Tb Q. destruct (whole_line t l u E F Wl H) as (tl & n & t' & -> & E1 & E2 & E3 & H' & L & P & T).
  exists t'. split; [|auto].
  assert (Dr : directly st (tl ++ n :: t')).
  { split; [|apply R]. intros Mr (c & v & Ec & Fc). destruct tl as [|c' tl].
    - cbn in Ec. injection Ec as <- <-. rewrite E2 in Fc. discriminate.
    - cbn in Ec. injection Ec as <- _. rewrite <- E1 in Tb. cbn in Tb. rewrite Fc in Tb. specialize (Tb _ eq_refl).
      pose proof (re_open _ _ R) as O. rewrite Tb in O. destruct (m_rule st); [destruct O|contradiction]. }
  apply leads_line; [intros Z; apply app_eq_nil in Z as [_ Z]; discriminate|].
  destruct (strip_cases tl) as [Z|Z].
  - rewrite Z in T. apply ST_blank; [apply no_comment; exact H|exact Dr|exact T].
  - eapply ST_ignored; [apply no_comment; exact H|exact Dr|exact T|exact Z|rewrite (re_deaf _ _ R); exact Df|apply Q; exact E1].
Qed.
Lemma no_directive_none : forall a (tl : text), no_directive a -> chars tl = unindented a -> unconditional tl.
Proof. intros a tl Q E. apply none_unconditional. intros k rest I (w & -> & W). apply (Q k (List.map ascii_lower (chars rest)) I). rewrite <- E, chars_app, map_app, W. reflexivity. Qed.
Lemma mute_inline : forall s st (t : text) l u, rel s st -> w_deaf s = true -> ~ has fst c_hash t -> chars t = l ++ nl ++ u ->
  Forall inline l -> (forall r, l = c_tab :: r -> w_open s = None) -> (forall tl : text, chars tl = l -> unconditional (lstrip fst tl)) ->
  exists t', leads fs st t st t' /\ chars t' = u /\ ~ has fst c_hash t'.
Proof.
  intros s st t l u R Df H E F. eapply mute_line; eauto; [eapply Forall_impl; [|exact F]; intros a [A _]; exact A|apply inline_whole; exact F].
Qed.
Lemma skip_any : forall s st (t : text) c l u, rel s st -> w_deaf s = true -> ~ has fst c_hash t -> chars t = (c :: l) ++ nl ++ u ->
  Forall inked (c :: l) -> whole (c :: l) -> blank c = false -> unreserved (c :: l) ->
  exists t', leads fs st t st t' /\ chars t' = u /\ ~ has fst c_hash t'.
Proof.
  intros s st t c l u R Df H E P Wl B U. eapply mute_line; [exact R|exact Df|exact H|exact E| |exact Wl| |].
  - eapply Forall_impl; [|exact P]. intros a Q. unfold inked, c_nl in *. lia.
  - intros r Q. injection Q as -> _. discriminate B.
  - intros tl El. rewrite (lstrip_solid tl c l El B). apply unconditional_of; rewrite El; exact U.
Qed.
Lemma skip_line : forall s st (t : text) c l u, rel s st -> w_deaf s = true -> ~ has fst c_hash t -> chars t = (c :: l) ++ nl ++ u ->
  Forall printable (c :: l) -> c <> c_space -> unreserved (c :: l) ->
  exists t', leads fs st t st t' /\ chars t' = u /\ ~ has fst c_hash t'.
Proof.
  intros s st t c l u R Df H E P Ns U. eapply skip_any; [exact R|exact Df|exact H|exact E|apply all_inked; exact P|apply printable_whole; exact P| |exact U].
  inversion P as [|? ? Pc _]; subst. rewrite printable_blank by exact Pc. apply N.eqb_neq. exact Ns.
Qed.
(** A line that begins with a word that is not that of a conditional. *)
Lemma other_line : forall s st (t : text) k l u, rel s st -> w_deaf s = true -> ~ has fst c_hash t -> chars t = (lit k ++ l) ++ nl ++ u ->
  In k ["define "; "endef"; "include "; "-include "; "$(eval "]%string -> Forall printable l ->
  exists t', leads fs st t st t' /\ chars t' = u /\ ~ has fst c_hash t'.
Proof.
  intros s st t k l u R Df H E I P. eapply mute_inline; [exact R|exact Df|exact H|exact E| | |].
  - apply printable_all_inline, Forall_app. split; [|exact P]. cbn in I. repeat (destruct I as [<-|I]; [printables|]). destruct I.
  - intros r Q. cbn in I. repeat (destruct I as [<-|I]; [discriminate Q|]). destruct I.
  - intros tl El. assert (Z : lstrip fst tl = tl).
    { cbn in I. repeat (destruct I as [<-|I]; [eapply lstrip_solid; [exact El|reflexivity]|]). destruct I. }
    rewrite Z. apply none_unconditional. intros c z Ic (w & Q & K). apply (f_equal chars) in Q. rewrite El, chars_app in Q.
    apply (f_equal (List.map ascii_lower)) in Q. rewrite !map_app, K in Q.
    cbn in I, Ic. repeat (destruct I as [<-|I]; [repeat (destruct Ic as [<-|Ic]; [cbn in Q; discriminate|]); destruct Ic|]). destruct I.
Qed.
Lemma silent_lines : forall lines s st (t : text) u, rel s st -> w_deaf s = true -> ~ has fst c_hash t ->
  chars t = concat (List.map (fun e => show e ++ nl) lines) ++ u -> Forall silent lines ->
  exists t', leads fs st t st t' /\ chars t' = u /\ ~ has fst c_hash t'.
Proof.
  intros lines s st t u R Df. revert t. induction lines as [|e lines IH]; intros t H E Q.
  - exists t. split; [apply leads_refl|auto].
  - inversion Q as [|? ? ((M & Wh) & Nd & Nt) Ql]; subst. cbn [List.map concat] in E. rewrite <- !app_assoc in E.
    destruct (mute_line s st t (show e) _ R Df H E) as (t1 & L1 & E1 & H1).
    + eapply Forall_impl; [|apply show_inked; exact M]. intros a A. unfold inked, c_nl in *. lia.
    + exact Wh.
    + intros r Er. destruct (Nt r Er).
    + intros tl El. apply (no_directive_none (show e)); [exact Nd|]. rewrite strip_chars, El. reflexivity.
    + destruct (IH t1 H1 E1 Ql) as (t2 & L2 & E2 & H2). exists t2. split; [eapply leads_trans; eauto|auto].
Qed.

(** Commands over several lines. *)
Lemma drop_while_last : forall {A} (p : A -> bool) x c, p c = false -> exists y, drop_while p (x ++ [c]) = y ++ [c].
Proof.
  intros A p x c P. induction x as [|a x (y & IH)]; cbn [app drop_while]; [rewrite P; exists []; reflexivity|].
  destruct (p a); [exists y; exact IH|]. exists (a :: x). reflexivity.
Qed.
Lemma drop_while_suffix : forall {A} (p : A -> bool) l, exists z, l = z ++ drop_while p l.
Proof.
  intros A p. induction l as [|a l (z & IH)]; [exists []; reflexivity|]. cbn [drop_while]. destruct (p a); [|exists []; reflexivity].
  exists (a :: z). cbn. f_equal. exact IH.
Qed.
Lemma take_while_last : forall {A} (p : A -> bool) x c, p c = false -> List.length (take_while p (x ++ [c])) <= List.length x.
Proof. intros A p x c P. induction x as [|a x IH]; cbn [app take_while]; [rewrite P; cbn; lia|]. destruct (p a); cbn; lia. Qed.
Lemma clean_first : forall (c : placed) (r : text), r <> [] -> blank (fst c) = false -> backslash (fst c) = false ->
  exists p z, clean fst GNU (c :: r) = c :: p /\ r = p ++ z.
Proof.
  intros c r Nr B S. unfold clean. destruct (_ =? 1).
  - destruct (Nat.ltb_spec (List.length (c :: r)) 2) as [Q|_]; [destruct r; [contradiction|cbn in Q; lia]|].
    assert (exists p z, rstrip fst (c :: r) = c :: p /\ r = p ++ z) as (p & z & E & Er).
    { unfold rstrip. cbn [rev]. set (f := fun a : placed => blank (fst a) || backslash (fst a)).
      destruct (drop_while_last f (rev r) c) as (y & Ey); [unfold f; rewrite B, S; reflexivity|]. destruct (drop_while_suffix f (rev r ++ [c])) as (z & Ez). rewrite Ey in Ez |- *.
      rewrite rev_app_distr. cbn [rev app]. exists (rev y), (rev z). split; [reflexivity|].
      rewrite app_assoc in Ez. apply app_inj_tail in Ez as [Ez _]. rewrite <- rev_app_distr, <- Ez, rev_involutive. reflexivity. }
    rewrite E. exists p, z. auto.
  - assert (T : tail_backslashes fst (c :: r) <= List.length r).
    { unfold tail_backslashes. cbn [rev]. rewrite <- (rev_length r). apply take_while_last. exact S. }
    cbn [List.length]. set (k := tail_backslashes fst (c :: r)) in *. destruct (Datatypes.S (List.length r) - k + k / 2) as [|m] eqn:Em; [lia|].
    cbn [firstn]. exists (firstn m r), (skipn m r). split; [reflexivity|]. symmetry. apply firstn_skipn.
Qed.
Lemma more_lines : forall e, recipe_expr e -> forall (t : text) u, chars t = c_tab :: tabbed (show e) ++ nl ++ u -> ~ has fst c_hash t ->
  exists ls last rest, logical_line fst t ls last rest /\ chars rest = u /\ ~ has fst c_hash rest.
Proof.
  intros e X. induction X as [e [M Wh]|e e' [M Wh] X IH NE]; intros t u E H.
  - rewrite tabbed_plain in E by (apply show_inked; exact M). change (c_tab :: show e ++ nl ++ u) with ((c_tab :: show e) ++ c_nl :: u) in E.
    destruct (whole_line t (c_tab :: show e) u E) as (tl & n & t' & -> & E1 & E2 & E3 & H' & L & _); [|apply (whole_after []); [discriminate|exact Wh]|exact H|].
    + constructor; [discriminate|]. eapply Forall_impl; [|apply show_inked; exact M]. intros a A. unfold inked, c_nl in *. lia.
    + exists [], tl, t'. auto.
  - rewrite show_app, tabbed_app in E. rewrite tabbed_plain in E by (apply show_inked; exact M).
    change (tabbed (show (Txt [c_bslash; c_nl] :: e'))) with (c_bslash :: c_nl :: c_tab :: tabbed (show e')) in E.
    replace (c_tab :: (show e ++ c_bslash :: c_nl :: c_tab :: tabbed (show e')) ++ nl ++ u) with ((c_tab :: show e ++ [c_bslash]) ++ c_nl :: c_tab :: tabbed (show e') ++ nl ++ u) in E
      by (cbn [app]; rewrite <- !app_assoc; reflexivity).
    apply chars_split in E as (a & b & -> & Ea & E). apply chars_cons in E as (n & b' & -> & Fn & E).
    destruct (IH b' u E) as (ls & last & rest & L & Er & Hr); [intros (x & I & Q); apply H; exists x; split; [apply in_or_app; right; right; exact I|exact Q]|].
    exists (a :: ls), last, rest. split; [|auto]. apply LL_more; [| |exact Fn|exact L].
    + apply not_has. rewrite Ea. constructor; [discriminate|]. apply Forall_app. split; [|repeat constructor; discriminate].
      eapply Forall_impl; [|apply show_inked; exact M]. intros x A. unfold inked, c_nl in *. lia.
    + rewrite continued_chars, Ea. change (c_tab :: show e ++ [c_bslash]) with ((c_tab :: show e) ++ [c_bslash]). apply continued_more. apply (whole_after []); [discriminate|exact Wh].
Qed.
Lemma quiet_command : forall s st (t : text) e u, rel s st -> w_deaf s = true -> w_open s = None -> ~ has fst c_hash t ->
  chars t = show_line e ++ u -> quiet e -> exists t', leads fs st t st t' /\ chars t' = u /\ ~ has fst c_hash t'.
Proof.
  intros s st t e u R Df O H E Q. destruct Q as [e [M Wh] Nd|e e' c r [M Wh] Nd Ec Nc X NE].
  - rewrite (show_line_plain e M) in E. replace ((c_tab :: show e ++ nl) ++ u) with ((c_tab :: show e) ++ nl ++ u) in E by (cbn [app]; rewrite <- app_assoc; reflexivity).
    apply (mute_line s st t (c_tab :: show e) u R Df H E).
    + constructor; [discriminate|]. eapply Forall_impl; [|apply show_inked; exact M]. intros a A. unfold inked, c_nl in *. lia.
    + apply (whole_after []); [discriminate|exact Wh].
    + intros _ _. exact O.
    + intros tl El. apply (no_directive_none (show e)); [exact Nd|]. rewrite strip_chars, El. reflexivity.
  - unfold show_line in E. fold (tabbed (show (e ++ Txt [c_bslash; c_nl] :: e'))) in E. rewrite show_app, tabbed_app in E. rewrite tabbed_plain in E by (apply show_inked; exact M).
    change (tabbed (show (Txt [c_bslash; c_nl] :: e'))) with (c_bslash :: c_nl :: c_tab :: tabbed (show e')) in E.
    replace ((c_tab :: (show e ++ c_bslash :: c_nl :: c_tab :: tabbed (show e')) ++ nl) ++ u)
      with ((c_tab :: show e ++ [c_bslash]) ++ c_nl :: c_tab :: tabbed (show e') ++ nl ++ u) in E by (cbn [app]; repeat rewrite <- app_assoc; cbn [app]; repeat rewrite <- app_assoc; reflexivity).
    pose proof E as E0. apply chars_split in E as (a & b & -> & Ea & E). apply chars_cons in E as (n & b' & -> & Fn & E).
    destruct (more_lines e' X b' u E) as (ls & last & rest & L & Er & Hr); [intros (x & I & Q); apply H; exists x; split; [apply in_or_app; right; right; exact I|exact Q]|].
    exists rest. split; [|auto].
    assert (LL : logical_line fst (a ++ n :: b') (a :: ls) last rest).
    { apply LL_more; [| |exact Fn|exact L].
      - apply not_has. rewrite Ea. constructor; [discriminate|]. apply Forall_app. split; [|repeat constructor; discriminate].
        eapply Forall_impl; [|apply show_inked; exact M]. intros x A. unfold inked, c_nl in *. lia.
      - rewrite continued_chars, Ea. change (c_tab :: show e ++ [c_bslash]) with ((c_tab :: show e) ++ [c_bslash]). apply continued_more. apply (whole_after []); [discriminate|exact Wh]. }
    assert (Dr : directly st (a ++ n :: b')).
    { split; [|apply R]. intros Mr _. pose proof (re_open _ _ R) as Q. rewrite O in Q. destruct (m_rule st); [destruct Q|contradiction]. }
    pose proof (LT_line _ _ _ _ H LL) as LT.
    rewrite Ec in Ea. cbn [app] in Ea. apply chars_cons in Ea as (tb & a' & -> & Ftb & Ea). apply chars_cons in Ea as (c' & r' & -> & Fc & Ea).
    assert (Bc : blank (fst c') = false /\ backslash (fst c') = false).
    { rewrite Fc. unfold blank, backslash. cbn in Nc. split; [apply orb_false_iff; split|]; apply N.eqb_neq; intros Z; rewrite ?Z in Nc; unfold c_space, c_tab, c_bslash in *; lia. }
    destruct Bc as [Bc Sc].
    assert (Sa : lstrip fst (tb :: c' :: r') = c' :: r').
    { unfold lstrip. cbn [drop_while]. rewrite Ftb. change (blank c_tab) with true. cbn match. rewrite Bc. reflexivity. }
    destruct (clean_first c' r') as (p & z & Ep & Ez); [intros ->; destruct r; discriminate Ea|exact Bc|exact Sc|].
    assert (exists y, join (made c_space) (pieces fst GNU true ((tb :: c' :: r') :: ls) last) = c' :: p ++ made c_space :: y) as (y & Ey).
    { unfold pieces. cbn [List.map filter]. rewrite Sa, Ep. cbn [nonempty]. cbn [app].
      destruct (filter nonempty (List.map (fun l => clean fst GNU (lstrip fst l)) ls) ++ [lstrip fst last]) as [|q qs] eqn:Eq; [destruct (filter _ _); discriminate Eq|].
      cbn [join]. eexists. reflexivity. }
    rewrite Ey in LT. apply leads_line; [discriminate|]. eapply ST_ignored; [apply no_comment; exact H|exact Dr|exact LT|exists c'; eexists; auto|rewrite (re_deaf _ _ R); exact Df|].
    apply none_unconditional. intros k v I (w & Ew & Lw). apply (f_equal (fun t => List.map ascii_lower (chars t))) in Ew.
    rewrite chars_app, map_app, Lw in Ew. change (c' :: p ++ made c_space :: y) with ((c' :: p) ++ made c_space :: y) in Ew. rewrite chars_app, map_app in Ew.
    cbn [chars List.map] in Ew. change (ascii_lower (fst (made c_space))) with c_space in Ew. symmetry in Ew.
    assert (Nk : forall x, In x [c_space; c_bslash] -> ~ In x (lit k)).
    { intros x Ix J. cbn in I, Ix. repeat (destruct I as [<-|I]; [cbn in J; destruct Ix as [<-|[<-|[]]]; unfold c_space, c_bslash in J; lia|]). destruct I. }
    symmetry in Ew. apply prefix_in in Ew as (r1 & E1); [|apply Nk; cbn; tauto].
    assert (E2 : List.map ascii_lower (show e) ++ c_bslash :: [] = lit k ++ r1 ++ List.map ascii_lower (chars z)).
    { rewrite app_assoc, <- E1, Ec. change ([c_bslash]) with (List.map ascii_lower [c_bslash]). rewrite <- map_app. cbn [app List.map]. rewrite <- Fc.
      change (r ++ [c_bslash]) with (r ++ lit "\"). cbn [chars List.map app]. f_equal. rewrite <- map_app. f_equal. rewrite Ez in Ea. rewrite chars_app in Ea. symmetry. exact Ea. }
    apply prefix_in in E2 as (r2 & E2); [|apply Nk; cbn; tauto].
    apply (Nd k r2 I). rewrite <- E2, Ec. unfold unindented, lstrip. cbn [drop_while]. rewrite <- Fc, Bc. reflexivity.
Qed.
Lemma quiet_lines : forall lines s st (t : text) u, rel s st -> w_deaf s = true -> w_open s = None -> ~ has fst c_hash t ->
  chars t = concat (List.map show_line lines) ++ u -> Forall quiet lines -> exists t', leads fs st t st t' /\ chars t' = u /\ ~ has fst c_hash t'.
Proof.
  intros lines s st t u R Df O. revert t. induction lines as [|e lines IH]; intros t H E Q; [exists t; split; [apply leads_refl|auto]|].
  inversion Q as [|? ? Qe Ql]; subst. cbn [List.map concat] in E. rewrite <- app_assoc in E.
  destruct (quiet_command s st t e _ R Df O H E Qe) as (t1 & L1 & E1 & H1). destruct (IH t1 H1 E1 Ql) as (t2 & L2 & E2 & H2).
  exists t2. split; [eapply leads_trans; eauto|auto].
Qed.

Lemma nested_lines : forall n body, nested n body -> Forall (made_of line_char) body.
Proof. induction 1; constructor; auto. Qed.
(** A rule with plain targets is a rule. *)
Lemma rule_as : forall ts d deps recipe, show_stmt (SRule ts d deps recipe) = show_stmt (SRuleFor (List.map (fun x => [Txt x]) ts) d deps None recipe).
Proof. intros ts d deps recipe. cbn [show_stmt]. rewrite names_shown. reflexivity. Qed.
Lemma rule_formed : forall ts d deps recipe, well_formed (SRule ts d deps recipe) -> well_formed (SRuleFor (List.map (fun x => [Txt x]) ts) d deps None recipe).
Proof.
  intros ts d deps recipe (NE & F & V & Re). split; [destruct ts; [contradiction|discriminate]|]. split; [apply names_computed; exact F|]. split; [exact V|]. split; [constructor|exact Re].
Qed.
Lemma assign_as : forall x o e, show_stmt (SAssign x o e) = show_stmt (SAssignTo [Txt x] o e).
Proof. intros x o e. cbn [show_stmt]. rewrite show_one. reflexivity. Qed.
Lemma ignores_run : forall s c s', ignores s c s' -> well_formed c -> w_deaf s = true -> forall st (t : text) u, rel s st ->
  ~ has fst c_hash t -> unbroken t -> chars t = show_stmt c ++ u ->
  exists st' t', leads fs st t st' t' /\ rel s' st' /\ m_conds st' = m_conds st /\ chars t' = u /\ ~ has fst c_hash t'.
Proof.
  assert (Same : forall s st (t : text) u, rel s st -> (exists t', leads fs st t st t' /\ chars t' = u /\ ~ has fst c_hash t') ->
    exists st' t', leads fs st t st' t' /\ rel s st' /\ m_conds st' = m_conds st /\ chars t' = u /\ ~ has fst c_hash t').
  { intros s st t u R (t' & L & E & H). exists st, t'. auto. }
  assert (Head : forall s ts double deps cmd recipe, well_formed (SRuleFor ts double deps cmd recipe) -> w_deaf s = true -> forall st (t : text) u, rel s st ->
    ~ has fst c_hash t -> chars t = show_stmt (SRuleFor ts double deps cmd recipe) ++ u ->
    exists t', leads fs st t st t' /\ chars t' = concat (List.map show_line recipe) ++ u /\ ~ has fst c_hash t').
  { intros s ts double deps cmd recipe (NE & F & V & Vc & _) Df st t u R H Et. cbn [show_stmt] in Et.
    destruct (shown_first ts NE F) as (c & l & Ex & Hc). destruct (head_solid c Hc) as (_ & Ns & Ntb & _). set (cl := lit (if double then ":: " else ": ")) in *.
    assert (Eq : c :: l ++ cl ++ show deps ++ show_cmd cmd = join c_space (List.map show ts) ++ cl ++ show deps ++ show_cmd cmd) by (rewrite Ex; reflexivity).
    eapply (skip_line s st t c (l ++ cl ++ show deps ++ show_cmd cmd)); auto; rewrite ?Eq; [rewrite Et; rewrite <- !app_assoc; reflexivity| |].
    + rewrite !Forall_app. split; [apply shown_forall; [unfold printable, c_space; lia|exact word_printable| | | |exact F]; unfold printable; lia|]. split; [|split; [apply deps_printable; apply V|apply cmd_printable; exact Vc]].
      subst cl. destruct double; printables.
    + assert (exists z, cl = colon :: z) as [z ->] by (subst cl; destruct double; eexists; reflexivity). cbn [app]. apply shown_unreserved; auto. }
  assert (Asg : forall s x o e, computed x -> value_expr e -> w_deaf s = true -> forall st (t : text) u, rel s st ->
    ~ has fst c_hash t -> chars t = show_stmt (SAssignTo x o e) ++ u -> exists t', leads fs st t st t' /\ chars t' = u /\ ~ has fst c_hash t').
  { intros s x o e N V Df st t u R H Et. cbn [show_stmt] in Et.
    destruct (word_head x (proj1 N) (proj1 (proj2 N))) as (c & l & Ex & Hc). destruct (head_solid c Hc) as (Bc & _).
    assert (Eq : c :: l ++ show_op o ++ show e = show x ++ show_op o ++ show e) by (rewrite Ex; reflexivity).
    eapply (skip_any s st t c (l ++ show_op o ++ show e) u); auto; rewrite ?Eq; [rewrite Et; rewrite <- !app_assoc; reflexivity|apply assign_inked; [apply N|exact V]|apply assign_whole; exact V|].
    + destruct (op_unreserved o) as [r ->]. cbn [app]. apply unreserved_app; [apply N|reflexivity]. }
  assert (Rec : forall s ts d deps cmd recipe ts' r, well_formed (SRuleFor ts d deps cmd recipe) -> w_deaf s = true -> w_open s = Some (ts', r) ->
    forall st (t : text) u, rel s st -> ~ has fst c_hash t -> unbroken t -> chars t = show_stmt (SRuleFor ts d deps cmd recipe) ++ u ->
    exists st' t', leads fs st t st' t' /\ rel (open_rule s ts' (WRule (wr_deps r) (wr_uses r) (wr_recipe r ++ recipe) (wr_double r))) st' /\ m_conds st' = m_conds st /\ chars t' = u /\ ~ has fst c_hash t').
  { intros s ts d deps cmd recipe ts' r W Df H0 st t u R H U Et. destruct (Head s ts d deps cmd recipe W Df st t u R H Et) as (t1 & L1 & E1 & H1).
    destruct (recipe_run fs recipe s st t1 u ts' r R H0 H1) as (st' & t' & L & R' & C & E' & H'); [apply W|exact (leads_unbroken _ _ _ _ _ L1 U)|exact E1|].
    exists st', t'. split; [eapply leads_trans; eauto|auto]. }
  assert (Qui : forall s ts d deps cmd recipe, well_formed (SRuleFor ts d deps cmd recipe) -> w_deaf s = true -> w_open s = None -> Forall quiet recipe ->
    forall st (t : text) u, rel s st -> ~ has fst c_hash t -> chars t = show_stmt (SRuleFor ts d deps cmd recipe) ++ u ->
    exists t', leads fs st t st t' /\ chars t' = u /\ ~ has fst c_hash t').
  { intros s ts d deps cmd recipe W Df H0 Q st t u R H Et. destruct (Head s ts d deps cmd recipe W Df st t u R H Et) as (t1 & L1 & E1 & G1).
    destruct (quiet_lines recipe s st t1 u R Df H0 G1 E1 Q) as (t2 & L2 & E2 & G2).
    exists t2. split; [eapply leads_trans; eauto|auto]. }
  intros s c s' I W Df st t u R H U Et. inversion I; subst.
  - destruct W as [N V]. rewrite assign_as in Et. apply Same; [exact R|]. eapply Asg; [apply name_computed; exact N|exact V|exact Df|exact R|exact H|exact Et].
  - destruct W as [N V]. apply Same; [exact R|]. eapply Asg; [exact N|exact V|exact Df|exact R|exact H|exact Et].
  - apply Same; [exact R|]. eapply long_skip; eauto.
  - destruct W as [N V]. cbn [show_stmt] in Et. apply Same; [exact R|].
    destruct (other_line s' st t "define " x (concat (List.map (fun e => show e ++ nl) body) ++ lit "endef" ++ nl ++ u) R Df H) as (t1 & L1 & E1 & H1);
      [rewrite Et; rewrite <- !app_assoc; reflexivity|cbn; tauto|apply name_printable; exact N|].
    destruct (silent_lines body s' st t1 _ R Df H1 E1 H0) as (t2 & L2 & E2 & H2).
    destruct (other_line s' st t2 "endef" [] u R Df H2) as (t3 & L3 & E3 & H3); [rewrite E2; reflexivity|cbn; tauto|constructor|].
    exists t3. split; [eapply leads_trans; [exact L1|]; eapply leads_trans; eauto|auto].
  - rewrite rule_as in Et. apply rule_formed in W. eapply Rec; eauto.
  - rewrite rule_as in Et. apply rule_formed in W. apply Same; [exact R|]. eapply Qui; eauto.
  - eapply Rec; eauto.
  - apply Same; [exact R|]. eapply Qui; eauto.
  - cbn [well_formed] in W. destruct (line_wordy _ W) as [NE F]. cbn [show_stmt] in Et. rewrite <- app_assoc in Et. apply Same; [exact R|].
    destruct (wordy_first ws NE F) as (c & l & Ex & Wc & Ns & Ntb).
    assert (P : Forall printable (join c_space ws)) by (apply wordy_join; [unfold printable, c_space; lia|exact word_printable|exact F]).
    eapply mute_inline; [exact R|exact Df|exact H|exact Et|apply printable_all_inline; exact P| |].
    + intros r Q. rewrite Ex in Q. injection Q as -> _. contradiction.
    + intros tl El. rewrite (lstrip_solid tl c l); [apply (words_plain fs ws); auto|rewrite El; exact Ex|apply word_facts; exact Wc].
  - cbn in W. cbn [show_stmt] in Et. apply Same; [exact R|].
    eapply (other_line s' st t (if soft then "-include " else "include ") (show e) u); auto; [rewrite Et, <- !app_assoc; reflexivity|destruct soft; cbn; tauto|apply deps_printable; exact W].
  - cbn in W. cbn [show_stmt] in Et. apply Same; [exact R|].
    eapply (other_line s' st t "$(eval " (removelast (show_stmt c0) ++ lit ")") u); auto; [rewrite Et, <- !app_assoc; reflexivity|cbn; tauto|].
    apply Forall_app. split; [apply evaluable_printable; exact W|]. printables.
Qed.
End Run.

(** * The text is ASCII without `#` *)
Definition tidy (c : char) : Prop := (c < 128)%N /\ c <> 35%N.
Lemma printable_tidy : forall c, printable c -> tidy c.
Proof. intros c H. unfold printable, tidy in *. lia. Qed.
Lemma all_tidy : forall s, Forall printable s -> Forall tidy s.
Proof. intros s. apply Forall_impl. exact printable_tidy. Qed.
Lemma nl_tidy : Forall tidy nl.
Proof. repeat constructor; discriminate. Qed.
Ltac tidy_lit := cbn; repeat (apply Forall_cons; [unfold tidy; lia|]); apply Forall_nil.
Lemma concat_tidy : forall {A} (f : A -> str) l, Forall (fun a => Forall tidy (f a)) l -> Forall tidy (concat (List.map f l)).
Proof. intros A f l F. induction F; [constructor|]. cbn. apply Forall_app. auto. Qed.
Lemma expr_tidy : forall e, made_of ordinary e -> Forall tidy (show e).
Proof. intros e M. apply all_tidy, show_printable, M. Qed.
Lemma command_tidy : forall e, made_of line_char e -> Forall tidy (show e).
Proof. intros e M. eapply Forall_impl; [|apply show_inked; exact M]. intros c I. unfold inked, tidy in *. lia. Qed.
Lemma condition_tidy : forall e, condition_expr e -> Forall tidy (show e).
Proof. intros e C. apply all_tidy. apply condition_show in C as (P & _). exact P. Qed.
Lemma computed_tidy : forall x, made_of word_char x -> Forall tidy (show x).
Proof. intros x M. apply all_tidy, computed_printable, M. Qed.
Lemma names_tidy : forall ts, Forall name ts -> Forall tidy (join c_space ts).
Proof. intros ts F. apply join_forall; [unfold tidy, c_space; lia|intros c W; apply printable_tidy, word_printable; exact W|exact F]. Qed.
Lemma targets_tidy : forall ts, Forall computed ts -> Forall tidy (join c_space (List.map show ts)).
Proof. intros ts F. apply shown_forall; [unfold tidy, c_space; lia|intros c W; apply printable_tidy, word_printable; exact W| | | |exact F]; unfold tidy; lia. Qed.
Lemma assign_tidy : forall x o e, computed x -> value_expr e -> Forall tidy (show_stmt (SAssignTo x o e)).
Proof.
  intros x o e N [M _]. cbn [show_stmt]. rewrite !Forall_app. split; [apply computed_tidy; apply N|].
  split; [apply all_tidy, op_printable|]. split; [apply command_tidy; exact M|apply nl_tidy].
Qed.
Lemma rule_tidy : forall ts d deps cmd recipe, Forall computed ts -> deps_expr deps -> Forall command_expr (commands cmd) -> Forall recipe_expr recipe -> Forall tidy (show_stmt (SRuleFor ts d deps cmd recipe)).
Proof.
  intros ts d deps cmd recipe F V Vc Re. cbn [show_stmt]. rewrite !Forall_app. split; [apply targets_tidy; exact F|]. split; [destruct d; tidy_lit|].
  split; [apply all_tidy, deps_printable; apply V|]. split; [apply all_tidy, cmd_printable; exact Vc|]. split; [apply nl_tidy|]. apply concat_tidy. eapply Forall_impl; [|exact Re].
  intros e M. constructor; [unfold tidy, c_tab; lia|]. fold (tabbed (show e)). apply Forall_app. split; [|apply nl_tidy].
  induction M as [e [M _]|e e' [M _] X IH NE]; [rewrite tabbed_plain by (apply show_inked; exact M); apply command_tidy; exact M|].
  rewrite show_app, tabbed_app. apply Forall_app. split; [rewrite tabbed_plain by (apply show_inked; exact M); apply command_tidy; exact M|].
  change (tabbed (show (Txt [c_bslash; c_nl] :: e'))) with ([c_bslash; c_nl; c_tab] ++ tabbed (show e')). apply Forall_app. split; [|exact IH].
  repeat (apply Forall_cons; [split; [reflexivity|discriminate]|]). apply Forall_nil.
Qed.
Lemma long_tidy : forall x o down e es, name x -> Forall long_line (e :: es) -> Forall tidy (show_stmt (SLong x o down e es)).
Proof.
  intros x o down e es N L. inversion L as [|? ? Le Ls]; subst. cbn [show_stmt]. rewrite !Forall_app. split; [apply all_tidy, name_printable; exact N|].
  split; [destruct down; [destruct o; cbn; repeat (apply Forall_cons; [split; [reflexivity|discriminate]|]); apply Forall_nil|apply all_tidy, op_printable]|]. split; [apply expr_tidy; apply Le|]. split; [|apply nl_tidy].
  apply concat_tidy. eapply Forall_impl; [|exact Ls]. intros e' Le'. apply Forall_app. split; [|apply expr_tidy; apply Le'].
  cbn. repeat (apply Forall_cons; [split; [reflexivity|discriminate]|]). apply Forall_nil.
Qed.
Lemma words_tidy : forall ws, word_line ws -> Forall tidy (show_stmt (SWords ws)).
Proof.
  intros ws W. cbn [show_stmt]. apply Forall_app. split; [|apply nl_tidy].
  apply wordy_join; [unfold tidy, c_space; lia|intros c Wc; apply printable_tidy, word_printable; exact Wc|apply line_wordy; exact W].
Qed.
Lemma define_tidy : forall x body, name x -> nested 1 body -> Forall tidy (show_stmt (SDefine x body)).
Proof.
  intros x body N F. cbn [show_stmt]. rewrite !Forall_app. split; [tidy_lit|]. split; [apply all_tidy, name_printable; exact N|]. split; [apply nl_tidy|].
  split; [|split; [tidy_lit|apply nl_tidy]]. apply concat_tidy. eapply Forall_impl; [|eapply nested_lines; exact F].
  intros e M. apply Forall_app. split; [apply command_tidy; exact M|apply nl_tidy].
Qed.
Lemma include_tidy : forall soft e, made_of dep_char e -> Forall tidy (show_stmt (SInclude soft e)).
Proof.
  intros soft e M. cbn [show_stmt]. rewrite !Forall_app. split; [destruct soft; tidy_lit|]. split; [apply all_tidy, deps_printable; exact M|apply nl_tidy].
Qed.
Lemma test_tidy : forall n a b, conditions n a b -> Forall tidy (if_text n a b).
Proof.
  assert (Q : forall q, Forall tidy (quote q)) by (intros []; tidy_lit).
  intros [n|n q q'] a b [Ca Cb]; unfold if_text; rewrite !Forall_app.
  - split; [destruct n; tidy_lit|]. split; [apply condition_tidy; exact Ca|]. split; [tidy_lit|]. split; [apply condition_tidy; exact Cb|]. split; [tidy_lit|apply nl_tidy].
  - apply quoted_show in Ca as (Pa & _), Cb as (Pb & _). split; [destruct n; tidy_lit|]. split; [apply Q|]. split; [apply all_tidy; exact Pa|]. split; [apply Q|].
    split; [tidy_lit|]. split; [apply Q|]. split; [apply all_tidy; exact Pb|]. split; [apply Q|apply nl_tidy].
Qed.
Lemma if_tidy : forall n a b yes no, conditions n a b -> Forall tidy (show_all yes) ->
  match no with None => True | Some no => Forall tidy (show_all no) end -> Forall tidy (show_stmt (SIf n a b yes no)).
Proof.
  intros n a b yes no C Y No. cbn [show_stmt]. fold show_stmt. rewrite !Forall_app. split; [apply test_tidy; exact C|]. split; [exact Y|].
  split; [|split; [tidy_lit|apply nl_tidy]]. destruct no; [|constructor]. rewrite !Forall_app. split; [tidy_lit|]. split; [apply nl_tidy|exact No].
Qed.

Lemma stmt_induct : forall P : stmt -> Prop,
  (forall c, match c with SIf _ _ _ yes no => Forall P yes /\ match no with Some no => Forall P no | None => True end | _ => True end -> P c) ->
  forall c, P c.
Proof.
  intros P H. fix IH 1. intros c. apply H. destruct c; try exact Logic.I.
  assert (L : forall l, Forall P l) by (fix L 1; intros [|c l]; [constructor|constructor; [apply IH|apply L]]).
  split; [apply L|]. destruct no as [no|]; [apply L|exact Logic.I].
Qed.
Lemma every_forall : forall P ss, every P ss <-> Forall P ss.
Proof.
  intros P ss. induction ss as [|c ss IH]; cbn; [split; auto|]. split.
  - intros [A B]. constructor; [exact A|apply IH; exact B].
  - intros F. inversion F; subst. split; [assumption|apply IH; assumption].
Qed.
Lemma formed_tidy : forall c, well_formed c -> Forall tidy (show_stmt c).
Proof.
  induction c as [c IH] using stmt_induct. intros W.
  assert (All : forall ss, Forall (fun c => well_formed c -> Forall tidy (show_stmt c)) ss -> every well_formed ss -> Forall tidy (show_all ss)).
  { intros ss F E. apply concat_tidy. induction F as [|d ss Hd F IHs]; [constructor|]. destruct E as [E1 E2]. constructor; auto. }
  destruct c; cbn [well_formed] in W.
  - apply nl_tidy.
  - rewrite assign_as. apply assign_tidy; [apply name_computed; apply W|apply W].
  - apply assign_tidy; apply W.
  - apply long_tidy; apply W.
  - apply define_tidy; apply W.
  - rewrite rule_as. destruct W as (NE & F & V & Re). apply rule_tidy; [apply names_computed; assumption|assumption|constructor|assumption].
  - apply rule_tidy; apply W.
  - apply words_tidy. exact W.
  - apply include_tidy. exact W.
  - cbn [show_stmt]. rewrite !Forall_app. split; [tidy_lit|]. split; [apply all_tidy, evaluable_printable; exact W|]. split; [tidy_lit|apply nl_tidy].
  - destruct IH as [I1 I2], W as (Ca & W1 & W2). apply if_tidy; auto. destruct no; auto.
Qed.
Lemma all_formed_tidy : forall ss, every well_formed ss -> Forall tidy (show_all ss).
Proof.
  intros ss E. apply concat_tidy. apply every_forall in E. eapply Forall_impl; [|exact E]. exact formed_tidy.
Qed.
