(** Proofs about makefiles written out from statements. *)
From Coq Require Import String.
From Verif Require Import Base LocModel EvdModel AstModel EngineModel EvdSpec DbSpec ParseModel ParseSpec EvalSpec AstParseSpec EngineSpec MakeSpec
  ParseProofs ParseProofs2 EvalProofs4 PieceProofs MakeProofs MakeRun WriteSpec WriteSubst.
Local Open Scope nat_scope.

(** * Texts and their characters *)
Lemma chars_app : forall a b, chars (a ++ b) = chars a ++ chars b.
Proof. intros. unfold chars. apply map_app. Qed.
Lemma chars_split : forall a b t, chars t = a ++ b -> exists ta tb, t = ta ++ tb /\ chars ta = a /\ chars tb = b.
Proof. intros a b t E. apply map_eq_app in E as (x & y & -> & A & B). eauto. Qed.
Lemma chars_cons : forall c b t, chars t = c :: b -> exists x u, t = x :: u /\ fst x = c /\ chars u = b.
Proof. intros c b [|x u] E; [discriminate|]. injection E as E1 E2. eauto. Qed.
Lemma chars_nil : forall t, chars t = [] -> t = [].
Proof. intros [|x t] E; [reflexivity|discriminate]. Qed.
Lemma has_chars : forall c (t : text), has fst c t <-> In c (chars t).
Proof.
  intros c t. unfold has, chars. rewrite in_map_iff. split; intros (a & A & B); exists a; tauto.
Qed.
Lemma not_has : forall c (t : text), Forall (fun x => x <> c) (chars t) -> ~ has fst c t.
Proof. intros c t F H. apply has_chars in H. rewrite Forall_forall in F. exact (F c H eq_refl). Qed.

Ltac chop E :=
  match type of E with
  | chars _ = _ :: _ => let x := fresh "x" in let u := fresh "u" in let F := fresh "F" in let Q := fresh "E" in
      apply chars_cons in E as (x & u & -> & F & Q)
  | chars _ = _ ++ _ => let x := fresh "u" in let u := fresh "v" in let F := fresh "E" in let Q := fresh "E" in
      apply chars_split in E as (x & u & -> & F & Q)
  end.

Lemma one_backslash : forall (l : text) b, fst b = c_bslash -> Forall (fun c => c <> c_bslash) (chars l) -> continued fst (l ++ [b]) = true.
Proof.
  intros l b Fb H. unfold continued, tail_backslashes. rewrite rev_app_distr. cbn [rev app take_while]. rewrite Fb. unfold backslash. cbn.
  destruct (rev l) as [|a r] eqn:E; [reflexivity|]. cbn.
  assert (I : In a l) by (apply in_rev; rewrite E; now left).
  unfold chars in H. rewrite Forall_map, Forall_forall in H. specialize (H a I). apply N.eqb_neq in H. change 92%N with c_bslash. rewrite H. reflexivity.
Qed.
Lemma no_backslash : forall (l : text), Forall (fun c => c <> c_bslash) (chars l) -> continued fst l = false.
Proof.
  intros l H. unfold continued, tail_backslashes. destruct (rev l) as [|a r] eqn:E; [reflexivity|]. cbn.
  assert (I : In a l) by (apply in_rev; rewrite E; now left).
  unfold chars in H. rewrite Forall_map, Forall_forall in H. specialize (H a I). apply N.eqb_neq in H.
  unfold backslash. change 92%N with c_bslash. rewrite H. reflexivity.
Qed.

(** * Lines *)
Definition inline (c : char) : Prop := c <> c_nl /\ c <> c_bslash.
Lemma continued_chars : forall l : text, continued fst l = continued (fun c => c) (chars l).
Proof.
  intros l. unfold continued, tail_backslashes. f_equal. unfold chars. rewrite <- map_rev. induction (rev l) as [|a r IH]; [reflexivity|].
  cbn [List.map take_while]. destruct (backslash (fst a)); [cbn [List.length]; f_equal; exact IH|reflexivity].
Qed.
Lemma inline_whole : forall s, Forall inline s -> whole s.
Proof.
  intros s F. unfold whole, continued, tail_backslashes. destruct (rev s) as [|c r] eqn:E; [reflexivity|]. cbn [take_while].
  assert (I : In c s) by (apply in_rev; rewrite E; now left). rewrite Forall_forall in F. apply F in I. unfold backslash. destruct (c =? 92)%N eqn:Q; [|reflexivity].
  apply N.eqb_eq in Q. subst. destruct I as [_ I]. exfalso. apply I. reflexivity.
Qed.
Lemma whole_after : forall a c b, c <> c_bslash -> whole b -> whole (a ++ c :: b).
Proof.
  intros a c b N. unfold whole, continued, tail_backslashes. rewrite rev_app_distr. cbn [rev]. rewrite <- app_assoc. cbn [app].
  assert (Q : backslash c = false) by (apply N.eqb_neq; exact N).
  assert (X : forall r, take_while (fun z => backslash z) (r ++ c :: rev a) = take_while (fun z => backslash z) r).
  { induction r as [|d r IH]; [cbn; rewrite Q; reflexivity|]. cbn. destruct (backslash d); [f_equal; exact IH|reflexivity]. }
  rewrite X. auto.
Qed.
Lemma whole_line : forall (t : text) l u, chars t = l ++ c_nl :: u -> Forall (fun c => c <> c_nl) l -> whole l -> ~ has fst c_hash t ->
  exists tl n t', t = tl ++ n :: t' /\ chars tl = l /\ fst n = c_nl /\ chars t' = u /\ ~ has fst c_hash t' /\
    logical_line fst t [] tl t' /\ plain_line t (lstrip fst tl) t' /\ line_text t (lstrip fst tl) t'.
Proof.
  intros t l u E F W H. chop E. chop E1. exists u0, x, u1. split; [reflexivity|]. split; [exact E0|]. split; [exact F0|]. split; [exact E|].
  assert (L : logical_line fst (u0 ++ x :: u1) [] u0 u1).
  { apply LL_last; [|rewrite continued_chars, E0; exact W|exact F0]. apply not_has. rewrite E0. exact F. }
  split; [intros (a & I & Q); apply H; exists a; split; [apply in_or_app; right; right; exact I|exact Q]|].
  split; [exact L|]. split; [apply PL_line; auto|].
  change (lstrip fst u0) with (join (made c_space) (pieces fst GNU true [] u0)). apply LT_line; auto.
Qed.
Lemma line_of : forall (t : text) l u, chars t = l ++ c_nl :: u -> Forall inline l -> ~ has fst c_hash t ->
  exists tl n t', t = tl ++ n :: t' /\ chars tl = l /\ fst n = c_nl /\ chars t' = u /\ ~ has fst c_hash t' /\
    logical_line fst t [] tl t' /\ plain_line t (lstrip fst tl) t' /\ line_text t (lstrip fst tl) t'.
Proof.
  intros t l u E F. apply whole_line; [exact E| |apply inline_whole; exact F]. eapply Forall_impl; [|exact F]. intros a [A _]. exact A.
Qed.

Lemma no_comment : forall t, ~ has fst c_hash t -> ~ is_comment_text t.
Proof.
  intros t H (h & u & E & F). apply H. exists h. split; [|exact F]. unfold lstrip in E.
  assert (I : In h (drop_while (fun a => blank (fst a)) t)) by (rewrite E; now left).
  rewrite (take_drop (fun a => blank (fst a)) t). apply in_or_app. right. exact I.
Qed.

Lemma lstrip_solid : forall (l : text) c s, chars l = c :: s -> blank c = false -> lstrip fst l = l.
Proof. intros l c s E B. chop E. unfold lstrip. cbn. rewrite F, B. reflexivity. Qed.
Lemma solid_chars : forall (l : text) c s, chars l = c :: s -> blank c = false -> solid l.
Proof. intros l c s E B. chop E. exists x, u. rewrite F. auto. Qed.

(** * Characters *)
Lemma word_facts : forall c, word_char c ->
  blank c = false /\ is_whitespace c = false /\ ~ In c [0; 9; 10; 11; 12; 13; 32; 33; 35; 36; 40; 41; 43; 44; 58; 59; 61; 63; 92; 123; 125]%N /\ (c < 128)%N.
Proof.
  intros c H. unfold word_char in H.
  assert (G : ~ In c [0; 9; 10; 11; 12; 13; 32; 33; 35; 36; 40; 41; 43; 44; 58; 59; 61; 63; 92; 123; 125]%N).
  { cbn. lia. }
  assert (W : is_whitespace c = false).
  { unfold is_whitespace. rewrite <- not_true_iff_false, existsb_exists. intros (x & I & Q). apply N.eqb_eq in Q. subst x.
    cbn in I. lia. }
  split; [|split; [exact W|split; [exact G|lia]]].
  unfold blank. apply orb_false_iff. split; apply N.eqb_neq; cbn in G; lia.
Qed.

(** * Expressions *)
Definition expr_ok (e : wexpr) : Prop := made_of (fun c => c <> dollar) e.
Lemma made_impl : forall (P Q : char -> Prop) e, (forall c, P c -> Q c) -> made_of P e -> made_of Q e.
Proof.
  intros P Q e H. unfold made_of. apply Forall_impl. intros [s|x| |x k r]; [apply Forall_impl; exact H|auto|auto|].
  intros (N & K & R & F). split; [exact N|]. split; [exact K|]. split; [exact R|]. eapply Forall_impl; [exact H|exact F].
Qed.
Lemma ordinary_ok : forall e, made_of ordinary e -> expr_ok e.
Proof. intros e. apply made_impl. intros c [_ H] ->. apply H. cbn. tauto. Qed.

Lemma plain_stands : forall D (t : text), ~ In dollar (chars t) -> stands_for D t t.
Proof.
  intros D. induction t as [|a t IH]; intros H; [constructor|]. apply SF_plain.
  - intros E. apply H. left. exact E.
  - apply IH. intros I. apply H. now right.
Qed.
Lemma stands_app : forall D (t u m : text), ~ In dollar (chars t) -> stands_for D u m -> stands_for D (t ++ u) (t ++ m).
Proof.
  intros D. induction t as [|a t IH]; intros u m H S; [exact S|]. cbn. apply SF_plain.
  - intros E. apply H. left. exact E.
  - apply IH; [intros I; apply H; now right|exact S].
Qed.

Lemma count_none : forall c (t : text), ~ In c (chars t) -> count c t = 0.
Proof.
  intros c. induction t as [|a t IH]; intros H; [reflexivity|]. rewrite count_cons. unfold is.
  destruct (fst a =? c)%N eqn:Q; [apply N.eqb_eq in Q; destruct H; now left|]. apply IH. intros I. apply H. now right.
Qed.
Lemma count_app : forall c (a b : text), count c (a ++ b) = count c a + count c b.
Proof. intros c. induction a as [|x a IH]; intros b; [reflexivity|]. cbn [app]. rewrite !count_cons, IH. lia. Qed.
Lemma group_plain : forall (inner : text) x rest, ~ In open_paren (chars inner) -> ~ In close_paren (chars inner) -> fst x = close_paren ->
  group open_paren close_paren (inner ++ x :: rest) inner rest.
Proof.
  intros inner x rest A B X. split; [|split; [|exists x; auto]].
  - intros p q ->. rewrite chars_app, in_app_iff in B. rewrite (count_none close_paren); [lia|tauto].
  - unfold all_closed. rewrite !count_none; auto.
Qed.

Lemma name_char : forall x c, name x -> In c x -> word_char c.
Proof. intros x c (_ & F & _) I. rewrite Forall_forall in F. auto. Qed.
Lemma name_not : forall x c, name x -> In c [0; 9; 10; 11; 12; 13; 32; 33; 35; 36; 40; 41; 43; 44; 58; 59; 61; 63; 92; 123; 125]%N -> ~ In c x.
Proof. intros x c N I J. apply (name_char _ _ N) in J. apply word_facts in J as (_ & _ & G & _). contradiction. Qed.
Ltac not_in N := first [eapply name_not; [exact N|cbn; tauto]].

Lemma not_colon : forall m : text, ~ In colon (chars m) -> plain m.
Proof. intros m H. apply plain_no_colon. intros I. apply H. apply has_chars. exact I. Qed.

Lemma not_function : forall x (t : text), name x -> chars t = x -> forall k, In k function_names -> ~ begins_with k t.
Proof.
  intros x t (_ & _ & U) E k I (u & w & -> & W). rewrite chars_app, W in E. 
  apply (U k (List.map ascii_lower (chars u))).
  - unfold reserved. rewrite !in_app_iff. tauto.
  - rewrite <- E, map_app. f_equal. cbn in I. intuition subst; reflexivity.
Qed.

(** * What is left of a text *)
Definition left_of (t t' : text) : Prop := exists p, t = p ++ t'.
Lemma unbroken_left : forall t t', left_of t t' -> unbroken t -> unbroken t'.
Proof. intros t t' [p ->] U q x y r ->. apply (U (p ++ q) x y r). apply app_assoc. Qed.
Lemma unbroken_app : forall a b, unbroken (a ++ b) -> unbroken a.
Proof. intros a b U p x y q ->. apply (U p x y (q ++ b)). rewrite <- app_assoc. reflexivity. Qed.
Lemma unbroken_after : forall a b, unbroken (a ++ b) -> unbroken b.
Proof. intros a b. apply unbroken_left. exists a. reflexivity. Qed.
Lemma unbroken_tail : forall x b, unbroken (x :: b) -> unbroken b.
Proof. intros x b. apply (unbroken_after [x] b). Qed.

(** * Values *)
Inductive val_rel : val -> value -> Prop :=
| VR_later : forall k e t, expr_ok e -> chars t = show e -> unbroken t -> val_rel (Later e) (Deferred k t)
| VR_now : forall ps tps t P, same_pieces tps ps -> val_rel (Now ps) (Fixed t tps P)
| VR_plus : forall v sp v' u u', val_rel v u -> val_rel v' u' -> val_rel (Plus v sp v') (Appended u sp u')
| VR_line : forall v k t e t', val_rel v (Deferred k t) -> expr_ok e -> chars t' = show e -> unbroken t' -> (forall x, In x t' -> snd x <> Synthetic) ->
    val_rel (Plus v true (Later e)) (Deferred k (t ++ made c_space :: t')).
Definition opt_rel {A B} (R : A -> B -> Prop) (a : option A) (b : option B) : Prop :=
  match a, b with Some a, Some b => R a b | None, None => True | _, _ => False end.
Definition env_rel (E : wenv) (D : defs) : Prop := forall x, opt_rel val_rel (E x) (D x).

Lemma ref_text : forall x r (t : text), chars t = (lit "$(" ++ x ++ lit ")") ++ r ->
  exists d b inner c u, t = d :: b :: inner ++ c :: u /\ fst d = dollar /\ fst b = open_paren /\ fst c = close_paren /\ chars inner = x /\ chars u = r.
Proof.
  intros x r t E. change (lit "$(" ++ x ++ lit ")") with (dollar :: open_paren :: x ++ [close_paren]) in E. cbn [app] in E.
  apply chars_cons in E as (d & t1 & -> & F1 & E). apply chars_cons in E as (b & t2 & -> & F2 & E).
  rewrite <- app_assoc in E. apply chars_split in E as (inner & t3 & -> & F3 & E). cbn in E. apply chars_cons in E as (c & u & -> & F4 & E).
  exists d, b, inner, c, u. auto 10.
Qed.
(** The parts of `$(x:k=r)`. *)
Lemma ending_not : forall k c, ending k -> In c [0; 9; 10; 11; 12; 13; 32; 33; 35; 36; 40; 41; 43; 44; 58; 59; 61; 63; 92; 123; 125]%N -> ~ In c k.
Proof.
  intros k c E I J. unfold ending in E. rewrite Forall_forall in E. destruct (E c J) as [W| ->].
  - apply word_facts in W as (_ & _ & G & _). contradiction.
  - cbn in I. lia.
Qed.
Lemma sub_inner : forall x k r (inner : text), name x -> ending k -> ending r -> chars inner = x ++ lit ":" ++ k ++ lit "=" ++ r ->
  (exists n kt rt, is_subst inner n kt rt /\ chars n = x /\ chars kt = k /\ chars rt = r) /\
  (forall c, In c [0; 10; 35; 36; 40; 41; 44; 92]%N -> ~ In c (chars inner)) /\ (forall f, In f function_names -> ~ begins_with f inner).
Proof.
  intros x k r inner N K R E.
  assert (X : forall c, In c [0; 10; 35; 36; 40; 41; 44; 92]%N -> ~ In c (chars inner)).
  { intros c I. rewrite E, !in_app_iff. intros [J|[J|[J|[J|J]]]].
    - revert J. apply (name_not _ _ N). cbn in I |- *. tauto.
    - cbn in I, J. lia.
    - revert J. apply (ending_not _ _ K). cbn in I |- *. tauto.
    - cbn in I, J. lia.
    - revert J. apply (ending_not _ _ R). cbn in I |- *. tauto. }
  split; [|split; [exact X|]].
  - apply chars_split in E as (n & t1 & -> & E1 & E). cbn [lit app] in E. apply chars_cons in E as (c & t2 & -> & F1 & E). apply chars_split in E as (kt & t3 & -> & E2 & E).
    apply chars_cons in E as (q & rt & -> & F2 & E). exists n, kt, rt. split; [|auto]. exists c, q. split; [reflexivity|]. split; [exact F1|]. split; [exact F2|].
    assert (Hr : forall y, In y [58; 61]%N -> ~ has fst y rt) by (intros y I H; apply has_chars in H; rewrite E in H; revert H; apply (ending_not _ _ R); cbn in I |- *; tauto).
    split; [|apply Hr; cbn; tauto]. intros (a & I & Q). apply in_app_or in I as [I|[<-|I]].
    + assert (J : In (fst a) k) by (rewrite <- E2; apply in_map; exact I). rewrite Q in J. revert J. apply (ending_not _ _ K). cbn. tauto.
    + rewrite F2 in Q. discriminate.
    + apply (Hr 58%N); [cbn; tauto|]. exists a. auto.
  - destruct N as (_ & _ & U). intros f I (u & w & -> & W). rewrite chars_app, W in E.
    assert (L : In f reserved) by (unfold reserved; rewrite !in_app_iff; tauto).
    (* the name of the function ends before the colon *)
    assert (Y : forall a b c d : str, a ++ b = c ++ 58%N :: d -> ~ In 58%N a -> exists e, c = a ++ e).
    { induction a as [|h a IH]; intros b c d Q Nh; [exists c; reflexivity|]. destruct c as [|h' c]; cbn in Q; injection Q as Q0 Q; [exfalso; apply Nh; now left|]. subst h'.
      destruct (IH b c d Q) as [e ->]; [intros J; apply Nh; now right|]. exists e. reflexivity. }
    cbn [lit app] in E. apply Y in E as [e ->]; [|cbn in I; repeat (destruct I as [<-|I]; [cbn; lia|]); destruct I].
    apply (U f (List.map ascii_lower e) L). rewrite map_app. f_equal. cbn in I. intuition subst; reflexivity.
Qed.
(** What is looked up is what is used. *)
Lemma refers_app : forall D (a b : text) x, ~ In dollar (chars a) -> (refers D (a ++ b) x <-> refers D b x).
Proof.
  intros D a b x N. induction a as [|c a IH]; [reflexivity|]. cbn [app]. rewrite refers_plain by (intros Q; apply N; left; exact Q). apply IH. intros I. apply N. right. exact I.
Qed.
Lemma refers_after : forall D e x t u, expr_ok e -> chars t = show e -> (refers D (t ++ u) x <-> (In (Ref x) e \/ exists k r, In (Sub x k r) e) \/ refers D u x).
Proof.
  intros D e x t w. revert t. induction e as [|p e IH]; intros t O Et.
  - apply chars_nil in Et as ->. cbn [app]. split; [auto|intros [[[]|(k & r & [])]|H]; exact H].
  - inversion O as [|? ? H1 H2]; subst.
    assert (IN : forall u, chars u = show e -> (refers D (u ++ w) x <-> (In (Ref x) e \/ exists k r, In (Sub x k r) e) \/ refers D w x)) by (intros u; apply IH; exact H2). clear IH.
    destruct p as [s|y| |y k r]; cbn [show List.map concat show_part] in Et.
    + apply chars_split in Et as (a & b & -> & E1 & E2). rewrite <- app_assoc, refers_app; [rewrite (IN _ E2)|rewrite E1; intros I; rewrite Forall_forall in H1; exact (H1 _ I eq_refl)].
      cbn [In]. split; [intros [[H|(k & r & H)]|H]; eauto 10|intros [[[H|H]|(k & r & [H|H])]|H]; try discriminate; eauto 10].
    + destruct (ref_text _ _ _ Et) as (d & b & inner & c & u & -> & F1 & F2 & F3 & E1 & E2). subst y. cbn [app]. rewrite <- app_assoc. cbn [app].
      rewrite (refers_var D d b _ inner (u ++ w) inner x F1 F2); [|apply group_plain; [not_in H1|not_in H1|exact F3]|apply plain_stands; not_in H1|apply not_colon; not_in H1].
      rewrite (IN _ E2). cbn [In]. split.
      * intros [->|[H|[[H|(k & r & H)]|H]]]; eauto 10. exfalso. revert H. apply refers_none. intros H. apply has_chars in H. revert H. not_in H1.
      * intros [[[H|H]|(k & r & [H|H])]|H]; try discriminate; eauto 10. injection H as <-. auto.
    + change (lit "$$" ++ concat (List.map show_part e)) with (dollar :: dollar :: show e) in Et.
      apply chars_cons in Et as (d & t1 & -> & F1 & Et). apply chars_cons in Et as (d' & t2 & -> & F2 & Et). cbn [app].
      rewrite refers_dollar by assumption. rewrite (IN _ Et).
      cbn [In]. split; [intros [[H|(k & r & H)]|H]; eauto 10|intros [[[H|H]|(k & r & [H|H])]|H]; try discriminate; eauto 10].
    + destruct (ref_text _ _ _ Et) as (d & b & inner & c & u & -> & F1 & F2 & F3 & E1 & E2). destruct H1 as (N & K & Rr & _). cbn [app]. rewrite <- app_assoc. cbn [app].
      destruct (sub_inner y k r inner N K Rr E1) as ((n & kt & rt & Is & En & _) & A & B). subst y.
      rewrite (refers_subst D d b _ inner (u ++ w) n kt rt x F1 F2); [|apply group_plain; [apply A; cbn; tauto|apply A; cbn; tauto|exact F3]| |exact Is].
      2:{ intros H. apply has_chars in H. revert H. apply A. cbn. tauto. }
      rewrite (IN _ E2). cbn [In]. split.
      * intros [->|[[H|(k' & r' & H)]|H]]; eauto 10.
      * intros [[[H|H]|(k' & r' & [H|H])]|H]; try discriminate; eauto 10. injection H as <- _ _. auto.
Qed.
Lemma refers_show : forall D e x t, expr_ok e -> chars t = show e -> (refers D t x <-> In (Ref x) e \/ exists k r, In (Sub x k r) e).
Proof.
  intros D e x t O Et. pose proof (refers_after D e x t [] O Et) as H. rewrite app_nil_r in H. rewrite H.
  split; [intros [A|A]; [exact A|inversion A]|auto].
Qed.
(** Lines that were joined. *)
Lemma refers_lines : forall D v u, val_rel v u -> forall k t, u = Deferred k t -> forall u' x, refers D (t ++ u') x <-> refers D t x \/ refers D u' x.
Proof.
  intros D v u R. induction R as [k e t O Et U| | |v k t e t' Rv IH O Et U]; intros k0 t0 Q rest x; try discriminate; injection Q as <- <-.
  - rewrite (refers_after D e x t rest O Et), <- (refers_show D e x t O Et). reflexivity.
  - assert (Sp : forall w y, refers D (made c_space :: w) y <-> refers D w y) by (intros w y; apply refers_plain; discriminate).
    rewrite <- app_assoc. cbn [app]. rewrite !(IH _ _ eq_refl), !Sp, (refers_after D e x t' rest O Et), <- (refers_show D e x t' O Et). tauto.
Qed.
Lemma looks_lines : forall D v k t, val_rel v (Deferred k t) -> forall e t', expr_ok e -> chars t' = show e -> forall x,
  looks_up D (t ++ made c_space :: t') x <-> looks_up D t x \/ looks_up D t' x.
Proof.
  intros D v k t R e t' O Et x.
  assert (Rf : forall y, refers D (t ++ made c_space :: t') y <-> refers D t y \/ refers D t' y).
  { intros y. rewrite (refers_lines D v _ R _ _ eq_refl). rewrite (refers_plain D (made c_space) t') by discriminate. reflexivity. }
  split.
  - intros H. inversion H as [? ? A|? y v' ? A Dy L]; subst; apply Rf in A as [A|A]; [left|right|left|right]; try (apply LU_here; exact A); eapply LU_value; eauto.
  - intros [H|H]; inversion H as [? ? A|? y v' ? A Dy L]; subst; try (apply LU_here; apply Rf; auto; fail); (eapply LU_value; [apply Rf; first [left; exact A|right; exact A]|exact Dy|exact L]).
Qed.
Lemma uses_looks : forall E D, env_rel E D ->
  (forall e x, uses E e x -> expr_ok e -> forall t, chars t = show e -> looks_up D t x) /\
  (forall v x, val_uses E v x -> forall u, val_rel v u -> value_looks D u x).
Proof.
  intros E D R.
  assert (Rs : forall x v, E x = Some v -> exists v', D x = Some v' /\ val_rel v v') by (intros x v Ex; specialize (R x); rewrite Ex in R; destruct (D x); [eauto|destruct R]).
  apply (uses_both E (fun e x _ => expr_ok e -> forall t, chars t = show e -> looks_up D t x) (fun v x _ => forall u, val_rel v u -> value_looks D u x)).
  - intros e x I O t Et. apply LU_here. apply (refers_show D e x t O Et). now left.
  - intros e x k r I O t Et. apply LU_here. apply (refers_show D e x t O Et). eauto.
  - intros e y v x I Ey _ IH O t Et. destruct (Rs _ _ Ey) as (v' & Dy & Rv). apply (LU_value D t y v' x); [apply (refers_show D e y t O Et); now left|exact Dy|auto].
  - intros e y k r v x I Ey _ IH O t Et. destruct (Rs _ _ Ey) as (v' & Dy & Rv). apply (LU_value D t y v' x); [apply (refers_show D e y t O Et); eauto|exact Dy|auto].
  - intros e x _ IH u Ru. inversion Ru; subst. apply VL_deferred. auto.
  - intros v sp v' x _ IH u Ru. inversion Ru as [| | |? k t e t' Rv O Et U]; subst; [apply VL_left; auto|]. specialize (IH _ Rv). inversion IH; subst.
    apply VL_deferred, (looks_lines D v k t Rv e t' O Et). auto.
  - intros v sp v' x _ IH u Ru. inversion Ru as [| | |? k t e t' Rv O Et U]; subst; [apply VL_right; auto|]. specialize (IH (Deferred k t') (VR_later k e t' O Et U)). inversion IH; subst.
    apply VL_deferred, (looks_lines D v k t Rv e t' O Et). auto.
Qed.
Scheme looks_up_mut := Induction for looks_up Sort Prop with value_looks_mut := Induction for value_looks Sort Prop.
Combined Scheme looks_both from looks_up_mut, value_looks_mut.
Lemma refers_val : forall E D y v u, val_rel v u -> forall k t, u = Deferred k t -> refers D t y ->
  val_uses E v y /\ forall v' x, E y = Some v' -> val_uses E v' x -> val_uses E v x.
Proof.
  intros E D y v u R. induction R as [k e t O Et U| | |v k t e t' Rv IH O Et U]; intros k0 t0 Q Rf; try discriminate; injection Q as <- <-.
  - destruct (proj1 (refers_show D e y t O Et) Rf) as [I|(a & r & I)].
    + split; [apply VU_later, US_ref; exact I|]. intros v' x Ey L. apply VU_later. eapply US_value; eauto.
    + split; [eapply VU_later, US_sub; exact I|]. intros v' x Ey L. apply VU_later. eapply US_sub_value; eauto.
  - apply (refers_lines D v _ Rv _ _ eq_refl) in Rf as [Rf|Rf].
    + destruct (IH _ _ eq_refl Rf) as [A B]. split; [apply VU_left; exact A|]. intros v' x Ey L. apply VU_left. eapply B; eauto.
    + rewrite refers_plain in Rf by discriminate. destruct (proj1 (refers_show D e y t' O Et) Rf) as [I|(a & r & I)].
      * split; [apply VU_right, VU_later, US_ref; exact I|]. intros v' x Ey L. apply VU_right, VU_later. eapply US_value; eauto.
      * split; [eapply VU_right, VU_later, US_sub; exact I|]. intros v' x Ey L. apply VU_right, VU_later. eapply US_sub_value; eauto.
Qed.
Lemma looks_uses : forall E D, env_rel E D ->
  (forall t x, looks_up D t x -> (forall e, expr_ok e -> chars t = show e -> uses E e x) /\ forall v k, val_rel v (Deferred k t) -> val_uses E v x) /\
  (forall u x, value_looks D u x -> forall v, val_rel v u -> val_uses E v x).
Proof.
  intros E D R.
  assert (Rs : forall x v, D x = Some v -> exists v', E x = Some v' /\ val_rel v' v) by (intros x v Ex; specialize (R x); rewrite Ex in R; destruct (E x); [eauto|destruct R]).
  apply (looks_both D (fun t x _ => (forall e, expr_ok e -> chars t = show e -> uses E e x) /\ forall v k, val_rel v (Deferred k t) -> val_uses E v x) (fun u x _ => forall v, val_rel v u -> val_uses E v x)).
  - intros t x Rf. split.
    + intros e O Et. destruct (proj1 (refers_show D e x t O Et) Rf) as [I|(k & r & I)]; [now apply US_ref|eapply US_sub; exact I].
    + intros v k Rv. exact (proj1 (refers_val E D x v _ Rv _ _ eq_refl Rf)).
  - intros t y v x Rf Dy _ IH. destruct (Rs _ _ Dy) as (v' & Ey & Rv). split.
    + intros e O Et. destruct (proj1 (refers_show D e y t O Et) Rf) as [I|(k & r & I)]; [eapply US_value; eauto|eapply US_sub_value; eauto].
    + intros v0 k Rv0. exact (proj2 (refers_val E D y v0 _ Rv0 _ _ eq_refl Rf) v' x Ey (IH _ Rv)).
  - intros k t x _ [_ IH] v Rv. eapply IH; exact Rv.
  - intros v sp v' x _ IH u Ru. inversion Ru; subst. apply VU_left. auto.
  - intros v sp v' x _ IH u Ru. inversion Ru; subst. apply VU_right. auto.
Qed.
Lemma uses_iff : forall E D e t x, env_rel E D -> expr_ok e -> chars t = show e -> (uses E e x <-> looks_up D t x).
Proof. intros E D e t x R O Et. split; intros H; [eapply (uses_looks E D R); eauto|eapply (looks_uses E D R); eauto]. Qed.
Lemma val_uses_iff : forall E D v u x, env_rel E D -> val_rel v u -> (val_uses E v x <-> value_looks D u x).
Proof. intros E D v u x R V. split; intros H; [eapply (uses_looks E D R); eauto|eapply (looks_uses E D R); eauto]. Qed.
(** The text stands for [m], whatever follows it. *)
Definition stands_on (D : defs) (t m : text) : Prop := forall t' m', stands_for D t' m' -> stands_for D (t ++ t') (m ++ m').
Lemma stands_on_all : forall D t m, stands_on D t m -> stands_for D t m.
Proof. intros D t m H. specialize (H [] [] (SF_nil D)). rewrite !app_nil_r in H. exact H. Qed.
(** The same of the pieces, if nothing follows directly. *)
Definition soft_start (u : text) : Prop := forall y v, u = y :: v -> snd y = Synthetic /\ blank (fst y) = true.
Definition pieces_on (D : defs) (t : text) (tps : list text) : Prop :=
  forall u us, soft_start u -> text_in D u us -> text_in D (t ++ u) (tps ++ us).
Lemma pieces_on_all : forall D t tps, pieces_on D t tps -> text_in D t tps.
Proof. intros D t tps H. specialize (H [] []). rewrite !app_nil_r in H. apply H; [intros y v Q; discriminate|constructor]. Qed.
Lemma step_not_synthetic : forall l c, l <> Synthetic -> step_location l c <> Synthetic.
Proof. intros l c H. unfold step_location. destruct (c =? c_nl)%N, l; cbn; congruence. Qed.
Lemma soft_break : forall a u, soft_start u -> break a u.
Proof.
  intros a u S p x y v _ E. destruct (S y v E) as (A & B). split; [|auto]. intros (N & Q). rewrite A in Q. exact (step_not_synthetic _ _ N (eq_sym Q)).
Qed.
Lemma part_dollar : forall e (t : text), begins_txt e = false -> chars t = show e -> forall y v, t = y :: v -> fst y = dollar.
Proof.
  intros [|[s|x| |x k r] e] t B E y v ->; try discriminate; cbn in E; injection E as E _; exact E.
Qed.
Lemma says_further : forall E D, env_rel E D ->
  (forall e s, says E e s -> expr_ok e -> forall t, chars t = show e -> unbroken t -> exists m, stands_on D t m /\ chars m = s) /\
  (forall v s, val_says E v s -> forall u, val_rel v u -> exists m, value_is D u m /\ (forall k t, u = Deferred k t -> stands_on D t m) /\ chars m = s) /\
  (forall e ps, says_in E e ps -> expr_ok e -> forall t, chars t = show e -> unbroken t -> exists tps, pieces_on D t tps /\ same_pieces tps ps) /\
  (forall v ps, val_in E v ps -> forall u, val_rel v u -> exists tps, value_in D u tps /\ (forall k t, u = Deferred k t -> pieces_on D t tps) /\ same_pieces tps ps).
Proof.
  intros E D R.
  assert (Rn : forall x, E x = None -> D x = None) by (intros x Ex; specialize (R x); rewrite Ex in R; destruct (D x); [destruct R|reflexivity]).
  assert (Rs : forall x v, E x = Some v -> exists v', D x = Some v' /\ val_rel v v') by (intros x v Ex; specialize (R x); rewrite Ex in R; destruct (D x); [eauto|destruct R]).
  apply (says_all E
    (fun e s _ => expr_ok e -> forall t, chars t = show e -> unbroken t -> exists m, stands_on D t m /\ chars m = s)
    (fun v s _ => forall u, val_rel v u -> exists m, value_is D u m /\ (forall k t, u = Deferred k t -> stands_on D t m) /\ chars m = s)
    (fun e ps _ => expr_ok e -> forall t, chars t = show e -> unbroken t -> exists tps, pieces_on D t tps /\ same_pieces tps ps)
    (fun v ps _ => forall u, val_rel v u -> exists tps, value_in D u tps /\ (forall k t, u = Deferred k t -> pieces_on D t tps) /\ same_pieces tps ps)).
  - intros _ t Et _. apply chars_nil in Et as ->. exists []. split; [intros t' m' S; exact S|reflexivity].
  - intros s e r _ IH O t Et U. inversion O as [|? ? H1 H2]; subst. cbn in Et. apply chars_split in Et as (a & b & -> & E1 & E2).
    destruct (IH H2 _ E2 (unbroken_after _ _ U)) as (m & S & <-).
    exists (a ++ m). split; [|rewrite chars_app, E1; reflexivity]. intros t' m' S'. rewrite <- !app_assoc. apply stands_app; [|exact (S _ _ S')].
    rewrite E1. intros I. rewrite Forall_forall in H1. exact (H1 _ I eq_refl).
  - intros e r _ IH O t Et U. inversion O as [|? ? N O']; subst. change (show (Dol :: e)) with (dollar :: dollar :: show e) in Et.
    apply chars_cons in Et as (d & t1 & -> & F1 & Et). apply chars_cons in Et as (d' & t2 & -> & F2 & Et).
    destruct (IH O' _ Et (unbroken_tail _ _ (unbroken_tail _ _ U))) as (m & S & <-). exists (d' :: m). split; [intros t' m' S'; cbn [app]; apply SF_dollar; auto|]. cbn. rewrite F2. reflexivity.
  - intros x e r Ex _ IH O t Et U. inversion O as [|? ? N O']; subst. cbn [show List.map concat show_part] in Et.
    destruct (ref_text _ _ _ Et) as (d & b & inner & c & u & -> & F1 & F2 & F3 & E1 & E2).
    destruct (IH O' _ E2 (unbroken_after (d :: b :: inner ++ [c]) u ltac:(cbn; rewrite <- app_assoc; exact U))) as (m & S & <-). exists ([] ++ m). split; [|reflexivity]. intros t' m' S'. cbn [app]. rewrite <- (app_assoc inner). change (m ++ m') with ([] ++ (m ++ m')).
    apply Rn in Ex. subst x.
    eapply SF_var; [exact F1|exact F2|apply group_plain; [not_in N|not_in N|exact F3]|eapply not_function; [exact N|reflexivity]|
      apply plain_stands; not_in N|apply not_colon; not_in N|apply VI_none; exact Ex|exact (S _ _ S')].
  - intros x v s e r Ex _ IHv _ IH O t Et U. inversion O as [|? ? N O']; subst. cbn [show List.map concat show_part] in Et.
    destruct (ref_text _ _ _ Et) as (d & b & inner & c & u & -> & F1 & F2 & F3 & E1 & E2).
    destruct (IH O' _ E2 (unbroken_after (d :: b :: inner ++ [c]) u ltac:(cbn; rewrite <- app_assoc; exact U))) as (m & S & <-).
    destruct (Rs _ _ Ex) as (v' & Dx & Rv).
    destruct (IHv _ Rv) as (m1 & V & _ & <-). exists (m1 ++ m). split; [|apply chars_app]. intros t' m' S'. rewrite <- (app_assoc m1). cbn [app]. rewrite <- (app_assoc inner). subst x.
    eapply SF_var; [exact F1|exact F2|apply group_plain; [not_in N|not_in N|exact F3]|eapply not_function; [exact N|reflexivity]|
      apply plain_stands; not_in N|apply not_colon; not_in N|eapply VI_some; [exact Dx|exact V]|exact (S _ _ S')].
  - intros x k r e s Ex _ IH O t Et U. inversion O as [|? ? Hp O']; subst. destruct Hp as (N & K & Rr & _). cbn [show List.map concat show_part] in Et.
    destruct (ref_text _ _ _ Et) as (d & b & inner & c & u & -> & F1 & F2 & F3 & E1 & E2).
    destruct (IH O' _ E2 (unbroken_after (d :: b :: inner ++ [c]) u ltac:(cbn; rewrite <- app_assoc; exact U))) as (m & S & <-). exists ([] ++ m). split; [|reflexivity]. intros t' m' S'. cbn [app]. rewrite <- (app_assoc inner). change (m ++ m') with ([] ++ (m ++ m')).
    destruct (sub_inner x k r inner N K Rr E1) as ((n & kt & rt & Is & En & _) & A & B). apply Rn in Ex. subst x.
    eapply SF_subst_none; [exact F1|exact F2|apply group_plain; [apply A; cbn; tauto|apply A; cbn; tauto|exact F3]|exact B| | |exact Is|exact Ex|exact (S _ _ S')].
    + intros H. apply has_chars in H. revert H. apply A. cbn. tauto.
    + apply unbroken_tail, unbroken_tail, unbroken_app in U. exact U.
  - intros x k r v ps m0 e t0 Ex _ IHv Su _ IH O t Et U. inversion O as [|? ? Hp O']; subst. destruct Hp as (N & K & Rr & _). cbn [show List.map concat show_part] in Et.
    destruct (ref_text _ _ _ Et) as (d & b & inner & c & u & -> & F1 & F2 & F3 & E1 & E2).
    destruct (IH O' _ E2 (unbroken_after (d :: b :: inner ++ [c]) u ltac:(cbn; rewrite <- app_assoc; exact U))) as (m & S & <-).
    destruct (Rs _ _ Ex) as (v' & Dx & Rv). destruct (IHv _ Rv) as (tps & V & _ & Sp).
    destruct (sub_inner x k r inner N K Rr E1) as ((n & kt & rt & Is & En & Ek & Er) & A & B). subst x k r.
    apply (cut_chars _ _ _ _ _ Sp) in Su as (m1 & Su & <-). exists (m1 ++ m). split; [|apply chars_app]. intros t' m' S'. rewrite <- (app_assoc m1). cbn [app]. rewrite <- (app_assoc inner).
    eapply SF_subst; [exact F1|exact F2|apply group_plain; [apply A; cbn; tauto|apply A; cbn; tauto|exact F3]|exact B| | |exact Is|exact Dx|exact V|exact Su|exact (S _ _ S')].
    + intros H. apply has_chars in H. revert H. apply A. cbn. tauto.
    + apply unbroken_tail, unbroken_tail, unbroken_app in U. exact U.
  - intros e s _ IH u Ru. inversion Ru as [? ? t O Et Ut| | |]; subst. destruct (IH O _ Et Ut) as (m & S & C). exists m. split; [apply VA_deferred; apply stands_on_all; exact S|].
    split; [intros k0 t0 Q; injection Q as _ <-; exact S|exact C].
  - intros ps u Ru. inversion Ru as [|? tps ? ? C| |]; subst. exists (concat tps). split; [apply VA_fixed|]. split; [discriminate|apply same_concat; exact C].
  - intros v sp v' s s' _ IH _ IH' u Ru. inversion Ru as [| |? ? ? w w' R1 R2|? k t e t' Rv O Et U]; subst.
    + destruct (IH _ R1) as (m & V & _ & <-), (IH' _ R2) as (m' & V' & _ & <-).
      exists (m ++ (if sp then [made c_space] else []) ++ m'). split; [apply VA_appended; auto|]. split; [discriminate|]. rewrite !chars_app. destruct sp; reflexivity.
    + destruct (IH _ Rv) as (m & _ & So & <-), (IH' (Deferred k t') (VR_later k e t' O Et U)) as (m' & _ & So' & <-).
      assert (X : stands_on D (t ++ made c_space :: t') (m ++ made c_space :: m')).
      { intros t0 m0 S0. rewrite <- !app_assoc. cbn [app]. apply (So _ _ eq_refl). apply SF_plain; [discriminate|]. exact (So' _ _ eq_refl _ _ S0). }
      exists (m ++ made c_space :: m'). split; [apply VA_deferred, stands_on_all; exact X|]. split; [intros k0 t0 Q; injection Q as _ <-; exact X|].
      rewrite chars_app. reflexivity.
  - intros _ t Et _. apply chars_nil in Et as ->. exists []. split; [intros u us _ T; exact T|reflexivity].
  - intros s e ps Be _ IH O t Et U. inversion O as [|? ? H1 H2]; subst. cbn in Et. apply chars_split in Et as (a & b & -> & E1 & E2).
    destruct (IH H2 _ E2 (unbroken_after _ _ U)) as (tps & P & Sp). destruct a as [|c a].
    { cbn in E1. subst s. exists tps. split; [exact P|exact Sp]. }
    exists ((c :: a) :: tps). split; [|apply same_cons; assumption]. intros u us Su T. rewrite <- app_assoc. change (((c :: a) :: tps) ++ us) with ([c :: a] ++ (tps ++ us)).
    apply text_in_before; [exact (P u us Su T)|discriminate| |apply written_one; [discriminate|exact (unbroken_app _ _ U)]|].
    + intros H. apply has_chars in H. rewrite E1 in H. rewrite Forall_forall in H1. exact (H1 _ H eq_refl).
    + intros y v Q Ny. destruct b as [|z b]; [apply soft_break; exact Su|]. injection Q as <- _. destruct (Ny (part_dollar e (z :: b) Be E2 z b eq_refl)).
  - intros s s' e ps _ IH O t Et U. inversion O as [|? ? H1 O1]; subst. inversion O1 as [|? ? H2 O2]; subst. apply IH; [|cbn in *; rewrite <- app_assoc; exact Et|exact U].
    constructor; [apply Forall_app; auto|exact O2].
  - intros p s e ps Bp _ IHs _ IH O t Et U. inversion O as [|? ? H1 H2]; subst. cbn [show List.map concat] in Et. apply chars_split in Et as (a & b & -> & E1 & E2).
    destruct (IH H2 _ E2 (unbroken_after _ _ U)) as (tps & P & Sp).
    destruct (IHs (Forall_cons _ H1 (Forall_nil _)) a) as (m & So & Cm); [cbn; rewrite app_nil_r; exact E1|exact (unbroken_app _ _ U)|].
    exists (m :: tps). split; [|apply same_cons; assumption]. intros u us Su T. rewrite <- app_assoc. cbn [app]. apply TI_ref; [|apply stands_on_all; exact So|exact (P u us Su T)].
    destruct p as [s0|x| |x k r]; [discriminate| | |]; cbn [show_part] in E1.
    + rewrite <- (app_nil_r (_ ++ _)) in E1. destruct (ref_text _ _ _ E1) as (d & b0 & inner & c & u0 & -> & F1 & F2 & F3 & Ei & E0). apply chars_nil in E0 as ->. subst x.
      eapply RB_group; [exact F1|exact F2|apply group_plain; [not_in H1|not_in H1|exact F3]].
    + cbn in E1. apply chars_cons in E1 as (d & t1 & -> & F1 & E1). apply chars_cons in E1 as (d' & t2 & -> & F2 & E1). apply chars_nil in E1 as ->.
      apply RB_char; [exact F1|]. rewrite F2. intros [Q|[Q|[]]]; discriminate.
    + rewrite <- (app_nil_r (_ ++ _)) in E1. destruct (ref_text _ _ _ E1) as (d & b0 & inner & c & u0 & -> & F1 & F2 & F3 & Ei & E0). apply chars_nil in E0 as ->.
      destruct H1 as (N & K & Rr & _). destruct (sub_inner x k r inner N K Rr Ei) as (_ & A & _).
      eapply RB_group; [exact F1|exact F2|apply group_plain; [apply A; cbn; tauto|apply A; cbn; tauto|exact F3]].
  - intros e ps _ IH u Ru. inversion Ru as [? ? t O Et Ut| | |]; subst. destruct (IH O _ Et Ut) as (tps & P & C). exists tps. split; [apply VN_deferred; apply pieces_on_all; exact P|].
    split; [intros k0 t0 Q; injection Q as _ <-; exact P|exact C].
  - intros ps u Ru. inversion Ru as [|? tps ? ? C| |]; subst. exists tps. split; [apply VN_fixed|]. split; [discriminate|exact C].
  - intros v sp v' s s' _ IH _ IH' u Ru. inversion Ru as [| |? ? ? w w' R1 R2|? k t e t' Rv O Et U Ls]; subst.
    + destruct (IH _ R1) as (m & V & _ & C), (IH' _ R2) as (m' & V' & _ & C').
      exists (m ++ (if sp then [[made c_space]] else []) ++ m'). split; [apply VN_appended; auto|]. split; [discriminate|].
      apply same_app; [exact C|]. apply same_app; [|exact C']. destruct sp; reflexivity.
    + destruct (IH _ Rv) as (m & _ & So & C), (IH' (Deferred k t') (VR_later k e t' O Et U)) as (m' & _ & So' & C').
      assert (X : pieces_on D (t ++ made c_space :: t') (m ++ [[made c_space]] ++ m')).
      { intros u us Su T. rewrite <- !app_assoc. apply (So _ _ eq_refl); [intros y v0 Q; injection Q as <- _; split; reflexivity|].
        cbn [app]. change (made c_space :: t' ++ u) with ([made c_space] ++ (t' ++ u)). change ([made c_space] :: m' ++ us) with ([[made c_space]] ++ (m' ++ us)).
        apply text_in_before; [exact (So' _ _ eq_refl u us Su T)|discriminate| |apply written_one; [discriminate|]|].
        - intros (c & [<-|[]] & Q). discriminate.
        - intros [|? [|? ?]] x y q Q; discriminate.
        - intros y v0 Q _. destruct t' as [|z t']; [apply soft_break; exact Su|]. intros p x y' v1 Q1 Q2. cbn in Q2. injection Q2 as <- _.
          destruct p as [|? [|? ?]]; try discriminate. injection Q1 as <-. split; [intros (H & _); apply H; reflexivity|]. intros _ H. destruct (Ls z (or_introl eq_refl) H). }
      exists (m ++ [[made c_space]] ++ m'). split; [apply VN_deferred, pieces_on_all; exact X|]. split; [intros k0 t0 Q; injection Q as _ <-; exact X|].
      apply same_app; [exact C|]. apply same_app; [reflexivity|exact C'].
Qed.
Lemma says_both : forall E D, env_rel E D ->
  (forall e s, says E e s -> expr_ok e -> forall t, chars t = show e -> unbroken t -> exists m, stands_for D t m /\ chars m = s) /\
  (forall v s, val_says E v s -> forall u, val_rel v u -> exists m, value_is D u m /\ chars m = s).
Proof.
  intros E D R. destruct (says_further E D R) as (A & B & _). split.
  - intros e s S O t Et U. destruct (A e s S O t Et U) as (m & So & C). exists m. split; [apply stands_on_all; exact So|exact C].
  - intros v s S u Ru. destruct (B v s S u Ru) as (m & V & _ & C). exists m. auto.
Qed.

Lemma pieces_both : forall E D, env_rel E D ->
  (forall e ps, says_in E e ps -> expr_ok e -> forall t, chars t = show e -> unbroken t -> exists tps, text_in D t tps /\ same_pieces tps ps) /\
  (forall v ps, val_in E v ps -> forall u, val_rel v u -> exists tps, value_in D u tps /\ (forall k t, u = Deferred k t -> text_in D t tps) /\ same_pieces tps ps).
Proof.
  intros E D R. destruct (says_further E D R) as (_ & _ & A & B). split.
  - intros e s S O t Et U. destruct (A e s S O t Et U) as (m & So & C). exists m. split; [apply pieces_on_all; exact So|exact C].
  - intros v s S u Ru. destruct (B v s S u Ru) as (m & V & W & C). exists m. split; [exact V|]. split; [|exact C]. intros k t Q. apply pieces_on_all, (W k t Q).
Qed.

(** What is said in pieces is said. *)
Lemma says_cons : forall E p e s r, begins_txt [p] = false -> says E [p] s -> says E e r -> says E (p :: e) (s ++ r).
Proof.
  intros E p e s r B S R. inversion S as [| ? ? ? S'|? ? S'|? ? ? Ex S'|? ? ? ? ? Ex V S'|? ? ? ? ? Ex S'|? ? ? ? ? ? ? ? Ex V C S']; subst; try discriminate; inversion S'; subst.
  - apply SY_dol. exact R.
  - apply SY_none; assumption.
  - rewrite app_nil_r. eapply SY_some; eassumption.
  - apply SY_sub_none; assumption.
  - rewrite app_nil_r. eapply SY_sub; eassumption.
Qed.
Lemma in_says : forall E, (forall e ps, says_in E e ps -> says E e (concat ps)) /\ (forall v ps, val_in E v ps -> val_says E v (concat ps)).
Proof.
  intros E. destruct (says_all E (fun e s _ => True) (fun v s _ => True) (fun e ps _ => says E e (concat ps)) (fun v ps _ => val_says E v (concat ps))) as (_ & _ & A & B); auto; cbn [concat].
  - constructor.
  - intros s e ps _ _ IH. apply SY_txt. exact IH.
  - intros s s' e ps _ IH. inversion IH; subst. rewrite <- app_assoc. apply SY_txt, SY_txt. assumption.
  - intros p s e ps Bp S _ _ IH. apply says_cons; assumption.
  - intros e ps _ IH. apply VS_later. exact IH.
  - intros ps. apply VS_now.
  - intros v sp v' ps ps' _ IH _ IH'. rewrite !concat_app. replace (concat (if sp then [[c_space]] else [])) with (if sp then [c_space] else []) by (destruct sp; reflexivity).
    apply VS_plus; assumption.
Qed.
(** And the other way round. *)
Lemma says_split : forall E p e s, says E (p :: e) s -> begins_txt [p] = false -> exists s1 s2, says E [p] s1 /\ says E e s2 /\ s = s1 ++ s2.
Proof.
  intros E p e s S B. inversion S as [| ? ? ? S'|? ? S'|? ? ? Ex S'|? ? ? ? ? Ex V S'|? ? ? ? ? Ex S'|? ? ? ? ? ? ? ? Ex V C S']; subst; try discriminate.
  - exists [dollar], r. split; [apply SY_dol; constructor|]. auto.
  - exists [], s. split; [apply SY_none; [exact Ex|constructor]|]. auto.
  - exists (s0 ++ []), r. split; [eapply SY_some; [exact Ex|exact V|constructor]|]. rewrite app_nil_r. auto.
  - exists [], s. split; [apply SY_sub_none; [exact Ex|constructor]|]. auto.
  - exists (m ++ []), t. split; [eapply SY_sub; [exact Ex|exact V|exact C|constructor]|]. rewrite app_nil_r. auto.
Qed.
Lemma says_some_in : forall E e s, says E e s -> exists ps, says_in E e ps /\ concat ps = s.
Proof.
  intros E. assert (T : forall e, (forall s, says E e s -> exists ps, says_in E e ps /\ concat ps = s) /\
    forall s0 s, says E e s -> exists ps, says_in E (Txt s0 :: e) ps /\ concat ps = s0 ++ s).
  { induction e as [|p e (IH1 & IH2)].
    - split; intros; (match goal with H : says E [] _ |- _ => inversion H; subst end); [exists []; split; [constructor|reflexivity]|].
      exists [s0]. split; [apply SI_txt; [reflexivity|constructor]|reflexivity].
    - destruct (begins_txt [p]) eqn:B.
      + destruct p as [s1|x| |x k r]; try discriminate. split.
        * intros s S. inversion S; subst. eapply IH2; eassumption.
        * intros s0 s S. inversion S; subst. match goal with H : says E e _ |- _ => destruct (IH2 (s0 ++ s1) _ H) as (ps & P & Q) end. exists ps. split; [apply SI_txts; exact P|].
          rewrite Q, <- app_assoc. reflexivity.
      + assert (X : forall s, says E (p :: e) s -> exists ps, says_in E (p :: e) ps /\ concat ps = s).
        { intros s S. destruct (says_split _ _ _ _ S B) as (s1 & s2 & S1 & S2 & ->). destruct (IH1 _ S2) as (ps & P & <-). exists (s1 :: ps). split; [apply SI_part; assumption|reflexivity]. }
        split; [exact X|]. intros s0 s S. destruct (X _ S) as (ps & P & <-). exists (s0 :: ps). split; [apply SI_txt; [destruct p; [discriminate|reflexivity..]|exact P]|reflexivity]. }
  intros e s S. exact (proj1 (T e) s S).
Qed.
Lemma val_some_in : forall E v s, val_says E v s -> exists ps, val_in E v ps /\ concat ps = s.
Proof.
  intros E v s S. induction S as [e s S|ps|v sp v' s s' S IH S' IH'].
  - destruct (says_some_in _ _ _ S) as (ps & I & Q). exists ps. split; [constructor; exact I|exact Q].
  - exists ps. split; [constructor|reflexivity].
  - destruct IH as (ps & I & <-), IH' as (ps' & I' & <-). eexists. split; [constructor; eassumption|]. rewrite !concat_app. destruct sp; reflexivity.
Qed.

Lemma show_reads : forall e, expr_ok e -> forall t u ms, chars t = show e -> reads False u ms -> exists ns, reads False (t ++ u) ns.
Proof.
  induction e as [|p e IH]; intros O t w ms Et Rw.
  - apply chars_nil in Et as ->. exists ms. exact Rw.
  - assert (Pl : forall inner : text, ~ In dollar (chars inner) -> exists a, reads_ast False inner a).
    { intros inner Nd. apply (expr_expression (S (List.length inner))).
      assert (Q : forall l : text, ~ In dollar (chars l) -> expr (S (List.length l)) l = true).
      { induction l as [|y l IHl]; intros J; [reflexivity|]. cbn [expr List.length]. replace (is dollar y) with false; [apply IHl; intros K; apply J; now right|].
        symmetry. apply N.eqb_neq. intros K. apply J. left. exact K. }
      apply Q. exact Nd. }
    inversion O as [|? ? H O']; subst. destruct p as [s|x| |x k r]; cbn [show List.map concat show_part] in Et.
    + apply chars_split in Et as (a & b & -> & E1 & E2). destruct (IH O' _ _ _ E2 Rw) as [ns R].
      assert (Na : ~ In dollar (chars a)) by (rewrite E1; intros I; rewrite Forall_forall in H; exact (H _ I eq_refl)).
      clear E1 H. induction a as [|c a IHa]; [exists ns; exact R|]. cbn [app]. destruct IHa as [ns' R']; [intros I; apply Na; now right|].
      exists (List.map a_constant [Located (snd c) [fst c]] ++ ns'). apply (R_text False [c] _ ((a ++ b) ++ w) ns'); [discriminate| | |tauto|exact R'].
      * intros (y & [<-|[]] & Q). apply Na. left. exact Q.
      * split; [|repeat constructor; discriminate]. destruct c. reflexivity.
    + destruct (ref_text _ _ _ Et) as (d & b & inner & c & u & -> & F1 & F2 & F3 & E1 & E2). subst x.
      destruct (IH O' _ _ _ E2 Rw) as [ns R].
      destruct (Pl inner) as [z Z]; [not_in H|].
      eexists. cbn [app]. rewrite <- app_assoc. cbn [app]. eapply R_var; [exact F1|rewrite F2; apply O_paren|apply group_plain; [not_in H|not_in H|exact F3]|eapply not_function; [exact H|reflexivity]|exact Z|exact R].
    + change (lit "$$" ++ concat (List.map show_part e)) with (dollar :: dollar :: show e) in Et.
      apply chars_cons in Et as (d & t1 & -> & F1 & Et). apply chars_cons in Et as (d' & t2 & -> & F2 & Et).
      destruct (IH O' _ _ _ Et Rw) as [ns R]. eexists. cbn [app]. apply R_dollar; eauto.
    + destruct (ref_text _ _ _ Et) as (d & b & inner & c & u & -> & F1 & F2 & F3 & E1 & E2). destruct H as (N & K & Rr & _).
      destruct (sub_inner x k r inner N K Rr E1) as (_ & A & B). destruct (IH O' _ _ _ E2 Rw) as [ns R]. destruct (Pl inner) as [z Z]; [apply A; cbn; tauto|].
      eexists. cbn [app]. rewrite <- app_assoc. cbn [app]. eapply R_var; [exact F1|rewrite F2; apply O_paren|apply group_plain; [apply A; cbn; tauto|apply A; cbn; tauto|exact F3]|exact B|exact Z|exact R].
Qed.
Lemma show_expression : forall e t, expr_ok e -> chars t = show e -> expression t.
Proof.
  intros e t O E. destruct (show_reads _ O _ [] [] E (R_nil False)) as [ns R]. rewrite app_nil_r in R. destruct t; eexists; [apply RA_empty|apply RA_some; exact R].
Qed.
Lemma lines_reads : forall v u, val_rel v u -> forall k t, u = Deferred k t -> forall w ms, reads False w ms -> exists ns, reads False (t ++ w) ns.
Proof.
  intros v u R. induction R as [k e t O Et U| | |v k t e t' Rv IH O Et U]; intros k0 t0 Q w ms Rw; try discriminate; injection Q as <- <-.
  - eapply show_reads; eauto.
  - destruct (show_reads _ O _ _ _ Et Rw) as [ns R]. rewrite <- app_assoc. cbn [app]. eapply IH; [reflexivity|].
    change (made c_space :: t' ++ w) with ([made c_space] ++ t' ++ w). eapply R_text; [discriminate| | |tauto|exact R].
    + intros (y & [<-|[]] & Q). discriminate.
    + instantiate (1 := [Located (snd (made c_space)) [fst (made c_space)]]). split; [|repeat constructor; discriminate]. reflexivity.
Qed.
Lemma lines_expression : forall v k t, val_rel v (Deferred k t) -> expression t.
Proof.
  intros v k t R. destruct (lines_reads v _ R _ _ eq_refl [] [] (R_nil False)) as [ns Rd]. rewrite app_nil_r in Rd. destruct t; eexists; [apply RA_empty|apply RA_some; exact Rd].
Qed.
