(** Text-level makefile semantics: values, the relation to the engine's state. *)
From Coq Require Import String.
From Verif Require Import Base LocModel EvdModel NomModel AstModel ParseModel AstParseModel EngineModel
  EvdSpec DbSpec ParseSpec EvalSpec AstParseSpec EngineSpec MakeSpec
  EvdProofs EvdProofs3 ParseProofs ParseProofs2 ParseProofs4 ParseProofs5 EvalProofs2 EvalProofs3 EvalProofs4 FuelProofs
  DbProofs EvdProofs2 AstParseProofs AstParseProofs2 AstParseProofs3 PieceProofs SafeProofs SafeProofs2 SafeProofs3 SafeProofs4 EngineProofs EngineProofs2 EngineProofs3.
Local Open Scope nat_scope.

(** * Values and expressions *)

(** What is known of the pieces of text that was expanded when it was assigned. *)
Definition shaped (t : text) (b : block) : Prop := ~ has fst dollar t -> unbroken t -> flat_block b /\ List.length (b_content b) <= 1.

Inductive rep : value -> ast -> Prop :=
| Rep_deferred : forall k t a, reads_ast True t a -> rep (Deferred k t) a
| Rep_fixed : forall t ps P l b, alike (List.map cref_marks (b_content b)) ps -> shaped t b -> rep (Fixed t ps P) (APre l b)
| Rep_appended : forall v (sp : bool) v' l a a', rep v a -> rep v' a' -> rep (Appended v sp v') (append_value l a a' sp).

Definition env_rep (D : defs) (e : env) : Prop := forall x,
  match D x, e x with
  | None, None => True
  | Some v, Some a => rep v a
  | _, _ => False
  end.

Lemma substituted_nil : forall k r out, substituted fst (made c_space) k r [] out -> out = [].
Proof. intros k r out (pk & qk & pr & qr & ws & _ & F & ->). cbn in F. inversion F; subst. reflexivity. Qed.

(** ** A text has one expansion *)
Lemma stands_plain : forall D t m, ~ has fst dollar t -> stands_for D t m -> m = t.
Proof.
  intros D t m N S. induction S as [|c t m Nc S IH| | | | | |]; try (exfalso; apply N; apply has_cons; now left); [reflexivity|].
  f_equal. apply IH. intros X. apply N. apply has_cons. now right.
Qed.

Ltac same_group :=
  match goal with G : group open_paren close_paren ?t _ _, G' : group open_paren close_paren ?t _ _ |- _ =>
    destruct (group_unique open_paren close_paren _ _ _ _ _ ltac:(discriminate) G G') as (<- & <-); clear G' end.
Ltac clash :=
  match goal with
  | H : ~ In ?c [dollar; open_paren; close_brace], E : ?c = _ |- _ => exfalso; apply H; rewrite E; cbn; tauto
  | E : ?c = dollar, E' : ?c = open_paren |- _ => rewrite E in E'; discriminate
  | N : ?c <> dollar, E : ?c = dollar |- _ => contradiction
  end.

Lemma group_before : forall t inner rest, group open_paren close_paren t inner [] -> group open_paren close_paren (t ++ rest) inner rest.
Proof. intros t inner rest (A & B & x & X & ->). split; [exact A|]. split; [exact B|]. exists x. split; [exact X|]. rewrite <- app_assoc. reflexivity. Qed.

Lemma before_dollar : forall t rest, reference_before t rest -> exists x u, t = x :: u /\ fst x = dollar.
Proof. intros t rest H. inversion H; subst; eauto. Qed.

Lemma before_unique : forall t rest t' rest', reference_before t rest -> reference_before t' rest' -> t ++ rest = t' ++ rest' -> t' = t /\ rest' = rest.
Proof.
  assert (G : forall u inner rest u' inner' rest', group open_paren close_paren u inner [] -> group open_paren close_paren u' inner' [] -> u ++ rest = u' ++ rest' -> u' = u /\ rest' = rest).
  { intros u inner rest u' inner' rest' H H' E. pose proof (group_before _ _ rest H) as K. pose proof (group_before _ _ rest' H') as K'. rewrite <- E in K'.
    destruct (group_unique open_paren close_paren _ _ _ _ _ ltac:(discriminate) K K') as (_ & <-). apply app_inv_tail in E. auto. }
  intros t rest t' rest' H H' E. destruct H as [x X|x y r X Y|x b u r inner X B Gr]; destruct H' as [x' X'|x' y' r' X' Y'|x' b' u' r' inner' X' B' Gr']; cbn [app] in E; try discriminate.
  - injection E as ->. auto.
  - injection E as -> -> ->. auto.
  - injection E as -> -> E. exfalso. apply Y. rewrite B'. now left.
  - injection E as -> -> E. exfalso. apply Y'. rewrite B. now left.
  - injection E as -> -> E. destruct (G _ _ _ _ _ _ Gr Gr' E) as (-> & ->). auto.
Qed.

Lemma split_dollar : forall t rest t' rest' : text, ~ has fst dollar t -> begins_dollar rest -> ~ has fst dollar t' -> begins_dollar rest' ->
  t ++ rest = t' ++ rest' -> t' = t /\ rest' = rest.
Proof.
  intros t rest t' rest' N B N' B' E. apply app_eq_app in E as (l & [(-> & ->)|(-> & ->)]).
  - destruct l as [|c l]; [rewrite app_nil_r; auto|]. exfalso. apply N, has_app. right. apply has_cons. left. exact (B' c _ eq_refl).
  - destruct l as [|c l]; [rewrite app_nil_r; auto|]. exfalso. apply N', has_app. right. apply has_cons. left. exact (B c _ eq_refl).
Qed.

Lemma stands_det : forall D,
  (forall t m, stands_for D t m -> forall m', stands_for D t m' -> m' = m) /\
  (forall x m, variable_is D x m -> forall m', variable_is D x m' -> m' = m) /\
  (forall v m, value_is D v m -> forall m', value_is D v m' -> m' = m) /\
  (forall t ps, text_in D t ps -> forall ps', text_in D t ps' -> ps' = ps) /\
  (forall v ps, value_in D v ps -> forall ps', value_in D v ps' -> ps' = ps).
Proof.
  intros D. apply (stands_all D (fun t m _ => forall m', stands_for D t m' -> m' = m) (fun x m _ => forall m', variable_is D x m' -> m' = m)
    (fun v m _ => forall m', value_is D v m' -> m' = m) (fun t ps _ => forall ps', text_in D t ps' -> ps' = ps) (fun v ps _ => forall ps', value_in D v ps' -> ps' = ps)).
  - intros m' S. inversion S. reflexivity.
  - intros c t m N _ IH m' S. inversion S; subst; try clash. f_equal. auto.
  - intros x E m' S. inversion S; subst; try clash; reflexivity.
  - intros x y t m X Y _ IH m' S. inversion S; subst; try clash. f_equal; auto.
  - intros x c t m1 m2 X N _ IH1 _ IH2 m' S. inversion S; subst; try clash. f_equal; auto.
  - intros x b t inner rest nm m1 m2 X B G F _ IH0 P _ IH1 _ IH2 m' S.
    assert (Ex : forall n k r, is_subst inner n k r -> ~ has fst dollar inner -> False).
    { intros n k r H N. assert (nm = inner) as -> by (symmetry; apply IH0; clear -N; induction inner as [|c i IH]; constructor;
          [intros E; apply N, has_cons; now left|apply IH; intros E; apply N, has_cons; now right]); exact (P n k r H). }
    inversion S; subst; try clash; same_group; try (exfalso; eauto; fail).
    match goal with H : stands_for D inner _ |- _ => apply IH0 in H end. subst. f_equal; auto.
  - intros x b t inner rest n k r m X B G F Nd U Is Dn _ IH2 m' S. inversion S; subst; try clash; same_group.
    + exfalso. match goal with H : stands_for D inner ?nm, P : plain ?nm |- _ => apply (stands_plain D inner nm Nd) in H; subst nm; exact (P n k r Is) end.
    + auto.
    + exfalso. match goal with H : is_subst inner ?n' ?k' ?r' |- _ => destruct (is_subst_det _ _ _ _ _ _ _ Is H) as (-> & -> & ->) end. congruence.
  - intros x b t inner rest n k r v ps m1 m2 X B G F Nd U Is Dn _ IH1 Sb _ IH2 m' S. inversion S; subst; try clash; same_group.
    + exfalso. match goal with H : stands_for D inner ?nm, P : plain ?nm |- _ => apply (stands_plain D inner nm Nd) in H; subst nm; exact (P n k r Is) end.
    + exfalso. match goal with H : is_subst inner ?n' ?k' ?r' |- _ => destruct (is_subst_det _ _ _ _ _ _ _ Is H) as (-> & -> & ->) end. congruence.
    + match goal with H : is_subst inner ?n' ?k' ?r' |- _ => destruct (is_subst_det _ _ _ _ _ _ _ Is H) as (-> & -> & ->) end.
      match goal with H : D (chars n) = Some ?v' |- _ => rewrite Dn in H; injection H as <- end.
      f_equal; [|auto]. match goal with H : value_in D v _ |- _ => apply IH1 in H; subst end. eapply cut_substituted_det; eassumption.
  - intros x E m' V. inversion V; subst; [reflexivity|congruence].
  - intros x v m E _ IH m' V. inversion V as [|x' v' m1 E' V1]; subst; [congruence|]. rewrite E in E'. injection E' as <-. auto.
  - intros k t m _ IH m' V. inversion V; subst; auto.
  - intros t m P m' V. inversion V; subst; auto.
  - intros v sp v' m m' _ IH _ IH' m'' V. inversion V; subst. f_equal; [auto|]. f_equal. auto.
  - intros ps' T. inversion T as [|t rest qs qs' Nt|t rest m qs R]; subst; [reflexivity| |].
    + destruct t; [now contradiction Nt|discriminate].
    + destruct (before_dollar _ _ R) as (x & u & -> & _). discriminate.
  - intros t rest qs ps Nt Nd Bd W T IH ps' T'. inversion T' as [E|t' rest' qs' qs2 Nt' Nd' Bd' W' T2 E|t' rest' m qs2 R S T2 E]; subst.
    + destruct t; [now contradiction Nt|discriminate].
    + destruct (split_dollar _ _ _ _ Nd Bd Nd' Bd' (eq_sym E)) as (-> & ->). rewrite (written_once _ _ _ W W'). f_equal. auto.
    + destruct (before_dollar _ _ R) as (x & u & -> & X). destruct t as [|y t]; [now contradiction Nt|]. injection E as -> _. exfalso. apply Nd, has_cons. now left.
  - intros t rest m ps R S IH1 T IH2 ps' T'. inversion T' as [E|t' rest' qs' qs2 Nt' Nd' Bd' W' T2 E|t' rest' m' qs2 R' S' T2 E]; subst.
    + destruct (before_dollar _ _ R) as (x & u & -> & _). discriminate.
    + destruct (before_dollar _ _ R) as (x & u & -> & X). destruct t' as [|y t']; [now contradiction Nt'|]. injection E as <- _. exfalso. apply Nd', has_cons. now left.
    + destruct (before_unique _ _ _ _ R R' (eq_sym E)) as (-> & ->). f_equal; auto.
  - intros k t ps _ IH ps' V. inversion V; subst; auto.
  - intros t ps P ps' V. inversion V; subst; auto.
  - intros v sp v' ps ps' _ IH _ IH' ps'' V. inversion V; subst. f_equal; [auto|]. f_equal. auto.
Qed.

(** ** What a text refers to, and what is looked up for it *)
Lemma refers_plain : forall D c t x, fst c <> dollar -> (refers D (c :: t) x <-> refers D t x).
Proof. intros D c t x N. split; [|intros H; apply RF_plain; assumption]. intros H. inversion H; subst; try clash; assumption. Qed.

Lemma refers_last : forall D d x, fst d = dollar -> ~ refers D [d] x.
Proof. intros D d x E H. inversion H; subst. clash. Qed.

Lemma refers_dollar : forall D d d' t x, fst d = dollar -> fst d' = dollar -> (refers D (d :: d' :: t) x <-> refers D t x).
Proof. intros D d d' t x E E'. split; [|intros H; apply RF_dollar; assumption]. intros H. inversion H; subst; try clash. assumption. Qed.

Lemma refers_char : forall D d c t x, fst d = dollar -> ~ In (fst c) [dollar; open_paren; close_brace] ->
  (refers D (d :: c :: t) x <-> x = [fst c] \/ refers D t x).
Proof.
  intros D d c t x E N. split.
  - intros H. inversion H; subst; try clash; auto.
  - intros [->|H]; [apply RF_char|apply RF_char_rest]; assumption.
Qed.

Lemma refers_var : forall D d b t inner rest nm x, fst d = dollar -> fst b = open_paren -> group open_paren close_paren t inner rest ->
  stands_for D inner nm -> plain nm -> (refers D (d :: b :: t) x <-> x = chars nm \/ refers D inner x \/ refers D rest x).
Proof.
  intros D d b t inner rest nm x E B G S P. split.
  - intros H. inversion H; subst; try clash; try same_group; auto.
    + match goal with H : stands_for D inner _ |- _ => apply (proj1 (stands_det D) _ _ S) in H end. subst. now left.
    + exfalso. match goal with H : is_subst inner ?n ?k ?r, N : ~ has fst dollar inner |- _ => rewrite (stands_plain D inner nm N S) in P; exact (P n k r H) end.
  - intros [->|[H|H]]; [eapply RF_var|eapply RF_name|eapply RF_rest]; eassumption.
Qed.

Lemma refers_none : forall D t x, ~ has fst dollar t -> ~ refers D t x.
Proof.
  intros D t x N H. induction H; try (apply N; apply has_cons; now left). apply IHrefers. intros X. apply N, has_cons. now right.
Qed.

Lemma refers_subst : forall D d b t inner rest n k r x, fst d = dollar -> fst b = open_paren -> group open_paren close_paren t inner rest ->
  ~ has fst dollar inner -> is_subst inner n k r -> (refers D (d :: b :: t) x <-> x = chars n \/ refers D rest x).
Proof.
  intros D d b t inner rest n k r x E B G N Is. split.
  - intros H. inversion H; subst; try clash; try same_group; auto.
    + exfalso. match goal with H : stands_for D inner ?nm, P : plain ?nm |- _ => rewrite (stands_plain D inner nm N H) in P; exact (P n k r Is) end.
    + exfalso. match goal with H : refers D inner _ |- _ => exact (refers_none _ _ _ N H) end.
    + match goal with H : is_subst inner ?n' ?k' ?r' |- _ => destruct (is_subst_det _ _ _ _ _ _ _ Is H) as (-> & _) end. now left.
  - intros [->|H]; [eapply RF_subst|eapply RF_rest]; eassumption.
Qed.

(** The variable [x] is looked up for the variable [y]. *)
Definition looked (D : defs) (y x : str) : Prop := x = y \/ exists v, D y = Some v /\ value_looks D v x.

Lemma looks_iff : forall D t x, looks_up D t x <-> exists y, refers D t y /\ looked D y x.
Proof.
  intros D t x. split.
  - intros H. inversion H as [? ? R|? y v ? R E V]; subst; [exists x; split; [exact R|now left]|]. exists y. split; [exact R|right; eauto].
  - intros (y & R & [->|(v & E & V)]); [now apply LU_here|eapply LU_value; eassumption].
Qed.

Lemma deferred_iff : forall D k t x, value_looks D (Deferred k t) x <-> looks_up D t x.
Proof. intros D k t x. split; [intros H; inversion H; assumption|apply VL_deferred]. Qed.
Lemma appended_iff : forall D v sp v' x, value_looks D (Appended v sp v') x <-> value_looks D v x \/ value_looks D v' x.
Proof. intros D v sp v' x. split; [intros H; inversion H; auto|intros [H|H]; [now apply VL_left|now apply VL_right]]. Qed.
Lemma fixed_iff : forall D t m P x, ~ value_looks D (Fixed t m P) x.
Proof. intros D t m P x H. inversion H. Qed.

Definition exactly (d : list str) (P : str -> Prop) : Prop := forall x, In x d <-> P x.

Lemma exactly_same : forall D t t', (forall x, refers D t' x <-> refers D t x) -> forall d, exactly d (looks_up D t) -> exactly d (looks_up D t').
Proof. intros D t t' H d E x. rewrite (E x), !looks_iff. split; intros (y & R & L); exists y; (split; [apply H; exact R|exact L]). Qed.

Lemma exactly_two : forall D t' t d d' z, (forall x, refers D t' x <-> x = z \/ refers D t x) ->
  exactly d (looked D z) -> exactly d' (looks_up D t) -> exactly (d ++ d') (looks_up D t').
Proof.
  intros D t' t d d' z H E E' x. rewrite in_app_iff, (E x), (E' x), !looks_iff. split.
  - intros [L|(y & R & L)]; [exists z|exists y]; (split; [apply H; auto|exact L]).
  - intros (y & R & L). apply H in R as [->|R]; [now left|right; eauto].
Qed.

Lemma exactly_three : forall D t' i t d0 d d' z, (forall x, refers D t' x <-> x = z \/ refers D i x \/ refers D t x) ->
  exactly d0 (looks_up D i) -> exactly d (looked D z) -> exactly d' (looks_up D t) -> exactly (d0 ++ d ++ d') (looks_up D t').
Proof.
  intros D t' i t d0 d d' z H E0 E E' x. rewrite !in_app_iff, (E0 x), (E x), (E' x), !looks_iff. split.
  - intros [(y & R & L)|[L|(y & R & L)]]; [exists y|exists z|exists y]; (split; [apply H; auto|exact L]).
  - intros (y & R & L). apply H in R as [->|[R|R]]; eauto.
Qed.

(** ** References in texts *)
Lemma refers_text : forall D t u x, ~ has fst dollar t -> (refers D (t ++ u) x <-> refers D u x).
Proof.
  intros D. induction t as [|c t IH]; intros u x N; [tauto|]. cbn [app]. rewrite refers_plain by (intros E; apply N, has_cons; now left).
  apply IH. intros X. apply N, has_cons. now right.
Qed.

Lemma refers_nil : forall D x, ~ refers D [] x.
Proof. intros D x H. inversion H. Qed.

Lemma refers_before : forall D t rest m, reference_before t rest -> stands_for D t m -> forall x, refers D (t ++ rest) x <-> refers D t x \/ refers D rest x.
Proof.
  intros D t rest m R S x. pose proof (refers_nil D x) as Nx. destruct R as [d X|d y rest X Y|d b t rest inner X B G]; cbn [app].
  - tauto.
  - destruct (N.eq_dec (fst y) dollar) as [Q|Q].
    + rewrite !refers_dollar by assumption. tauto.
    + assert (Ny : ~ In (fst y) [dollar; open_paren; close_brace]) by (intros [I|I]; [congruence|exact (Y I)]). rewrite !refers_char by assumption. tauto.
  - pose proof (group_before _ _ rest G) as G'. inversion S; subst; try clash; same_group.
    + rewrite (refers_var D d b t inner []) by eassumption. rewrite (refers_var D d b (t ++ rest) inner rest) by eassumption. tauto.
    + rewrite (refers_subst D d b t inner []) by eassumption. rewrite (refers_subst D d b (t ++ rest) inner rest) by eassumption. tauto.
    + rewrite (refers_subst D d b t inner []) by eassumption. rewrite (refers_subst D d b (t ++ rest) inner rest) by eassumption. tauto.
Qed.

Lemma exactly_app : forall D t u v d d', (forall x, refers D t x <-> refers D u x \/ refers D v x) ->
  exactly d (looks_up D u) -> exactly d' (looks_up D v) -> exactly (d ++ d') (looks_up D t).
Proof.
  intros D t u v d d' H E E' x. rewrite in_app_iff, (E x), (E' x), !looks_iff. split.
  - intros [(y & R & L)|(y & R & L)]; exists y; (split; [apply H; auto|exact L]).
  - intros (y & R & L). apply H in R as [R|R]; eauto.
Qed.

Lemma reads_before : forall t rest D m ns, reference_before t rest -> stands_for D t m -> reads True (t ++ rest) ns ->
  exists a ns', ns = a :: ns' /\ reads True t [a] /\ reads True rest ns' /\ forall e ps d, pieces_of e a ps d -> exists p, ps = [p].
Proof.
  assert (C : forall g e ps d, pieces_of e (a_constant g) ps d -> exists p, ps = [p]) by (intros g e ps d H; inversion H; eauto).
  assert (V : forall l a e ps d, pieces_of e (AVar l a) ps d -> exists p, ps = [p]) by (intros l a e ps d H; inversion H; eauto).
  intros t rest D m ns R S Rd. destruct R as [x X|x y rest X Y|x b t rest inner X B G]; cbn [app] in Rd;
    apply reads_dollar_inv in Rd as [(E & ->)|[(c' & u & ns' & E & D1 & R & ->)|[(c' & u & ns' & E & D1 & R & ->)|[(b' & o & cc & u & i & re & a & ns' & E & Op & Gr & H1 & H2 & H3 & ->)|(b' & o & cc & u & i & re & a & E & Op & Gr & H1 & ->)]]]]; try exact X; try discriminate E.
  - eexists; exists []. split; [reflexivity|]. split; [apply R_last; exact X|]. split; [constructor|apply C].
  - injection E as <- <-. eexists; exists ns'. split; [reflexivity|]. split; [apply R_dollar; [exact X|exact D1|constructor]|]. split; [exact R|apply C].
  - injection E as <- <-. eexists; exists ns'. split; [reflexivity|]. split; [apply R_char; [exact X|exact D1|constructor]|]. split; [exact R|apply V].
  - injection E as <- <-. exfalso. apply Y. inversion Op; cbn; auto.
  - injection E as <- <-. exfalso. apply Y. inversion Op; cbn; auto.
  - injection E as <- <-. clash.
  - injection E as <- <-. clash.
  - injection E as <- <-. rewrite B in Op. inversion Op; subst. pose proof (group_before _ _ rest G) as G'.
    destruct (group_unique open_paren close_paren _ _ _ _ _ ltac:(discriminate) G' Gr) as (<- & <-).
    eexists; exists ns'. split; [reflexivity|]. split; [eapply R_var; [exact X|rewrite B; constructor|exact G|exact H1|exact H2|constructor]|]. split; [exact H3|apply V].
  - injection E as <- <-. exfalso. rewrite B in Op. inversion Op; subst. pose proof (group_before _ _ rest G) as G'.
    destruct (group_unique open_paren close_paren _ _ _ _ _ ltac:(discriminate) G' Gr) as (<- & <-).
    destruct (calls_begins _ _ _ _ H1) as (k & I & K). inversion S; subst; try clash; same_group; match goal with F : forall k, In k function_names -> _ |- _ => exact (F k I K) end.
Qed.

Lemma pieces_constants : forall e cs ns ps d, pieces_of_all e ns ps d -> pieces_of_all e (List.map a_constant cs ++ ns) (List.map located_marks cs ++ ps) d.
Proof.
  intros e cs ns ps d H. induction cs as [|c cs IH]; [exact H|]. cbn [List.map app].
  exact (X_cons e (a_constant c) _ [located_marks c] [] _ d (X_const e _ c) IH).
Qed.

Lemma reads_split : forall t rest ns, t <> [] -> ~ has fst dollar t -> begins_dollar rest -> reads True (t ++ rest) ns ->
  exists cs ns', ns = List.map a_constant cs ++ ns' /\ spells cs t /\ parted located_marks cs /\ reads True rest ns'.
Proof.
  intros t rest ns Nt Nd B R. inversion R as [E|t' cs u ns' Nt' Nd' Sp Wh Ru E E2|x X E|x y u ns' X Y Ru E|x c u ns' X Y Ru E|x b o c u inner r a ns' X Op G F Ra Rr E|x b o c u inner r a X Op G Ca E];
    try (exfalso; destruct t as [|z t]; [now contradiction Nt|]; injection E as <- _; apply Nd, has_cons; now left).
  - destruct t; [now contradiction Nt|discriminate].
  - destruct (Wh Logic.I) as (P & Bu). destruct (split_dollar _ _ _ _ Nd B Nd' Bu (eq_sym E)) as (-> & ->). exists cs, ns'. auto.
Qed.

Lemma stands_means : forall D e, env_rep D e ->
  (forall t m, stands_for D t m -> exists d, means True e t m d /\ exactly d (looks_up D t)) /\
  (forall x m, variable_is D x m -> exists d, variable_value e x m d /\ exactly d (looked D x)) /\
  (forall v m, value_is D v m -> forall a, rep v a -> exists d, expands e a m d /\ exactly d (value_looks D v)) /\
  (forall t ps, text_in D t ps -> forall ns, reads True t ns -> exists qs d, pieces_of_all e ns qs d /\ alike qs ps /\ exactly d (looks_up D t)) /\
  (forall v ps, value_in D v ps -> forall a, rep v a -> exists qs d, pieces_of e a qs d /\ alike qs ps /\ exactly d (value_looks D v)).
Proof.
  intros D e R. apply (stands_all D (fun t m _ => exists d, means True e t m d /\ exactly d (looks_up D t))
    (fun x m _ => exists d, variable_value e x m d /\ exactly d (looked D x))
    (fun v m _ => forall a, rep v a -> exists d, expands e a m d /\ exactly d (value_looks D v))
    (fun t ps _ => forall ns, reads True t ns -> exists qs d, pieces_of_all e ns qs d /\ alike qs ps /\ exactly d (looks_up D t))
    (fun v ps _ => forall a, rep v a -> exists qs d, pieces_of e a qs d /\ alike qs ps /\ exactly d (value_looks D v))).
  - exists []. split; [constructor|]. intros x. split; [intros []|]. rewrite looks_iff. intros (y & H & _). inversion H.
  - intros c t m N _ [d [H E]]. exists d. split; [apply M_plain; assumption|]. eapply exactly_same; [|exact E]. intros x. apply refers_plain. exact N.
  - intros x E. exists []. split; [apply M_last; assumption|]. intros z. split; [intros []|]. rewrite looks_iff. intros (y & H & _). exact (refers_last _ _ _ E H).
  - intros x y t m X Y _ [d [H E]]. exists d. split; [apply M_dollar; assumption|]. eapply exactly_same; [|exact E]. intros z. apply refers_dollar; assumption.
  - intros x c t m1 m2 X N _ [d1 [H1 E1]] _ [d2 [H2 E2]]. eexists; split; [apply M_char; eauto|].
    eapply exactly_two; [|exact E1|exact E2]. intros z. apply refers_char; assumption.
  - intros x b t inner rest nm m1 m2 X B G F S0 [d0 [H0 E0]] P _ [d1 [H1 E1]] _ [d2 [H2 E2]].
    eexists. split; [eapply M_var; eauto|]. rewrite <- app_assoc. eapply exactly_three; [|exact E0|exact E1|exact E2]. intros z. eapply refers_var; eassumption.
  - intros x b t inner rest n k r m X B G F Nd U Is Dn _ [d2 [H2 E2]].
    exists ([chars n] ++ d2). split.
    + apply (M_subst True e x b t inner rest n k r [] [chars n] m d2); auto. unfold subst_value. specialize (R (chars n)). rewrite Dn in R. destruct (e (chars n)); [contradiction|auto].
    + eapply exactly_two; [intros z; eapply refers_subst; eassumption| |exact E2]. intros z. split; [intros [->|[]]; now left|]. intros [->|(v & Ev & _)]; [now left|congruence].
  - intros x b t inner rest n k r v ps m1 m2 X B G F Nd U Is Dn _ IH Sb _ [d2 [H2 E2]].
    pose proof (R (chars n)) as Rn. rewrite Dn in Rn. destruct (e (chars n)) as [a|] eqn:En; [|contradiction]. destruct (IH a Rn) as (qs & d1 & Q & Al & E1).
    exists ((chars n :: d1) ++ d2). split.
    + apply (M_subst True e x b t inner rest n k r m1 (chars n :: d1) m2 d2); auto. unfold subst_value. rewrite En. exists qs, d1. split; [exact Q|].
      split; [exact (alike_cut _ _ _ _ _ _ (alike_sym _ _ Al) Sb)|reflexivity].
    + eapply exactly_two; [intros z; eapply refers_subst; eassumption| |exact E2]. intros z. cbn [In]. rewrite (E1 z). unfold looked. split.
      * intros [->|H']; [now left|right; eauto].
      * intros [->|(v' & Ev & H')]; [now left|right]. rewrite Dn in Ev. injection Ev as <-. exact H'.
  - intros x E. exists [x]. split; [unfold variable_value; specialize (R x); rewrite E in R; destruct (e x); [contradiction|auto]|].
    intros z. split; [intros [->|[]]; now left|]. intros [->|(v & Ev & _)]; [now left|congruence].
  - intros x v m E _ IH. specialize (R x). rewrite E in R. unfold variable_value. destruct (e x) as [a|]; [|contradiction].
    destruct (IH a R) as [d [H Ed]]. exists (x :: d). split; [eauto|]. intros z. cbn [In]. rewrite (Ed z). unfold looked. split.
    + intros [->|H']; [now left|right; eauto].
    + intros [->|(v' & Ev & H')]; [now left|right]. rewrite E in Ev. injection Ev as <-. exact H'.
  - intros k t m _ [d [H Ed]] a A. inversion A as [? ? ? H1| |]; subst. exists d. split; [apply (proj1 (proj2 (reads_means True e)) t a H1 m d H)|].
    intros z. rewrite (Ed z). symmetry. apply deferred_iff.
  - intros t ps P a A. inversion A as [|? ? ? l b Al Sh|]; subst. exists []. split; [|intros z; split; [intros []|intros H; destruct (fixed_iff _ _ _ _ _ H)]].
    rewrite <- (alike_concat _ _ Al). apply E_pre.
  - intros v sp v' m m' _ IH _ IH' a A. inversion A; subst.
    match goal with H3 : rep v _, H5 : rep v' _ |- _ => destruct (IH _ H3) as [d [H Ed]], (IH' _ H5) as [d' [H' Ed']] end. unfold append_value.
    assert (EX : exactly (d ++ d' ++ []) (value_looks D (Appended v sp v'))).
    { intros z. rewrite app_nil_r, in_app_iff, (Ed z), (Ed' z). symmetry. apply appended_iff. }
    destruct sp; cbn [app].
    + exists (d ++ [] ++ d' ++ []). split; [|exact EX]. apply expands_collapsing.
      assert (Q : expands_all e [a0; a_space; a'] (m ++ [made c_space] ++ m' ++ []) (d ++ [] ++ d' ++ [])).
      { apply E_cons; [assumption|]. apply E_cons; [apply E_const|]. apply E_cons; [assumption|apply E_nil]. }
      rewrite app_nil_r in Q. exact Q.
    + exists (d ++ d' ++ []). split; [|exact EX]. apply expands_collapsing.
      assert (Q : expands_all e [a0; a'] (m ++ m' ++ []) (d ++ d' ++ [])).
      { apply E_cons; [assumption|]. apply E_cons; [assumption|apply E_nil]. }
      rewrite app_nil_r in Q. exact Q.
  - intros ns Rn. apply reads_nil in Rn as ->. exists [], []. split; [constructor|]. split; [apply alike_refl|].
    intros x. split; [intros []|]. rewrite looks_iff. intros (y & H & _). inversion H.
  - intros t rest qs ps Nt Nd B W _ IH ns Rn. destruct (reads_split _ _ _ Nt Nd B Rn) as (cs & ns' & -> & Sp & P & Rr).
    destruct (IH ns' Rr) as (qs' & d & Q & Al & E). exists (List.map located_marks cs ++ qs'), d. split; [apply pieces_constants; exact Q|].
    split; [apply alike_app; [exact (spelled_alike _ _ _ Sp P W)|exact Al]|]. eapply exactly_same; [|exact E]. intros x. apply refers_text. exact Nd.
  - intros t rest m ps Rb S [d1 [H1 E1]] _ IH ns Rn. destruct (reads_before _ _ _ _ _ Rb S Rn) as (a & ns' & -> & Ra & Rr & One).
    destruct (IH ns' Rr) as (qs' & d & Q & Al & E). destruct (proj1 (reads_means True e) t [a] Ra m d1 H1) as (p1 & X1 & Em).
    inversion X1 as [|? ? p d3 p' d4 Xa Xn]; subst. inversion Xn; subst. rewrite !app_nil_r in *. destruct (One _ _ _ Xa) as (p0 & ->).
    exists ([p0] ++ qs'), (d3 ++ d). split; [apply X_cons; assumption|]. cbn [concat]. rewrite app_nil_r. split.
    + apply (alike_app [p0] [p0] qs' ps); [apply alike_refl|exact Al].
    + eapply exactly_app; [|exact E1|exact E]. exact (refers_before _ _ _ _ Rb S).
  - intros k t ps _ IH a A. inversion A as [? ? ? Ra| |]; subst. inversion Ra as [|m u ns Rn]; subst.
    + destruct (IH [] (R_nil _)) as (qs & d & Q & Al & E). inversion Q; subst. exists [], []. split; [constructor|]. split; [exact Al|]. intros z. rewrite (E z). symmetry. apply deferred_iff.
    + destruct (IH ns Rn) as (qs & d & Q & Al & E). exists qs, d. split; [apply collapsing_pieces; exact Q|]. split; [exact Al|]. intros z. rewrite (E z). symmetry. apply deferred_iff.
  - intros t ps P a A. inversion A as [|? ? ? l b Al Sh|]; subst. eexists; exists []. split; [apply X_pre|]. split; [exact Al|]. intros z; split; [intros []|intros H; destruct (fixed_iff _ _ _ _ _ H)].
  - intros v sp v' ps ps' _ IH _ IH' a A. inversion A; subst.
    match goal with H3 : rep v _, H5 : rep v' _ |- _ => destruct (IH _ H3) as (qs & d & H & Al & Ed), (IH' _ H5) as (qs' & d' & H' & Al' & Ed') end. unfold append_value.
    assert (EX : exactly (d ++ d' ++ []) (value_looks D (Appended v sp v'))).
    { intros z. rewrite app_nil_r, in_app_iff, (Ed z), (Ed' z). symmetry. apply appended_iff. }
    destruct sp.
    + exists (qs ++ [[made c_space]] ++ qs' ++ []), (d ++ [] ++ d' ++ []). split; [|split; [|exact EX]].
      * apply collapsing_pieces. apply X_cons; [assumption|]. apply (X_cons e a_space [a'] [[made c_space]]); [apply X_const|]. apply X_cons; [assumption|apply X_nil].
      * rewrite app_nil_r. apply alike_app; [exact Al|]. apply (alike_app [[made c_space]] [[made c_space]]); [apply alike_refl|exact Al'].
    + exists (qs ++ qs' ++ []), (d ++ d' ++ []). split; [|split; [|exact EX]].
      * apply collapsing_pieces. apply X_cons; [assumption|]. apply X_cons; [assumption|apply X_nil].
      * rewrite app_nil_r. apply alike_app; [exact Al|exact Al'].
Qed.

(** What a text in pieces stands for. *)
Lemma stands_text : forall D t u m, ~ has fst dollar t -> stands_for D u m -> stands_for D (t ++ u) (t ++ m).
Proof.
  intros D. induction t as [|c t IH]; intros u m N S; [exact S|]. cbn [app]. apply SF_plain; [intros E; apply N, has_cons; now left|].
  apply IH; [|exact S]. intros X. apply N, has_cons. now right.
Qed.

Lemma stands_before : forall D t rest m m', reference_before t rest -> stands_for D t m -> stands_for D rest m' -> stands_for D (t ++ rest) (m ++ m').
Proof.
  assert (Nil : forall D m, stands_for D [] m -> m = []) by (intros D m S; inversion S; reflexivity).
  intros D t rest m m' R S S'. destruct R as [d X|d y rest X Y|d b t rest inner X B G]; cbn [app].
  - apply Nil in S' as ->. rewrite app_nil_r. exact S.
  - inversion S; subst; try clash.
    + match goal with H : stands_for D [] _ |- _ => apply Nil in H as -> end. apply SF_dollar; assumption.
    + match goal with H : stands_for D [] _ |- _ => apply Nil in H as -> end. rewrite app_nil_r. apply SF_char; assumption.
    + exfalso. apply Y. cbn. auto.
    + exfalso. apply Y. cbn. auto.
    + exfalso. apply Y. cbn. auto.
  - pose proof (group_before _ _ rest G) as G'. inversion S; subst; try clash; same_group.
    + match goal with H : stands_for D [] _ |- _ => apply Nil in H as -> end. rewrite app_nil_r. eapply SF_var; eassumption.
    + match goal with H : stands_for D [] _ |- _ => apply Nil in H as -> end. eapply SF_subst_none; eassumption.
    + match goal with H : stands_for D [] _ |- _ => apply Nil in H as -> end. rewrite app_nil_r. eapply SF_subst; eassumption.
Qed.

Lemma text_stands : forall D t ps, text_in D t ps -> stands_for D t (concat ps).
Proof.
  intros D t ps T. induction T as [|t rest qs ps Nt Nd B W T IH|t rest m ps R S T IH]; [constructor| |].
  - rewrite concat_app. destruct W as (<- & _). apply stands_text; assumption.
  - cbn [concat]. apply stands_before; assumption.
Qed.

(** * Evaluation with a fixed result *)
Lemma reads_plain_const : forall t a, ~ has fst dollar t -> unbroken t -> reads_ast True t a -> a = a_empty \/ exists g, a = a_constant g.
Proof.
  intros t a N U R. inversion R as [|m t' ns R' E1 E2]; subst; [now left|]. right.
  inversion R' as [|t cs u ns' Nt Nd Sp Wh Ru E3 E4| | | | |]; subst; try (exfalso; apply N; apply has_cons; auto; fail).
  destruct (Wh Logic.I) as (P & B). assert (u = []) as ->.
  { destruct u as [|c u]; [reflexivity|]. exfalso. apply N. rewrite <- E3. apply has_app. right. apply has_cons. left. eapply B. reflexivity. }
  rewrite app_nil_r in *. apply reads_nil in Ru as ->. subst t. destruct (spells_whole _ _ Nt Sp U P) as (g & ->). exists g. reflexivity.
Qed.

Lemma const_flat : forall fs fuel w a w' b t, ~ has fst dollar t -> unbroken t -> reads_ast True t a -> eval_fuel fs fuel w a = Ok (w', b) -> flat_block b.
Proof.
  intros fs fuel w a w' b t N U R E. destruct fuel as [|fuel]; [discriminate|]. cbn [eval_fuel] in E. unfold eval_step in E.
  destruct (reads_plain_const t a N U R) as [->|(g & ->)]; cbn in E.
  - injection E as _ <-. constructor.
  - destruct (block_new [] [ev_constant g]) as [b'| |] eqn:Q; try discriminate. injection E as _ <-.
    exact (proj1 (block_new_flat _ _ _ (Forall_cons (P := piece) _ (or_intror Logic.I : piece (ev_constant g)) (Forall_nil _)) Q)).
Qed.

(** ** Sensitivity *)
Lemma depends_more : forall w w' P b, (forall x id, variable_name (w_names w) x = Some id -> variable_name (w_names w') x = Some id) ->
  depends_on w P b -> depends_on w' P b.
Proof.
  intros w w' P b H (A & B). split.
  - intros x Px. destruct (A x Px) as (id & N & I). eauto.
  - intros id I. destruct (B id I) as (x & Px & N). eauto.
Qed.

Lemma depends_set : forall w P b b', (forall id, In id (b_sens b') <-> In id (b_sens b)) -> depends_on w P b -> depends_on w P b'.
Proof.
  intros w P b b' H (A & B). split.
  - intros x Px. destruct (A x Px) as (id & N & I). exists id. split; [exact N|apply H; exact I].
  - intros id I. apply H in I. exact (B id I).
Qed.

Lemma records_depends : forall w b d P, records w (b_sens b) d -> exactly d P -> depends_on w P b.
Proof.
  intros w b d P (R & N) E. split.
  - intros x Px. apply E in Px. specialize (N x Px). destruct (variable_name (w_names w) x) as [id|] eqn:Q; [|congruence].
    exists id. split; [reflexivity|]. apply R. eauto.
  - intros id I. apply R in I as (x & I & Q). exists x. split; [apply E; exact I|exact Q].
Qed.

Lemma expands_fixed : forall fs w a m d P, world_ok w -> ast_ok a -> expands (world_env w) a m d -> exactly d P ->
  exists w' b enough, (forall fuel, enough <= fuel -> eval_fuel fs fuel w a = Ok (w', b)) /\
    block_marks b = m /\ block_into_string b = Ok (chars m) /\ same_but_names w w' /\ ((forall qs d, pieces_of (world_env w) a qs d -> alike (List.map cref_marks (b_content b)) qs) /\ (one_piece a -> List.length (b_content b) <= 1)) /\ depends_on w' P b.
Proof.
  intros fs w a m d P Wok Aok (ps & H & ->) EX. destruct (pieces_good fs _ a ps d H) as (f0 & G).
  destruct (good_eval fs f0 _ a ps d (G f0 (le_n _)) w Wok Aok (fun _ => eq_refl)) as (w' & b & E & Wb & M & Sb & R & O).
  exists w', b, (S f0). split; [|ands; auto; [rewrite (block_into_string_ok b Wb), <- block_marks_text, M; reflexivity|intros qs d' Q; destruct (pieces_det _ _ _ _ H _ _ Q) as (-> & _); rewrite O; apply alike_full|intros Op; exact (pieced_one _ _ O (one_piece_in _ _ _ _ H Op))|exact (records_depends _ _ _ _ R EX)]].
  intros fuel L. destruct (eval_fuel_mono fs (S f0) fuel w a L) as [X|X]; cbn [eval_fuel] in *; unfold eval_step in *; congruence.
Qed.

Lemma text_evaluates : forall fs D w s m, world_ok w -> env_rep D (world_env w) -> wf_span s -> tidy s ->
  stands_for D (span_marks s) m ->
  exists r a, parse_ast s = Ok (POk r a) /\ sp_len r = 0 /\ reads_ast True (span_marks s) a /\ ast_ok a /\
  exists w' b enough, (forall fuel, enough <= fuel -> eval_fuel fs fuel w a = Ok (w', b)) /\
    block_marks b = m /\ block_into_string b = Ok (chars m) /\ same_but_names w w' /\ ((forall qs d, pieces_of (world_env w) a qs d -> alike (List.map cref_marks (b_content b)) qs) /\ (one_piece a -> List.length (b_content b) <= 1)) /\
    depends_on w' (looks_up D (span_marks s)) b.
Proof.
  intros fs D w s m W R WS F S. destruct (proj1 (stands_means D _ R) _ _ S) as [d [H EX]].
  assert (H' : means (tidy s) (world_env w) (span_marks s) m d) by (eapply means_mono; [|exact H]; tauto).
  destruct (parse_means s _ _ _ WS (proj1 F) H') as (r & a & E & L & A & X).
  exists r, a. split; [exact E|]. split; [exact L|].
  pose proof (parse_outcome_ok s WS) as O. rewrite E in O. split; [eapply (proj1 (proj2 (reads_mono _ _ (fun _ => F)))); apply O|]. split; [exact A|].
  exact (expands_fixed _ _ _ _ _ _ W A X EX).
Qed.


(** * States *)

Definition recipe_rep (t : text) (a : ast) : Prop := reads_ast True t a /\ ast_ok a.
Definition rule_rep (w : world) (r : trule) (p : protorule) : Prop :=
  Forall2 (fun t b => block_marks b = t) (tr_targets r) (pr_targets p) /\
  Forall2 (fun t b => block_marks b = t) (tr_deps r) (pr_deps p) /\
  Forall2 (depends_on w) (tr_reads r) (pr_deps p) /\
  Forall2 recipe_rep (tr_recipe r) (pr_recipe p) /\
  pr_type p = (if tr_double r then RtDoubleColon else RtStandard).

Definition view_rep (w : world) (v : option tview) (rv : option rule_view) : Prop :=
  match v, rv with
  | None, None => True
  | Some v, Some rv =>
      Forall2 (fun t b => block_marks b = t) (tv_deps v) (rv_deps rv) /\
      Forall2 (depends_on w) (tv_reads v) (rv_deps rv) /\
      Forall2 recipe_rep (tv_recipe v) (rv_recipe rv) /\
      rv_type rv = (if tv_double v then RtDoubleColon else RtStandard)
  | _, _ => False
  end.

Definition rules_rep (R : str -> option tview) (w : world) : Prop :=
  forall t, view_rep w (R t) (option_map view (rule_of (w_names w) (w_db w) t)).

Definition open_rep (w : world) (r : option trule) (p : option protorule) : Prop :=
  match r, p with None, None => True | Some r, Some p => rule_rep w r p | _, _ => False end.

Definition define_rep (x : option (str * nat)) (d : option define_state) (w : world) : Prop :=
  match x, d with
  | None, None => True
  | Some (x, n), Some d => variable_name (w_names w) x = Some (ds_var d) /\ n = ds_nesting d
  | _, _ => False
  end.

Record sim (st : mstate) (s : pstate) (w : world) : Prop := Sim {
  sim_env : env_rep (m_defs st) (world_env w);
  sim_conds : stack s = m_conds st;
  sim_ignoring : ps_ignoring s = m_ignoring st;
  sim_rule : open_rep w (m_rule st) (ps_rule s);
  sim_rules : rules_rep (m_rules st) w;
  sim_define : define_rep (m_define st) (ps_define s) w;
  sim_files : n_files (w_names w) = m_files st;
  sim_cmd : w_cmd w = c_tab;
  sim_kinds : forall x v, m_defs st x = Some v -> recorded w x = Some (kind_of v, OrFile);
  sim_fixed : forall x t m P l b, m_defs st x = Some (Fixed t m P) -> world_env w x = Some (APre l b) -> depends_on w P b
}.

Lemma sim_start : sim m_start pstate_new world_new.
Proof. constructor; cbn; auto; try discriminate; intros x; exact I. Qed.

Lemma env_rep_ext : forall D e e', env_rep D e -> (forall x, e' x = e x) -> env_rep D e'.
Proof. intros D e e' R H x. rewrite H. apply R. Qed.

Lemma rule_of_same : forall w w' t, same_but_names w w' -> rule_of (w_names w') (w_db w') t = rule_of (w_names w) (w_db w) t.
Proof. intros w w' t (D & _ & F & _). unfold rule_of, file_name. rewrite D, F. reflexivity. Qed.

Definition more_names (w w' : world) : Prop := forall x id, variable_name (w_names w) x = Some id -> variable_name (w_names w') x = Some id.

Lemma depends_all : forall w w' Ps bs, more_names w w' -> Forall2 (depends_on w) Ps bs -> Forall2 (depends_on w') Ps bs.
Proof. intros w w' Ps bs H F. induction F; constructor; auto. eapply depends_more; eassumption. Qed.
Lemma open_more : forall w w' r p, more_names w w' -> open_rep w r p -> open_rep w' r p.
Proof.
  intros w w' [r|] [p|] H; cbn; auto. intros (A & B & C & D). split; [exact A|]. split; [exact B|]. split; [|exact D]. eapply depends_all; eassumption.
Qed.
Lemma view_more : forall w w' v rv, more_names w w' -> view_rep w v rv -> view_rep w' v rv.
Proof.
  intros w w' [v|] [rv|] H; cbn; auto. intros (A & B & C). split; [exact A|]. split; [|exact C]. eapply depends_all; eassumption.
Qed.

Lemma sim_same : forall st s w w', sim st s w -> world_ok w -> same_but_names w w' -> sim st s w'.
Proof.
  intros st s w w' [E C I R RS D F K Kd Fx] W S. pose proof S as (SD & SC & SF & _).
  assert (MN : more_names w w') by (intros x id; apply sbn_name; exact S). constructor; auto; try congruence.
  - eapply env_rep_ext; [exact E|]. apply sbn_env; assumption.
  - eapply open_more; eassumption.
  - intros t. rewrite (rule_of_same _ _ t S). eapply view_more; [exact MN|apply RS].
  - unfold define_rep in *. destruct (m_define st) as [[x n]|], (ps_define s); auto. destruct D as [D ->].
    split; [|reflexivity]. exact (sbn_name _ _ _ _ S D).
  - intros x v Ex. specialize (Kd x v Ex). unfold recorded in *. destruct (variable_name (w_names w) x) as [id|] eqn:Q; [|discriminate].
    rewrite (sbn_name _ _ _ _ S Q), SD. exact Kd.
  - intros x t m P l b Ex Ea. rewrite (sbn_env _ _ S W) in Ea. eapply depends_more; [exact MN|]. eapply Fx; eassumption.
Qed.

(** * Completing a rule *)
Lemma meet_all_app : forall a b l, meet_all l (a ++ b) = meet_all (meet_all l a) b.
Proof. intros a b l. unfold meet_all. apply fold_left_app. Qed.

Lemma intern_file_meet : forall n s n' i, intern_file_name n s = (n', i) -> n' = Names (meet (n_files n) s) (n_vars n).
Proof.
  intros n s n' i E. unfold intern_file_name in E. unfold meet. destruct (get_or_intern s (n_files n)) as [l k]. inversion E; reflexivity.
Qed.

Lemma texts_of : forall ts bs, Forall2 (fun t b => block_marks b = t) ts bs -> List.map chars ts = List.map block_text bs.
Proof.
  intros ts bs F. induction F as [|t b ts bs <- _ IH]; [reflexivity|]. cbn. rewrite IH. f_equal. apply block_marks_text.
Qed.

Lemma intern_deps_files : forall bs n acc n' dn, Forall wf_block bs -> intern_deps n bs acc = Ok (n', dn) ->
  n' = Names (meet_all (n_files n) (List.map block_text bs)) (n_vars n).
Proof.
  induction bs as [|b bs IH]; intros n acc n' dn F E; cbn [intern_deps] in E.
  - inversion E; subst. now destruct n'.
  - inversion F as [|x y H1 H2]; subst. rewrite (block_into_string_ok b H1) in E. cbn [bind] in E.
    destruct (intern_file_name n (block_text b)) as [n1 i] eqn:Q. apply intern_file_meet in Q. subst n1.
    apply (IH _ _ _ _ H2) in E. exact E.
Qed.

Lemma targets_files : forall p dn bs n rules n' rules', Forall wf_block bs -> protorule_targets p dn n rules bs = Ok (n', rules') ->
  n' = Names (meet_all (n_files n) (List.map block_text bs)) (n_vars n).
Proof.
  intros p dn. induction bs as [|b bs IH]; intros n rules n' rules' F E; cbn [protorule_targets] in E.
  - inversion E; subst. now destruct n'.
  - inversion F as [|x y H1 H2]; subst. rewrite (block_into_string_ok b H1) in E. cbn [bind] in E.
    destruct (intern_file_name n (block_text b)) as [n1 i] eqn:Q. apply intern_file_meet in Q. subst n1.
    apply (IH _ _ _ _ H2) in E. exact E.
Qed.

Lemma from_protorule_files : forall d n p n' d', Forall wf_block (pr_targets p) -> Forall wf_block (pr_deps p) ->
  from_protorule d n p = Ok (n', d') ->
  n' = Names (meet_all (n_files n) (List.map block_text (pr_deps p) ++ List.map block_text (pr_targets p))) (n_vars n).
Proof.
  intros d n p n' d' T D E. unfold from_protorule in E.
  apply bind2_ok in E as (n1 & dn & E1 & E). apply bind2_ok in E as (n2 & ru & E2 & E). inversion E; subst.
  apply intern_deps_files in E1; [|assumption]. apply targets_files in E2; [|assumption]. subst n1. cbn in E2. rewrite E2.
  rewrite meet_all_app. reflexivity.
Qed.

Lemma mentioned_rep : forall w r p v rv, rule_rep w r p -> view_rep w v rv -> view_rep w (Some (mentioned r v)) (Some (mention p rv)).
Proof.
  intros w r p v rv (_ & D & S & C & T) V. unfold mentioned, mention.
  destruct C as [|t a ts as_ X Y].
  - destruct v as [v|], rv as [rv|]; try contradiction; cbn in V |- *.
    + destruct V as (V1 & V2 & V3 & V4). split; [apply Forall2_app; assumption|]. split; [apply Forall2_app; assumption|auto].
    + split; [assumption|]. split; [assumption|]. split; [constructor|assumption].
  - cbn. split; [assumption|]. split; [assumption|]. split; [constructor; assumption|assumption].
Qed.

Lemma record_rep : forall w r p, rule_rep w r p -> forall ts bs, Forall2 (fun t b => block_marks b = t) ts bs ->
  forall R o, (forall t, view_rep w (R t) (o t)) -> forall t,
  view_rep w (fold_left (fun R t => set R (chars t) (mentioned r (R (chars t)))) ts R t) (iter_mention (mentions t bs) p (o t)).
Proof.
  intros w r p RR ts bs F. induction F as [|x b ts bs M F IH]; intros R o H t; [apply H|].
  cbn [fold_left mentions].
  assert (X : chars x = block_text b) by (rewrite <- M; apply block_marks_text).
  rewrite iter_mention_add.
  set (o' := fun t => iter_mention (if list_eq_dec N.eq_dec (block_text b) t then 1 else 0) p (o t)).
  apply (IH _ o'). intros u. unfold set, o'. rewrite X.
  destruct (list_eq_dec N.eq_dec (block_text b) u) as [<-|N]; [|apply H].
  cbn [iter_mention]. apply mentioned_rep; auto.
Qed.

Lemma close_sim : forall st s w, sim st s w -> world_good w -> state_ok s w ->
  exists s' w', close_rule s w = Ok (s', w') /\ sim (closed st) s' w' /\ ps_rule s' = None /\ ps_define s' = ps_define s /\
    ps_ignoring s' = ps_ignoring s /\ world_good w' /\ (forall x, world_env w' x = world_env w x) /\
    (forall x, variable_name (w_names w') x = variable_name (w_names w) x).
Proof.
  intros st s w [E C I R RS D F K Kd Fx] G SO. unfold close_rule, closed.
  destruct (ps_rule s) as [p|] eqn:P.
  - destruct (m_rule st) as [r|]; [|contradiction].
    pose proof R as (RT & RD & _). destruct (proj1 SO p P) as (WT & WD & _).
    pose proof G as (GO & GR & GA).
    destruct (from_protorule_ok (w_names w) (w_db w) p) as (n' & d' & E1 & G1 & R1 & V1 & T1 & V & _); [split; apply wf_readable; assumption|exact GR|].
    rewrite E1. cbn [bind].
    pose proof (from_protorule_files _ _ _ _ _ WT WD E1) as N1. subst n'.
    assert (EE : forall x, world_env (World (Names (meet_all (n_files (w_names w)) (List.map block_text (pr_deps p) ++ List.map block_text (pr_targets p))) (n_vars (w_names w))) d' (w_cmd w)) x = world_env w x).
    { intros x. unfold world_env, variable_name, get_variable. cbn. rewrite V1. reflexivity. }
    eexists _, _. split; [reflexivity|]. split; [|split; [reflexivity|]; split; [reflexivity|]; split; [reflexivity|]; split].
    + constructor; cbn; auto.
      * eapply env_rep_ext; [exact E|exact EE].
      * intros t. cbn. rewrite V. apply (view_more w); [intros x id Hx; exact Hx|]. apply (record_rep w r p R _ _ RT _ (fun t => option_map view (rule_of (w_names w) (w_db w) t))). exact RS.
      * rewrite F, (texts_of _ _ RT), (texts_of _ _ RD). reflexivity.
      * intros x v Ex. specialize (Kd x v Ex). unfold recorded, variable_name, get_variable in *. cbn. rewrite V1. exact Kd.
      * intros x t m Q l b Ex Ea. rewrite EE in Ea. apply (depends_more w); [intros y id Hy; exact Hy|]. eapply Fx; eassumption.
    + split; [|split; assumption]. intros id v. unfold get_variable. cbn. rewrite V1. apply GO.
    + split; [exact EE|reflexivity].
  - destruct (m_rule st) as [r|] eqn:Q; [contradiction|].
    eexists _, _. split; [reflexivity|]. split; [|split; [reflexivity|]; split; [reflexivity|]; split; [reflexivity|]; split; [exact G|split; reflexivity]].
    constructor; auto. cbn. rewrite Q. exact Logic.I.
Qed.
