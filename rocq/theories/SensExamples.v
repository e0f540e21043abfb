(** Concrete cases for the theorems about sensitivities. *)
From Coq Require Import String.
From Verif Require Import Base LocModel EvdModel AstModel EngineModel ParseModel ModelTests EvdSpec DbSpec ParseSpec EvalSpec EngineSpec MakeSpec WriteSpec
  EngineExamples WriteProofs6 WriteProofs7 ObjectSpec ObjectProofs WriteExamples SensProofs2.
Open Scope string_scope.
Open Scope list_scope.

Definition flags : list stmt :=
  [SAssign (lit "base") OSet [t_ "a.c"];
   SAssign (lit "more") ONow [r_ "base"; t_ " b.c"];
   SAssign (lit "srcs") OSet [r_ "base"; t_ " "; r_ "more"];
   SAssign (lit "srcs") OMore [r_ "extra"]].
Lemma flags_case : every well_formed flags /\ deps_expr [t_ "x "; r_ "srcs"] /\ exists s, acts_all no_files true w_start flags s /\ w_deaf s = false /\
  says (w_env s) [t_ "x "; r_ "srcs"] (lit "x a.c a.c b.c ") /\ safe_deps (lit "x a.c a.c b.c ") /\ w_rules (finish s) (lit "t") = None /\
  forall n, uses (w_env s) [t_ "x "; r_ "srcs"] n <-> In n [lit "srcs"; lit "base"; lit "more"; lit "extra"].
Proof.
  split; [is_formed|]. split; [is_deps|]. eexists. split.
  { unfold flags. eapply AA_cons; [eapply A_assign; [reflexivity|apply G_set]|].
    eapply AA_cons; [eapply A_assign; [reflexivity|apply G_now; [discriminate|speaks]]|].
    eapply AA_cons; [eapply A_assign; [reflexivity|apply G_set]|].
    eapply AA_cons; [eapply A_assign; [reflexivity|eapply G_more; reflexivity]|]. apply AA_nil. }
  assert (V' : forall E e s s', s = s' -> says E e s -> says E e s') by (intros E e s s' <-; auto).
  split; [reflexivity|]. split; [eapply V'; [|speaks]; vm_compute; reflexivity|]. split.
  { intros c I. cbn in I. intros Z. cbn in Z. repeat (destruct I as [<-|I]; [lia|]). destruct I. }
  split; [reflexivity|].
  set (E := w_env _). assert (E1 : E (lit "srcs") = Some (Plus (Later [r_ "base"; t_ " "; r_ "more"]) true (Later [r_ "extra"]))) by reflexivity.
  assert (E2 : E (lit "base") = Some (Later [t_ "a.c"])) by reflexivity.
  assert (E3 : exists ps, E (lit "more") = Some (Now ps)) by (eexists; reflexivity).
  assert (E4 : E (lit "extra") = None) by reflexivity.
  assert (None_txt : forall n, ~ val_uses E (Later [t_ "a.c"]) n) by (intros n H; inversion H; subst; eapply uses_txt; eassumption).
  clearbody E. intros n. split.
  - intros U.
    assert (Base : forall e n, In (r_ "base") e -> uses E e n -> (forall p, In p e -> p = r_ "base" \/ p = r_ "more" \/ exists s, p = Txt s) -> n = lit "base" \/ n = lit "more").
    { intros e m Ib Um Al. destruct E3 as (ps & E3). inversion Um as [? ? I|? ? ? ? I|? y v ? I Ev V|? y ? ? v ? I Ev V]; subst; destruct (Al _ I) as [Q|[Q|[q Q]]]; try discriminate Q; injection Q as ->; auto.
      - change (E (lit "base") = Some v) in Ev. rewrite E2 in Ev. injection Ev as <-. destruct (None_txt _ V).
      - change (E (lit "more") = Some v) in Ev. rewrite E3 in Ev. injection Ev as <-. inversion V. }
    inversion U as [? ? I|? ? ? ? I|? y v ? I Ev V|? y ? ? v ? I Ev V]; subst; destruct I as [I|[I|[]]]; try discriminate; injection I as <-; [now left|].
    change (E (lit "srcs") = Some v) in Ev. rewrite E1 in Ev. injection Ev as <-.
    inversion V as [|? ? ? ? V1|? ? ? ? V1]; subst; inversion V1 as [? ? U1| |]; subst.
    + apply Base in U1; [destruct U1 as [->| ->]; cbn; tauto|now left|]. intros p [<-|[<-|[<-|[]]]]; [now left|right; right; eexists; reflexivity|right; now left].
    + inversion U1 as [? ? I|? ? ? ? I|? y v ? I Ev V2|? y ? ? v ? I Ev V2]; subst; destruct I as [I|[]]; try discriminate; injection I as <-; [cbn; auto|]. change (E (lit "extra") = Some v) in Ev. rewrite E4 in Ev. discriminate.
  - intros I. cbn in I. destruct I as [<-|[<-|[<-|[<-|[]]]]].
    + apply US_ref. cbn. auto.
    + eapply US_value; [right; left; reflexivity|exact E1|]. apply VU_left, VU_later, US_ref. cbn. auto.
    + eapply US_value; [right; left; reflexivity|exact E1|]. apply VU_left, VU_later, US_ref. cbn. auto.
    + eapply US_value; [right; left; reflexivity|exact E1|]. apply VU_right, VU_later, US_ref. cbn. auto.
Qed.
Lemma chain_case : name (lit "CC") /\ name (lit "tool") /\ lit "CC" <> lit "tool" /\ name (lit "prog") /\ file_name (lit "bin/gcc") /\ name (lit "z") /\ plain_value (lit "1").
Proof.
  split; [is_name|]. split; [is_name|]. split; [discriminate|]. split; [is_name|]. split; [split; [discriminate|repeat (apply Forall_cons; [unfold word_char; cbn; lia|]); apply Forall_nil]|].
  split; [is_name|]. apply file_value. split; [discriminate|]. apply Forall_cons; [unfold word_char; cbn; lia|apply Forall_nil].
Qed.
(** The variables that are used cannot be left out: with another value for one of them, the text changes. *)
Lemma used_matters : forall E x e a b, ~ In (Ref x) e -> (forall k r, ~ In (Sub x k r) e) -> unreplaced e -> concat a <> concat b -> (forall y v, In (Ref y) e -> E y = Some v -> exists ps, v = Now ps) ->
  forall s s', says (set E x (Now a)) (Ref x :: e) s -> says (set E x (Now b)) (Ref x :: e) s' -> s <> s'.
Proof.
  intros E x e a b N1 N2 Un D Cl s s' H H'.
  assert (G : forall e, ~ In (Ref x) e -> unreplaced e -> (forall y v, In (Ref y) e -> E y = Some v -> exists ps, v = Now ps) ->
    forall a b s s', says (set E x (Now a)) e s -> says (set E x (Now b)) e s' -> s = s').
  { clear. induction e as [|p e IH]; intros N Un Cl a b s s' H H'; [inversion H; inversion H'; reflexivity|].
    inversion Un as [|? ? Up Un']; subst.
    assert (IH' : forall s s', says (set E x (Now a)) e s -> says (set E x (Now b)) e s' -> s = s').
    { apply IH; [intros I; apply N; now right|exact Un'|intros y v I; apply Cl; now right]. }
    destruct p as [q|y| |]; [| | |destruct Up].
    - inversion H; inversion H'; subst. f_equal. auto.
    - assert (Dy : x <> y) by (intros ->; apply N; now left).
      inversion H as [| | |? ? ? Ey Hs|? v ? ? ? Ey Hv Hs| |]; inversion H' as [| | |? ? ? Ey' Hs'|? v' ? ? ? Ey' Hv' Hs'| |]; subst; rewrite set_other in Ey, Ey' by exact Dy; try congruence; [auto|].
      rewrite Ey in Ey'. injection Ey' as <-. destruct (Cl y v (or_introl eq_refl) Ey) as (ps & ->). inversion Hv; inversion Hv'; subst. f_equal. auto.
    - inversion H; inversion H'; subst. f_equal. auto. }
  inversion H as [| | |? ? ? Ey Hs|? v ? ? ? Ey Hv Hs| |]; inversion H' as [| | |? ? ? Ey' Hs'|? v' ? ? ? Ey' Hv' Hs'| |]; subst; rewrite set_same in Ey, Ey'; try discriminate.
  injection Ey as <-. injection Ey' as <-. inversion Hv; inversion Hv'; subst. intros Q. pose proof (G e N1 Un Cl _ _ _ _ Hs Hs') as ->. apply app_inv_tail in Q. contradiction.
Qed.
