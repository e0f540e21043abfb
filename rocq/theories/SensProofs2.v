(** Sensitivities in makefiles written out from statements. *)
From Coq Require Import String.
From Verif Require Import Base LocModel EvdModel AstModel EngineModel EvdSpec DbSpec ParseModel ParseSpec EvalSpec AstParseSpec EngineSpec MakeSpec
  EvdProofs2 ParseProofs EvalProofs4 MakeProofs5 MakeRun WriteSpec WriteProofs WriteProofs2 WriteProofs3 WriteProofs4 WriteProofs5 WriteProofs6 WriteProofs7 ObjectSpec ObjectProofs.
Local Open Scope nat_scope.

(** * The variables that are used determine the text *)
Lemma uses_more : forall E p e x, uses E e x -> uses E (p :: e) x.
Proof. intros E p e x U. inversion U; subst; [eapply US_ref|eapply US_sub|eapply US_value|eapply US_sub_value]; try right; eauto. Qed.
Lemma uses_first : forall E p e x, uses E [p] x -> uses E (p :: e) x.
Proof.
  intros E p e x U. assert (F : forall q, In q [p] -> In q (p :: e)) by (intros q [<-|[]]; now left).
  inversion U; subst; [eapply US_ref|eapply US_sub|eapply US_value|eapply US_sub_value]; eauto.
Qed.
Lemma uses_joined : forall E s s' e x, uses E (Txt (s ++ s') :: e) x -> uses E (Txt s :: Txt s' :: e) x.
Proof.
  intros E s s' e x U. assert (F : forall q, In q (Txt (s ++ s') :: e) -> (forall t, q <> Txt t) -> In q (Txt s :: Txt s' :: e)) by (intros q [<-|I] N; [destruct (N _ eq_refl)|right; now right]).
  inversion U; subst; [eapply US_ref|eapply US_sub|eapply US_value|eapply US_sub_value]; try eassumption; apply F; try eassumption; intros t Q; discriminate Q.
Qed.
Lemma uses_all : forall E E',
  (forall e s, says E e s -> (forall x, uses E e x -> E' x = E x) -> says E' e s) /\
  (forall v s, val_says E v s -> (forall x, val_uses E v x -> E' x = E x) -> val_says E' v s) /\
  (forall e ps, says_in E e ps -> (forall x, uses E e x -> E' x = E x) -> says_in E' e ps) /\
  (forall v ps, val_in E v ps -> (forall x, val_uses E v x -> E' x = E x) -> val_in E' v ps).
Proof.
  intros E E'. apply (says_all E (fun e s _ => (forall x, uses E e x -> E' x = E x) -> says E' e s) (fun v s _ => (forall x, val_uses E v x -> E' x = E x) -> val_says E' v s)
    (fun e ps _ => (forall x, uses E e x -> E' x = E x) -> says_in E' e ps) (fun v ps _ => (forall x, val_uses E v x -> E' x = E x) -> val_in E' v ps)).
  - constructor.
  - intros s e r _ IH H. constructor. apply IH. intros x U. apply H, uses_more, U.
  - intros e r _ IH H. constructor. apply IH. intros x U. apply H, uses_more, U.
  - intros x e r Ex _ IH H. apply SY_none; [rewrite H; [exact Ex|apply US_ref; now left]|]. apply IH. intros y U. apply H, uses_more, U.
  - intros x v s e r Ex _ IHv _ IH H. apply SY_some with v; [rewrite H; [exact Ex|apply US_ref; now left]| |].
    + apply IHv. intros y U. apply H. eapply US_value; [left; reflexivity|exact Ex|exact U].
    + apply IH. intros y U. apply H, uses_more, U.
  - intros x k r e t Ex _ IH H. apply SY_sub_none; [rewrite H; [exact Ex|eapply US_sub; now left]|]. apply IH. intros y U. apply H, uses_more, U.
  - intros x k r v ps m e t Ex _ IHv Su _ IH H. apply SY_sub with v ps; [rewrite H; [exact Ex|eapply US_sub; now left]| |exact Su|].
    + apply IHv. intros y U. apply H. eapply US_sub_value; [left; reflexivity|exact Ex|exact U].
    + apply IH. intros y U. apply H, uses_more, U.
  - intros e s _ IH H. constructor. apply IH. intros x U. apply H. constructor. exact U.
  - constructor.
  - intros v sp v' s s' _ IH _ IH' H. constructor; [apply IH|apply IH']; intros x U; apply H; [apply VU_left|apply VU_right]; exact U.
  - constructor.
  - intros s e ps B _ IH H. apply SI_txt; [exact B|]. apply IH. intros x U. apply H, uses_more, U.
  - intros s s' e ps _ IH H. apply SI_txts. apply IH. intros x U. apply H, uses_joined, U.
  - intros p s e ps B _ IHp _ IH H. apply SI_part; [exact B|apply IHp|apply IH]; intros x U; apply H; [apply uses_first|apply uses_more]; exact U.
  - intros e ps _ IH H. constructor. apply IH. intros x U. apply H. constructor. exact U.
  - constructor.
  - intros v sp v' ps ps' _ IH _ IH' H. constructor; [apply IH|apply IH']; intros x U; apply H; [apply VU_left|apply VU_right]; exact U.
Qed.
Lemma uses_enough : forall E E',
  (forall e s, says E e s -> (forall x, uses E e x -> E' x = E x) -> says E' e s) /\
  (forall v s, val_says E v s -> (forall x, val_uses E v x -> E' x = E x) -> val_says E' v s).
Proof. intros E E'. destruct (uses_all E E') as (A & B & _). auto. Qed.

(** * A rule after other statements *)
Lemma tracked : forall fs ss s, acts_all fs true w_start ss s -> ascii_files fs -> every well_formed ss ->
  exists w, reads_to fs (show_all ss) (Ok (w, MOk)) /\ tracks_state fs s w.
Proof. intros fs ss s Do Af W. destruct (written_tracks fs ss _ s Af W (WR_plain ss) Do) as (w & A & _ & B). eauto. Qed.
Lemma rule_tracked : forall fs ss s t deps d z v, acts_all fs true w_start ss s -> ascii_files fs -> every well_formed ss -> w_deaf s = false ->
  name t -> deps_expr deps -> says (w_env s) deps d -> safe_deps d -> name z -> plain_value v -> w_rules (finish s) t = None ->
  exists w r, reads_to fs (show_all ss ++ t ++ lit ": " ++ show deps ++ nl ++ z ++ lit " = " ++ v ++ nl) (Ok (w, MOk)) /\
    option_map view (rule_of (w_names w) (w_db w) t) = Some r /\ List.map block_text (rv_deps r) = words d /\
    Forall (depends_on w (uses (w_env s) deps)) (rv_deps r).
Proof.
  intros fs ss s t deps d z v Do Af Wf De Nt Dp Sd Sa Nz Vv No.
  assert (Df : w_deaf (finish s) = false) by (unfold finish; destruct (w_open s) as [[]|]; exact De).
  assert (Do2 : acts_all fs true w_start (ss ++ [SRule [t] false deps []; SAssign z OSet [Txt v]]) (assign_to (finish (open_rule (finish s) [t] (rule_with (w_env s) deps d [] false))) z (Later [Txt v]))).
  { eapply acts_app; [exact Do|]. apply AA_cons with (open_rule (finish s) [t] (rule_with (w_env s) deps d [] false)); [apply A_rule; assumption|].
    econstructor; [apply A_assign; [exact Df|apply G_set]|constructor]. }
  destruct (tracked _ _ _ Do2 Af) as (w & Rd & T & _).
  { clear - Wf Nt Dp Nz Vv. induction ss as [|c ss IH].
    - split; [|split; [|exact Logic.I]]; [|split; [exact Nz|apply value_txt; exact Vv]]. split; [apply one_not_nil|]. split; [constructor; [exact Nt|constructor]|]. split; [exact Dp|constructor].
    - destruct Wf as [Wc Wf]. split; [exact Wc|apply IH; exact Wf]. }
  destruct (T t (rule_with (w_env s) deps d [] false)) as (r & Er & Et & Eu & _).
  { cbn. unfold combined. cbn [rule_with wr_recipe]. rewrite No. apply set_same. }
  exists w, r. split; [|split; [exact Er|split; [exact Et|]]].
  - unfold show_all in *. rewrite map_app, concat_app in Rd. cbn [List.map concat show_stmt join] in Rd. rewrite show_txt, !app_nil_r, <- !app_assoc in Rd. exact Rd.
  - clear - Eu. cbn in Eu. revert Eu. generalize (rv_deps r). induction (words d) as [|x l IH]; intros bs F; inversion F; subst; constructor; auto.
Qed.

(** Tools for the consequences. *)
Lemma deps_ref : forall x, name x -> deps_expr [Ref x].
Proof. intros x N. split; [constructor; [exact N|constructor]|]. cbn. intros k r I E. cbn in I. repeat (destruct I as [<-|I]; [discriminate E|]). destruct I. Qed.
Lemma value_ref : forall x, name x -> value_expr [Ref x].
Proof. intros x N. apply WriteProofs2.ordinary_value; [constructor; [exact N|constructor]|cbn; discriminate]. Qed.
Lemma says_ref : forall E x v s, E x = Some v -> val_says E v s -> says E [Ref x] s.
Proof. intros E x v s Ex V. rewrite <- (app_nil_r s). eapply SY_some; [exact Ex|exact V|constructor]. Qed.
Lemma file_value : forall a, file_name a -> plain_value a.
Proof. intros a F. apply (files_value [a]). constructor; [exact F|constructor]. Qed.
Lemma file_safe : forall a, file_name a -> safe_deps a.
Proof. intros a F. apply (files_safe [a]). constructor; [exact F|constructor]. Qed.
Lemma file_word : forall a, file_name a -> words a = [a].
Proof. intros a F. apply (file_words [a]). constructor; [exact F|constructor]. Qed.
Lemma uses_ref : forall E y x, uses E [Ref y] x <-> x = y \/ exists v, E y = Some v /\ val_uses E v x.
Proof.
  intros E y x. split.
  - intros U. inversion U as [? ? I|? ? ? ? I|? ? v ? I Ev V|? ? ? ? v ? I Ev V]; subst; destruct I as [I|[]]; try discriminate; injection I as <-; eauto.
  - intros [->|(v & Ev & V)]; [apply US_ref; now left|eapply US_value; [now left|exact Ev|exact V]].
Qed.
Lemma uses_txt : forall E a x, ~ uses E [Txt a] x.
Proof. intros E a x U. inversion U as [? ? I|? ? ? ? I|? ? v ? I Ev V|? ? ? ? v ? I Ev V]; subst; destruct I as [I|[]]; discriminate. Qed.
Lemma depends_iff : forall w P Q bs, (forall x, Q x <-> P x) -> Forall (depends_on w P) bs -> Forall (depends_on w Q) bs.
Proof. intros w P Q bs H F. eapply Forall_impl; [|exact F]. intros b. apply depends_same. exact H. Qed.

Section Chain.
Variables (fs : str -> file) (x y t a z v : str).
Hypotheses (Af : ascii_files fs) (Nx : name x) (Ny : name y) (D : x <> y) (Nt : name t) (Fa : file_name a) (Nz : name z) (Vv : plain_value v).
(** `x = a`, `y = $(x)`, `t: $(y)`: the dependency names both variables. *)
Lemma chain_tracked : exists w r, reads_to fs (x ++ lit " = " ++ a ++ nl ++ y ++ lit " = $(" ++ x ++ lit ")" ++ nl ++ t ++ lit ": $(" ++ y ++ lit ")" ++ nl ++ z ++ lit " = " ++ v ++ nl) (Ok (w, MOk)) /\
  option_map view (rule_of (w_names w) (w_db w) t) = Some r /\ List.map block_text (rv_deps r) = [a] /\ Forall (depends_on w (fun n => n = x \/ n = y)) (rv_deps r).
Proof.
  eassert (Do : acts_all fs true w_start [SAssign x OSet [Txt a]; SAssign y OSet [Ref x]] _).
  { econstructor; [apply A_assign; [reflexivity|apply G_set]|]. econstructor; [apply A_assign; [reflexivity|apply G_set]|constructor]. }
  destruct (rule_tracked fs _ _ t [Ref y] a z v Do Af (conj (conj Nx (value_txt _ (file_value _ Fa))) (conj (conj Ny (value_ref _ Nx)) Logic.I)) eq_refl Nt (deps_ref _ Ny)) as (w & r & Rd & Er & Ew & Es);
    [|apply file_safe; exact Fa|exact Nz|exact Vv|reflexivity|].
  { eapply says_ref; [apply set_same|]. constructor. eapply says_ref; [cbn; rewrite set_other by congruence; apply set_same|]. constructor. apply says_txt. }
  exists w, r. split; [|split; [exact Er|split; [rewrite Ew; apply file_word; exact Fa|]]].
  - unfold show_all in Rd. cbn [List.map concat show_stmt] in Rd. unfold show in Rd. cbn [List.map concat show_part] in Rd. rewrite !app_nil_r, <- !app_assoc in Rd. exact Rd.
  - eapply depends_iff; [|exact Es]. intros n. rewrite uses_ref. split.
    + intros [->| ->]; [right|now left]. eexists. split; [apply set_same|]. constructor. apply US_ref. now left.
    + intros [->|(u & Eu & V)]; [now right|]. cbn in Eu. rewrite set_same in Eu. injection Eu as <-. inversion V as [? ? U| |]; subst. apply uses_ref in U as [->|(u & Eu & V')]; [now left|].
      cbn in Eu. rewrite set_other, set_same in Eu by congruence. injection Eu as <-. inversion V' as [? ? U| |]; subst. destruct (uses_txt _ _ _ U).
Qed.
(** With `:=` it names only the second. *)
Lemma chain_forgets : exists w r, reads_to fs (x ++ lit " = " ++ a ++ nl ++ y ++ lit " := $(" ++ x ++ lit ")" ++ nl ++ t ++ lit ": $(" ++ y ++ lit ")" ++ nl ++ z ++ lit " = " ++ v ++ nl) (Ok (w, MOk)) /\
  option_map view (rule_of (w_names w) (w_db w) t) = Some r /\ List.map block_text (rv_deps r) = [a] /\ Forall (depends_on w (fun n => n = y)) (rv_deps r).
Proof.
  eassert (Do : acts_all fs true w_start [SAssign x OSet [Txt a]; SAssign y ONow [Ref x]] _).
  { econstructor; [apply A_assign; [reflexivity|apply G_set]|]. econstructor; [apply A_assign; [reflexivity|apply G_now; [discriminate|]]|constructor].
    apply (SI_part _ (Ref x) a [] []); [reflexivity| |constructor]. eapply says_ref; [apply set_same|]. constructor. apply says_txt. }
  destruct (rule_tracked fs _ _ t [Ref y] a z v Do Af (conj (conj Nx (value_txt _ (file_value _ Fa))) (conj (conj Ny (value_ref _ Nx)) Logic.I)) eq_refl Nt (deps_ref _ Ny)) as (w & r & Rd & Er & Ew & Es);
    [|apply file_safe; exact Fa|exact Nz|exact Vv|reflexivity|].
  { eapply says_ref; [apply set_same|]. match goal with |- val_says ?E _ _ => pose proof (VS_now E [a]) as Va end. cbn [concat] in Va. rewrite app_nil_r in Va. exact Va. }
  exists w, r. split; [|split; [exact Er|split; [rewrite Ew; apply file_word; exact Fa|]]].
  - unfold show_all in Rd. cbn [List.map concat show_stmt] in Rd. unfold show in Rd. cbn [List.map concat show_part] in Rd. rewrite !app_nil_r, <- !app_assoc in Rd. exact Rd.
  - eapply depends_iff; [|exact Es]. intros n. rewrite uses_ref. split.
    + intros ->. now left.
    + intros [->|(u & Eu & V)]; [reflexivity|]. cbn in Eu. rewrite set_same in Eu. injection Eu as <-. inversion V.
Qed.
(** `x = y`, `$(x) = a`, `t: $(y)`: the dependency names only the second. *)
Lemma name_forgotten : exists w r, reads_to fs (x ++ lit " = " ++ y ++ nl ++ lit "$(" ++ x ++ lit ") = " ++ a ++ nl ++ t ++ lit ": $(" ++ y ++ lit ")" ++ nl ++ z ++ lit " = " ++ v ++ nl) (Ok (w, MOk)) /\
  option_map view (rule_of (w_names w) (w_db w) t) = Some r /\ List.map block_text (rv_deps r) = [a] /\ Forall (depends_on w (fun n => n = y)) (rv_deps r).
Proof.
  assert (Fy : file_name y) by (destruct Ny as (A & B & _); split; assumption).
  assert (Cx : computed [Ref x]).
  { split; [constructor; [exact Nx|constructor]|]. split; [discriminate|]. apply (deps_ref x Nx). }
  eassert (Do : acts_all fs true w_start [SAssign x OSet [Txt y]; SAssignTo [Ref x] OSet [Txt a]] _).
  { econstructor; [apply A_assign; [reflexivity|apply G_set]|]. econstructor; [eapply (A_assign_to fs _ _ [Ref x] OSet [Txt a] y); [reflexivity| |apply G_set]|constructor].
    eapply says_ref; [apply set_same|constructor; apply says_txt]. }
  rewrite (trim_name y Ny) in Do.
  destruct (rule_tracked fs _ _ t [Ref y] a z v Do Af (conj (conj Nx (value_txt _ (file_value _ Fy))) (conj (conj Cx (value_txt _ (file_value _ Fa))) Logic.I)) eq_refl Nt (deps_ref _ Ny)) as (w & r & Rd & Er & Ew & Es);
    [|apply file_safe; exact Fa|exact Nz|exact Vv|reflexivity|].
  { eapply says_ref; [apply set_same|]. constructor. apply says_txt. }
  exists w, r. split; [|split; [exact Er|split; [rewrite Ew; apply file_word; exact Fa|]]].
  - unfold show_all in Rd. cbn [List.map concat show_stmt] in Rd. unfold show in Rd. cbn [List.map concat show_part] in Rd. rewrite !app_nil_r, <- !app_assoc in Rd. exact Rd.
  - eapply depends_iff; [|exact Es]. intros n. rewrite uses_ref. split.
    + intros ->. now left.
    + intros [->|(u & Eu & V)]; [reflexivity|]. cbn in Eu. rewrite set_same in Eu. injection Eu as <-. inversion V as [? ? U| |]; subst. destruct (uses_txt _ _ _ U).
Qed.
(** `x = a`, `ifeq ($(x),a)`, `t: y`, `endif`: the dependency names no variable. *)
Lemma condition_forgotten : exists w r, reads_to fs (x ++ lit " = " ++ a ++ nl ++ lit "ifeq ($(" ++ x ++ lit ")," ++ a ++ lit ")" ++ nl ++ t ++ lit ": " ++ y ++ nl ++ lit "endif" ++ nl ++ z ++ lit " = " ++ v ++ nl) (Ok (w, MOk)) /\
  option_map view (rule_of (w_names w) (w_db w) t) = Some r /\ List.map block_text (rv_deps r) = [y] /\ Forall (fun b => b_sens b = []) (rv_deps r).
Proof.
  clear D.
  assert (Ca : condition_expr [Txt a]).
  { destruct (files_ordinary [a] (Forall_cons _ Fa (Forall_nil _))) as [_ B]. cbn [join] in B. split; [apply made_txt|rewrite show_txt; exact B]. destruct Fa as [_ F]. eapply Forall_impl; [|exact F]. intros c W. unfold word_char in W. split; [split; [lia|cbn; lia]|cbn; lia]. }
  assert (Cx : condition_expr [Ref x]) by (split; [constructor; [exact Nx|constructor]|cbn; discriminate]).
  assert (Fy : file_name y) by (destruct Ny as (A & B & _); split; assumption).
  assert (Dy : deps_expr [Txt y]).
  { split; [apply made_txt; eapply Forall_impl; [|apply Fy]; intros c W; now left|]. rewrite show_txt.
    replace (trim_start y) with y; [apply Ny|]. destruct Fy as [N F]. destruct y as [|c l]; [reflexivity|]. inversion F as [|? ? W _]; subst. cbn [trim_start].
    replace (is_whitespace c) with false; [reflexivity|]. symmetry. apply word_facts in W. tauto. }
  eassert (Do : acts_all fs true w_start [SAssign x OSet [Txt a]; SIf (Parens false) [Ref x] [Txt a] [SRule [t] false [Txt y] []] None; SAssign z OSet [Txt v]] _).
  { econstructor; [apply A_assign; [reflexivity|apply G_set]|]. econstructor.
    - eapply A_if with (m := a) (m' := a); [eapply says_ref; [apply set_same|constructor; apply says_txt]|apply says_txt|].
      replace (holds (Parens false) a a) with true; [|unfold holds; destruct (list_eq_dec N.eq_dec (trim a) (trim a)); [reflexivity|contradiction]].
      econstructor; [apply (A_rule fs _ _ _ _ _ _ y); [reflexivity|apply says_txt|apply file_safe; exact Fy]|constructor].
    - econstructor; [apply A_assign; [reflexivity|apply G_set]|constructor]. }
  destruct (tracked _ _ _ Do Af) as (w & Rd & T & _).
  { split; [split; [exact Nx|apply value_txt, file_value; exact Fa]|]. split; [|split; [split; [exact Nz|apply value_txt; exact Vv]|exact Logic.I]].
    split; [split; [exact Cx|exact Ca]|]. split; [|exact Logic.I]. split; [|exact Logic.I]. split; [apply one_not_nil|]. split; [constructor; [exact Nt|constructor]|]. split; [exact Dy|constructor]. }
  destruct (T t (rule_with (set (fun _ => None) x (Later [Txt a])) [Txt y] y [] false)) as (r & Er & Et & Eu & _).
  { cbn. unfold combined. cbn. apply set_same. }
  exists w, r. split; [|split; [exact Er|split; [rewrite Et; cbn; apply file_word; exact Fy|]]].
  - unfold show_all in Rd. cbn [List.map concat show_stmt if_text] in Rd. unfold show in Rd. cbn [List.map concat show_part join] in Rd. rewrite !app_nil_r, <- !app_assoc in Rd. exact Rd.
  - cbn in Eu. clear - Eu. revert Eu. generalize (rv_deps r). induction (words y) as [|q l IH]; intros bs F; inversion F as [|? b ? ? H]; subst; constructor; auto.
    destruct H as [_ H]. destruct (b_sens b) as [|id rest]; [reflexivity|]. destruct (H id (or_introl eq_refl)) as (n & U & _). destruct (uses_txt _ _ _ U).
Qed.
(** `x = a`, `$(x): y`: the dependency of the target [a] names no variable. *)
Lemma target_forgotten : exists w r, reads_to fs (x ++ lit " = " ++ a ++ nl ++ lit "$(" ++ x ++ lit "): " ++ y ++ nl ++ z ++ lit " = " ++ v ++ nl) (Ok (w, MOk)) /\
  option_map view (rule_of (w_names w) (w_db w) a) = Some r /\ List.map block_text (rv_deps r) = [y] /\ Forall (fun b => b_sens b = []) (rv_deps r).
Proof.
  clear D Nt t.
  assert (Fy : file_name y) by (destruct Ny as (A & B & _); split; assumption).
  assert (Dy : deps_expr [Txt y]).
  { split; [apply made_txt; eapply Forall_impl; [|apply Fy]; intros c W; now left|]. rewrite show_txt.
    replace (trim_start y) with y; [apply Ny|]. destruct Fy as [N F]. destruct y as [|c l]; [reflexivity|]. inversion F as [|? ? W _]; subst. cbn [trim_start].
    replace (is_whitespace c) with false; [reflexivity|]. symmetry. apply word_facts in W. tauto. }
  assert (Cx : computed [Ref x]).
  { split; [constructor; [exact Nx|constructor]|]. split; [discriminate|]. apply (deps_ref x Nx). }
  eassert (Do : acts_all fs true w_start [SAssign x OSet [Txt a]; SRuleFor [[Ref x]] false [Txt y] None []; SAssign z OSet [Txt v]] _).
  { econstructor; [apply A_assign; [reflexivity|apply G_set]|]. econstructor.
    - apply (A_rule_for fs _ _ [[Ref x]] false [Txt y] None [] [a] y); [reflexivity| |exact Logic.I| |apply says_txt|apply file_safe; exact Fy].
      + constructor; [|constructor]. eapply says_ref; [apply set_same|constructor; apply says_txt].
      + constructor; [apply file_safe; exact Fa|constructor].
    - econstructor; [apply A_assign; [reflexivity|apply G_set]|constructor]. }
  destruct (tracked _ _ _ Do Af) as (w & Rd & T & _).
  { split; [split; [exact Nx|apply value_txt, file_value; exact Fa]|]. split; [|split; [split; [exact Nz|apply value_txt; exact Vv]|exact Logic.I]].
    split; [apply one_not_nil|]. split; [constructor; [exact Cx|constructor]|]. split; [exact Dy|split; constructor]. }
  destruct (T a (rule_with (set (fun _ => None) x (Later [Txt a])) [Txt y] y [] false)) as (r & Er & Et & Eu & _).
  { cbn. rewrite (file_word a Fa). cbn. unfold combined. cbn. apply set_same. }
  exists w, r. split; [|split; [exact Er|split; [rewrite Et; cbn; apply file_word; exact Fy|]]].
  - unfold show_all in Rd. cbn [List.map concat show_stmt] in Rd. unfold show in Rd. cbn [List.map concat show_part join] in Rd. rewrite !app_nil_r, <- !app_assoc in Rd. exact Rd.
  - cbn in Eu. clear - Eu. revert Eu. generalize (rv_deps r). induction (words y) as [|q l IH]; intros bs F; inversion F as [|? b ? ? H]; subst; constructor; auto.
    destruct H as [_ H]. destruct (b_sens b) as [|id rest]; [reflexivity|]. destruct (H id (or_introl eq_refl)) as (n & U & _). destruct (uses_txt _ _ _ U).
Qed.
End Chain.
