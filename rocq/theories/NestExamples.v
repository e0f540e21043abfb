(** Evaluated text: consequences and examples. *)
From Coq Require Import String.
From Verif Require Import Base LocModel EvdModel AstModel EngineModel EvdSpec DbSpec ParseModel ParseSpec EvalSpec AstParseSpec EngineSpec MakeSpec
  ModelTests EvdProofs2 ParseProofs FuelProofs EvalProofs4 EngineExamples WriteSpec WriteProofs5 WriteProofs6 WriteProofs7 WriteProofs8 WriteExamples.
Local Open Scope nat_scope.

Definition eval_value (v : str) : Prop := Forall (fun c => ordinary c /\ ~ In c [40; 41; 59]%N) v /\ not_blank_first v.
Lemma eval_assign_acts : forall fs live s x o e s', acts fs live s (SAssign x o e) s' -> acts fs live s (SEval (SAssign x o e)) s'.
Proof.
  intros fs live s x o e s' A. inversion A as [|? ? ? ? D I|? ? ? ? ? v D G| | | | | | | | | |]; subst.
  - inversion I; subst. apply A_ignored; [exact D|constructor].
  - replace (assign_to (finish s) x v) with (finish (WState (w_env (assign_to (finish (begun s)) x v)) (w_open s) (w_rules (assign_to (finish (begun s)) x v)) false)).
    + apply A_eval; [exact D|]. apply A_assign; [reflexivity|exact G].
    + destruct s as [en [[ts r]|] ru de]; cbn in D; subst de; reflexivity.
Qed.
Lemma acts_parts : forall fs live cs ds s s2, acts_all fs live s (cs ++ ds) s2 -> exists s1, acts_all fs live s cs s1 /\ acts_all fs live s1 ds s2.
Proof.
  intros fs live. induction cs as [|c cs IH]; intros ds s s2 A; [exists s; split; [constructor|exact A]|]. inversion A as [|? ? ? s0 ? ? B C]; subst.
  destruct (IH _ _ _ C) as (s1 & D & E). exists s1. split; [econstructor; eauto|exact E].
Qed.
Lemma eval_like_line : forall fs p x o v q s, ascii_files fs -> every well_formed (p ++ q) -> name x -> eval_value v ->
  acts_all fs true w_start (p ++ SAssign x o [Txt v] :: q) s ->
  exists w, reads_to fs (show_all p ++ (lit "$(eval " ++ x ++ show_op o ++ v ++ lit ")" ++ nl) ++ show_all q) (Ok (w, MOk)) /\ shows_state fs s w.
Proof.
  intros fs p x o v q s Af W N [V B] A. apply acts_parts in A as (s1 & A1 & A2). inversion A2 as [|? ? ? s2 ? ? A3 A4]; subst.
  assert (Do : acts_all fs true w_start (p ++ SEval (SAssign x o [Txt v]) :: q) s).
  { eapply acts_app; [exact A1|]. econstructor; [apply eval_assign_acts; exact A3|exact A4]. }
  apply every_app in W as [W1 W2].
  destruct (exactly _ _ _ Do Af) as (w & R & S).
  { apply every_app. split; [exact W1|]. split; [split; [exact N|split; [exact V|exact B]]|exact W2]. }
  exists w. split; [|exact S]. rewrite show_app in R. unfold show_all at 2 in R. cbn [List.map concat show_stmt] in R. rewrite show_txt in R.
  replace (removelast (x ++ show_op o ++ v ++ nl)) with (x ++ show_op o ++ v) in R by (rewrite !app_assoc; symmetry; apply removelast_last).
  rewrite <- !app_assoc in R. rewrite <- !app_assoc. exact R.
Qed.
Lemma like_line_case : every well_formed (statements ++ calm_statements) /\ name (lit "x") /\ eval_value (lit "1, 2 = 3") /\
  exists s v, acts_all no_files true w_start ([SAssign (lit "x") OSet [t_ "0"]; SRule [lit "t"] false [t_ "d"] []] ++ SAssign (lit "x") OMore [t_ "1, 2 = 3"] :: [SAssign (lit "y") ONow [r_ "x"]]) s /\
    w_env s (lit "y") = Some v /\ val_says (w_env s) v (lit "0 1, 2 = 3") /\ rule_is s (lit "t") [lit "d"] [] false.
Proof.
  split; [is_formed|]. split; [is_name|]. split; [split; [eapply forallb_all; [exact evalb_ok|vm_compute; reflexivity]|discriminate]|].
  eexists. eexists. split.
  { eapply AA_cons; [eapply A_assign; [reflexivity|apply G_set]|].
    eapply AA_cons; [eapply A_rule; [reflexivity|speaks|]|].
    { intros c I Z. destruct I as [<-|[]]. cbn in Z. lia. }
    eapply AA_cons; [eapply A_assign; [reflexivity|eapply G_more; reflexivity]|].
    eapply AA_cons; [eapply A_assign; [reflexivity|apply G_now; [discriminate|speaks]]|]. apply AA_nil. }
  split; [reflexivity|]. split; [|eexists; vm_compute; reflexivity].
  assert (V : forall E v s s', s = s' -> val_says E v s -> val_says E v s') by (intros E v s s' <-; auto). eapply V; [|speaks]. vm_compute. reflexivity.
Qed.

(** A rule in evaluated text is lost. *)
Lemma eval_rule_lost : forall fs ts deps (double : bool) z v, ascii_files fs -> ts <> [] -> Forall name ts -> Forall name deps -> name z -> plain_value v ->
  exists w, reads_to fs (lit "$(eval " ++ join c_space ts ++ lit (if double then ":: " else ": ") ++ join c_space deps ++ lit ")" ++ nl ++ z ++ lit " = " ++ v ++ nl) (Ok (w, MOk)) /\
    has_value fs w z v /\ (forall y, y <> z -> undefined w y) /\ forall t, rule_of (w_names w) (w_db w) t = None.
Proof.
  intros fs ts deps double z v Af NE F Fd Nz V.
  assert (Jd : Forall (fun c => word_char c \/ c = c_space) (join c_space deps)) by (apply WriteProofs3.join_forall; auto).
  assert (De : deps_expr [Txt (join c_space deps)]).
  { split; [apply made_txt; exact Jd|]. rewrite show_txt. destruct deps as [|d ds].
    - intros k r I E. cbn in I. repeat (destruct I as [<-|I]; [discriminate|]). destruct I.
    - assert (NE' : d :: ds <> []) by discriminate. pose proof (WriteProofs3.join_unreserved_end _ NE' Fd) as Ud.
      destruct (WriteProofs3.join_first _ NE' Fd) as (c & l & E & W & _). rewrite E. cbn [trim_start]. apply WriteProofs.word_facts in W as (_ & -> & _). rewrite <- E. exact Ud. }
  eassert (Do : acts_all fs true w_start [SEval (SRule ts double [Txt (join c_space deps)] []); SAssign z OSet [Txt v]] _).
  { econstructor; [eapply A_eval; [reflexivity|]; eapply A_rule; [reflexivity|apply says_txt|]|].
    - intros c I Q. rewrite Forall_forall in Jd. destruct (Jd c I) as [W| ->]; [apply WriteProofs.word_facts in W as (_ & _ & G & _); apply G; cbn in Q |- *; tauto|]. cbn in Q. unfold c_space in Q. lia.
    - econstructor; [apply A_assign; [reflexivity|apply G_set]|]. constructor. }
  destruct (exactly _ _ _ Do Af) as (w & R & U & Va & Ru).
  { split; [split; [exact NE|split; [exact F|exact De]]|]. split; [split; [exact Nz|apply value_txt; exact V]|exact Logic.I]. }
  exists w. split; [|split; [|split]].
  - unfold show_all in R. cbn [List.map concat show_stmt] in R. rewrite !show_txt, !app_nil_r in R.
    replace (removelast (join c_space ts ++ lit (if double then ":: " else ": ") ++ join c_space deps ++ nl)) with (join c_space ts ++ lit (if double then ":: " else ": ") ++ join c_space deps) in R
      by (rewrite !app_assoc; symmetry; apply removelast_last).
    rewrite <- !app_assoc in R. exact R.
  - eapply Va; [apply set_same|]. constructor. apply says_txt.
  - intros y Ny. apply U. cbn. rewrite set_other by congruence. reflexivity.
  - intros t. specialize (Ru t). cbn in Ru. destruct (rule_of _ _ t); [destruct Ru|reflexivity].
Qed.
Lemma rule_lost_case : [lit "a"; lit "b"] <> [] /\ Forall name [lit "a"; lit "b"] /\ Forall name [lit "c.o"] /\ name (lit "z") /\ plain_value (lit "1").
Proof. split; [discriminate|]. split; [is_names|]. split; [is_names|]. split; [is_name|]. is_plain. Qed.

(** Text from a variable, whole and in parts. *)
Lemma ex_eval_variable : exists w, reads_to no_files (mk "Y = X = 7~$(eval $(Y))~Z = $(X)~") (Ok (w, MOk)) /\ has_value no_files w (lit "X") (lit "7") /\ has_value no_files w (lit "Z") (lit "7").
Proof. eexists. split; [by_run|]. split; by_value. Qed.
Lemma ex_eval_define : exists w, reads_to no_files (mk "define Y~X := 7~endef~$(eval $(Y))~") (Ok (w, MOk)) /\ has_value no_files w (lit "X") (lit "7").
Proof. eexists. split; [by_run|by_value]. Qed.
Lemma ex_eval_now : reads_to no_files (mk "Y = b~$(eval X := $(Y))~") Panic.
Proof. by_run. Qed.
Lemma ex_eval_later : reads_to no_files (mk "Y = b~$(eval X = $$(Y))~") Panic.
Proof. by_run. Qed.
Lemma ex_eval_lines : reads_to no_files (mk "define Y~X = 7~W = 8~endef~$(eval $(Y))~") Panic.
Proof. by_run. Qed.
