(** Several makefiles, one after the other: examples. *)
From Coq Require Import String.
From Verif Require Import Base LocModel EvdModel AstModel EngineModel EvdSpec DbSpec ParseModel ParseSpec EvalSpec AstParseSpec EngineSpec MakeSpec
  ModelTests FuelProofs EngineExamples WriteSpec StopSpec SessionSpec WriteProofs7 WriteExamples SessionProofs.
Local Open Scope nat_scope.

Definition first_mk : list stmt := [SRule [lit "a"] false [t_ "b"] [[t_ "cc b"]]; SAssign (lit "x") OSet [t_ "1"; r_ "y"]].
Definition second_mk : list stmt := [SAssign (lit "y") ONow [t_ "2"]; SAssign (lit "x") OMore [t_ "3"]; SRule [lit "a"] false [t_ "c"] []].
Definition some_calls : list call := [(lit "a.mk", inr (show_all first_mk)); (lit "b.mk", inl 5%N); (lit "c.mk", inr (show_all second_mk))].
Lemma calls_case : exists s v, reads_in no_files w_start some_calls [MOk; MIOError 5; MOk] s /\ w_env s (lit "x") = Some v /\ val_says (w_env s) v (lit "12 3") /\
  rule_is s (lit "a") [lit "b"] [[t_ "cc b"]] false /\ file_stops no_files (begun s) (mk "z = 1~endif~w = 2~").
Proof.
  eexists _, _. split; [|split; [|split; [|split]]].
  - eapply RI_read; [constructor|is_formed| |apply RI_failed; eapply RI_read; [constructor|is_formed| |apply RI_end]].
    + econstructor; [eapply A_rule; [reflexivity|apply says_txt|intros c [<-|[]]; cbn; lia]|]. econstructor; [apply A_assign; [reflexivity|apply G_set]|constructor].
    + econstructor; [apply A_assign; [reflexivity|apply G_now; [discriminate|apply txt_in]]|].
      econstructor; [apply A_assign; [reflexivity|eapply G_more; reflexivity]|].
      econstructor; [eapply A_rule; [reflexivity|apply says_txt|intros c [<-|[]]; cbn; lia]|]. constructor.
  - reflexivity.
  - change (lit "12 3") with (lit "12" ++ [c_space] ++ lit "3"). apply (VS_plus _ _ true); [|constructor; apply says_txt].
    apply VS_later. change (lit "12") with (lit "1" ++ lit "2" ++ []). apply SY_txt. eapply SY_some; [reflexivity|apply VS_now|constructor].
  - eexists; reflexivity.
  - change (mk "z = 1~endif~w = 2~") with ((show_all [SAssign (lit "z") OSet [t_ "1"]] ++ []) ++ lit "endif" ++ nl ++ mk "w = 2~").
    eapply FS_plain.
    + eapply RE_stmts; [is_formed| |apply RE_here]. econstructor; [apply A_assign; [reflexivity|apply G_set]|constructor].
    + rewrite <- (app_nil_r (lit "endif")). apply SP_endif; [reflexivity|constructor].
    + repeat (apply Forall_cons; [reflexivity|]); apply Forall_nil.
    + cbn. intuition discriminate.
Qed.
Lemma session_case : exists st, session no_files m_start some_calls [MOk; MIOError 5; MOk] st.
Proof. destruct calls_case as (s & v & R & _). destruct (written_session _ _ _ _ _ R m_start) as (st & S & _); [apply WriteProofs6.start_rel; reflexivity|]. exists st. exact S. Qed.

Definition some_pieces : list (str * list stmt) :=
  [(lit "a.mk", first_mk); (lit "b.mk", [SIf (Parens false) [r_ "x"] [t_ "1"] [SRule [lit "d"] false [] []; SWords [lit "w"]] None]); (lit "a.mk", second_mk)].
Lemma pieces_case : exists s, pieces no_files w_start (List.map snd some_pieces) s /\ w_env s (lit "y") = Some (Now [lit "2"]) /\
  rule_is s (lit "a") [lit "b"] [[t_ "cc b"]] false /\ rule_is s (lit "d") [] [] false.
Proof.
  eexists. split; [|split; [|split]].
  - eapply PI_more; [is_formed|..].
    { econstructor; [eapply A_rule; [reflexivity|apply says_txt|intros c [<-|[]]; cbn; lia]|]. econstructor; [apply A_assign; [reflexivity|apply G_set]|constructor]. }
    { reflexivity. } { reflexivity. }
    eapply PI_more; [is_formed|..].
    { econstructor; [|constructor]. eapply A_if; [|apply says_txt|].
      - eapply SY_some; [reflexivity|apply VS_later; apply SY_txt; eapply SY_none; [reflexivity|constructor]|constructor].
      - match goal with |- acts_all _ ?b _ _ _ => replace b with true by reflexivity end.
        econstructor; [eapply A_rule; [reflexivity|constructor|intros c []]|]. econstructor; [apply A_words; reflexivity|constructor]. }
    { reflexivity. } { reflexivity. }
    eapply PI_last; [is_formed|].
    econstructor; [apply A_assign; [reflexivity|apply G_now; [discriminate|apply txt_in]]|].
    econstructor; [apply A_assign; [reflexivity|eapply G_more; reflexivity]|].
    econstructor; [eapply A_rule; [reflexivity|apply says_txt|intros c [<-|[]]; cbn; lia]|]. constructor.
  - reflexivity.
  - eexists; reflexivity.
  - eexists; reflexivity.
Qed.

(** Variables and rules accumulate, but a conditional that is left open ends with its file. *)
Lemma lost_case : every well_formed first_mk /\ well_formed (SRule [lit "all"] true [t_ "prog"] [[t_ "cc"; Dol]]) /\ well_formed (SAssign (lit "z") OSet [r_ "x"]) /\
  exists s, acts_all no_files true w_start first_mk s /\ w_deaf s = false /\ says (w_env s) [t_ "prog"] (lit "prog") /\ safe_deps (lit "prog").
Proof.
  split; [is_formed|]. split; [|split].
  - split; [discriminate|]. split; [is_names|]. split; [is_deps|]. constructor; [apply RX_line, WriteProofs2.ordinary_command; is_made|constructor].
  - split; [is_name|is_value].
  - eexists. split; [|split; [|split; [apply says_txt|]]].
    + econstructor; [eapply A_rule; [reflexivity|apply says_txt|intros c [<-|[]]; cbn; lia]|]. econstructor; [apply A_assign; [reflexivity|apply G_set]|constructor].
    + reflexivity.
    + intros c I Q. cbn in I, Q. lia.
Qed.
